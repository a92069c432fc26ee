(** * Property C69: rounding error of a forward pass *)
From Coq Require Import ZArith Reals Lra.
From Flocq Require Import Core BinarySingleNaN.
From Verif Require Import Base BaseFacts Float Matrix Cplx Act Input Loss Dense Conv Layer Dataset Network Examples RFloat BFloat CFacts
  SpecMatrix SpecLayer SpecConv SpecNet SpecGeom SpecRound RoundFacts RoundNet.
Local Notation re := Cplx.re. Local Notation im := Cplx.im.
Local Notation P32 := Float.P32. Local Notation P64 := Float.P64.
Local Open Scope nat_scope.

(** Single precision.  The network returns, the same network computing with real
    numbers returns, and every number of the first result is within its budget
    of the second. *)
Theorem C69_f32 : forall (L : libm (binary_float 24 128)) et ee (n : network (B32Ops L)) g g' x,
  (Exists (uses_libm 24 128 prec24 emax128 L) n -> libm_within 24 128 L et ee) -> n <> [] -> fit_all (B32Ops L) n g g' -> Forall (covered 24 128 prec24 emax128 L) n ->
  has_geom g x -> Forall cfinite (vals x) ->
  net_headroom 24 128 prec24 emax128 L P32 et ee n g (input_budget 24 128 x) ->
  exists y r, net_forward (B32Ops L) P32 n x = Ret (Ok y) /\
    net_forward ROps P32 (map (exact_layer 24 128 prec24 emax128 L) n) (ioval x) = Ret (Ok r) /\
    has_geom g' y /\ has_geom g' r /\
    let b := net_budget 24 128 prec24 emax128 L P32 et ee n g (input_budget 24 128 x) in
    forall i, i < gsize g' -> within 24 128 b i (nth i (vals y) (c_default (B32Ops L))) (nth i (vals r) 0%RC).
Proof.
  intros L et ee n g g' x HL NE HF CV G FX HR.
  destruct (network_round 24 128 prec24 emax128 L P32 et ee (literals32 L) n g g' x NE HF CV HL G FX HR) as (y & r & E & E' & GY & GR & N).
  exists y, r. repeat (split; [assumption|]). intros b i I. apply near_within. exact (N i I).
Qed.
Print Assumptions C69_f32.

Theorem C69_f64 : forall (L : libm (binary_float 53 1024)) et ee (n : network (B64Ops L)) g g' x,
  (Exists (uses_libm 53 1024 prec53 emax1024 L) n -> libm_within 53 1024 L et ee) -> n <> [] -> fit_all (B64Ops L) n g g' -> Forall (covered 53 1024 prec53 emax1024 L) n ->
  has_geom g x -> Forall cfinite (vals x) ->
  net_headroom 53 1024 prec53 emax1024 L P64 et ee n g (input_budget 53 1024 x) ->
  exists y r, net_forward (B64Ops L) P64 n x = Ret (Ok y) /\
    net_forward ROps P64 (map (exact_layer 53 1024 prec53 emax1024 L) n) (ioval x) = Ret (Ok r) /\
    has_geom g' y /\ has_geom g' r /\
    let b := net_budget 53 1024 prec53 emax1024 L P64 et ee n g (input_budget 53 1024 x) in
    forall i, i < gsize g' -> within 53 1024 b i (nth i (vals y) (c_default (B64Ops L))) (nth i (vals r) 0%RC).
Proof.
  intros L et ee n g g' x HL NE HF CV G FX HR.
  destruct (network_round 53 1024 prec53 emax1024 L P64 et ee (literals64 L) n g g' x NE HF CV HL G FX HR) as (y & r & E & E' & GY & GR & N).
  exists y, r. repeat (split; [assumption|]). intros b i I. apply near_within. exact (N i I).
Qed.
Print Assumptions C69_f64.

(** One dense layer without activation, spelt out: the classical bound for dot
    products, n + 3 roundings of everything that is added up. *)
Theorem C69_dense_f32 : forall (L : libm (binary_float 24 128)) (l : dense (B32Ops L)) x,
  dense_wf (B32Ops L) l -> d_func l = ActNone -> length x = inputs (B32Ops L) l ->
  Forall cfinite (body (d_weights l)) -> Forall cfinite (d_biases l) -> Forall cfinite x ->
  let z := c_default (B32Ops L) in let n := inputs (B32Ops L) l in
  let w := ((1 + uu 24) ^ (n + 3))%R in let e := (INR n * (3 * SpecRound.eta 24 128))%R in
  let size i := (csum (fun j => amul (cval (weight (B32Ops L) l i j)) (cabs (cval (nth j x z)))) n + cabs (cval (nth i (d_biases l) z)))%RC in
  let exact i := (csum (fun j => cval (weight (B32Ops L) l i j) * cval (nth j x z)) n + cval (nth i (d_biases l) z))%RC in
  (forall i, i < units (B32Ops L) l -> (w * (re (size i) + e) < SpecRound.omega 128)%R /\ (w * (im (size i) + e) < SpecRound.omega 128)%R) ->
  exists y, dense_forward (B32Ops L) P32 l (IOScalar x) = Ret (Ok (IOScalar y)) /\ length y = units (B32Ops L) l /\
    forall i, i < units (B32Ops L) l -> cfinite (nth i y z) /\
      (Rabs (B2R (re (nth i y z)) - re (exact i)) <= (w - 1) * re (size i) + w * e)%R /\
      (Rabs (B2R (im (nth i y z)) - im (exact i)) <= (w - 1) * im (size i) + w * e)%R.
Proof. intros L. exact (dense_explicit 24 128 prec24 emax128 L P32 0 0 (literals32 L)). Qed.
Print Assumptions C69_dense_f32.

Theorem C69_dense_f64 : forall (L : libm (binary_float 53 1024)) (l : dense (B64Ops L)) x,
  dense_wf (B64Ops L) l -> d_func l = ActNone -> length x = inputs (B64Ops L) l ->
  Forall cfinite (body (d_weights l)) -> Forall cfinite (d_biases l) -> Forall cfinite x ->
  let z := c_default (B64Ops L) in let n := inputs (B64Ops L) l in
  let w := ((1 + uu 53) ^ (n + 3))%R in let e := (INR n * (3 * SpecRound.eta 53 1024))%R in
  let size i := (csum (fun j => amul (cval (weight (B64Ops L) l i j)) (cabs (cval (nth j x z)))) n + cabs (cval (nth i (d_biases l) z)))%RC in
  let exact i := (csum (fun j => cval (weight (B64Ops L) l i j) * cval (nth j x z)) n + cval (nth i (d_biases l) z))%RC in
  (forall i, i < units (B64Ops L) l -> (w * (re (size i) + e) < SpecRound.omega 1024)%R /\ (w * (im (size i) + e) < SpecRound.omega 1024)%R) ->
  exists y, dense_forward (B64Ops L) P64 l (IOScalar x) = Ret (Ok (IOScalar y)) /\ length y = units (B64Ops L) l /\
    forall i, i < units (B64Ops L) l -> cfinite (nth i y z) /\
      (Rabs (B2R (re (nth i y z)) - re (exact i)) <= (w - 1) * re (size i) + w * e)%R /\
      (Rabs (B2R (im (nth i y z)) - im (exact i)) <= (w - 1) * im (size i) + w * e)%R.
Proof. intros L. exact (dense_explicit 53 1024 prec53 emax1024 L P64 0 0 (literals64 L)). Qed.
Print Assumptions C69_dense_f64.

(** The usual form of the factor: k roundings of relative size u amount to at
    most k u / (1 - k u). *)
Theorem C69_gamma : forall prec k, (INR k * uu prec < 1 -> (1 + uu prec) ^ k - 1 <= INR k * uu prec / (1 - INR k * uu prec))%R.
Proof. intros prec k. apply gamma_bound. left. apply uu_pos. Qed.
Print Assumptions C69_gamma.

(** Half an ulp of 1, half the smallest positive number and the overflow
    threshold of the two formats. *)
Theorem C69_units :
  (uu 24 = / 2 ^ 24 /\ SpecRound.eta 24 128 = / 2 ^ 150 /\ SpecRound.omega 128 = 2 ^ 128)%R /\
  (uu 53 = / 2 ^ 53 /\ SpecRound.eta 53 1024 = / 2 ^ 1075 /\ SpecRound.omega 1024 = 2 ^ 1024)%R.
Proof. exact units_values. Qed.
Print Assumptions C69_units.

(** A platform whose tanh and exp are correctly rounded meets the accuracy
    demanded with two units; such a platform can exist. *)
Theorem C69_platform : forall L32 L64,
  (correctly_rounded 24 128 L32 -> libm_within 24 128 L32 (2 * uu 24) (2 * uu 24)) /\
  (correctly_rounded 53 1024 L64 -> libm_within 53 1024 L64 (2 * uu 53) (2 * uu 53)) /\
  (exists L, correctly_rounded 24 128 L) /\ (exists L, correctly_rounded 53 1024 L).
Proof. exact platform. Qed.
Print Assumptions C69_platform.

(** A 3 x 3 image through a convolution, a pooling, a flattening and a sigmoid
    unit, with weights 3/2 and -3/2. *)
Definition h32 (s : bool) : binary_float 24 128 := @B754_finite 24 128 s 12582912 (-23) eq_refl.
Definition w32 (s : bool) : cplx (binary_float 24 128) := mkC (h32 s) (h32 (negb s)).
Ltac small := split; cbv -[Rplus Rmult Rinv Rabs IZR Rlt Rminus Ropp pow]; repeat rewrite !Rabs_mult; repeat rewrite ?(Rabs_left (-12582912)%R), ?(Rabs_pos_eq 12582912%R) by lra;
  rewrite ?(Rabs_pos_eq (/ 8388608)%R) by lra; lra.

Section Ex.
Context (L : libm (binary_float 24 128)).
Local Notation Fl := (B32Ops L).
Definition ex_conv : conv Fl := mkConv Fl 1 (from_body [from_body [w32 true; w32 false; w32 false; w32 true] 2 2] 1 1) [w32 false] RITReLU.
Definition ex_pool : red Fl := red_init Fl 1 2 2 (avg_block Fl) m_new.
Definition ex_unit : dense Fl := mkDense Fl (from_body [w32 true] 1 1) [w32 true] RITSigmoid.
Definition ex_net : network Fl := [LConv ex_conv; LReduce ex_pool; LFlatten (flat_init 1 1 1); LDense ex_unit].
Definition ex_in : IOType (cplx (binary_float 24 128)) := IOMatrix [from_body (repeat (w32 false) 9) 3 3].

Example C69_ex : forall et ee, libm_within 24 128 L et ee ->
  fit_all Fl ex_net (Maps 1 3 3) (Vec 1) /\ Forall (covered 24 128 prec24 emax128 L) ex_net /\
  has_geom (Maps 1 3 3) ex_in /\ Forall cfinite (vals ex_in) /\
  net_headroom 24 128 prec24 emax128 L P32 et ee ex_net (Maps 1 3 3) (input_budget 24 128 ex_in).
Proof.
  intros et ee HL. split; [|split; [|split; [|split]]].
  - refine (fit_cons Fl _ _ _ _ _ (fits_conv Fl ex_conv 2 2 3 3 _ _ _ _) _); try lia; try discriminate.
    { repeat split; cbn; try lia. all: destruct H as [<-|[]]; reflexivity. }
    refine (fit_cons Fl _ _ _ _ _ (fits_reduce Fl ex_pool 1 2 2 _ _ _ _ _ _) _); try (cbn; lia); try reflexivity.
    { intros b Hb. cbn [r_func red_init ex_pool r_b0 r_b1 Nat.mul Nat.add] in *. unfold avg_block. rewrite Hb. eexists. reflexivity. }
    refine (fit_cons Fl _ _ _ _ _ (fits_flatten Fl _ 1 1 1) _).
    refine (fit_cons Fl _ _ _ _ _ (fits_dense Fl ex_unit _ _) (fit_nil Fl _)); [|discriminate]. repeat split; discriminate.
  - constructor; [split; [right; left; reflexivity | split; repeat constructor]|]. constructor; [split; [reflexivity | cbn; lia]|].
    constructor; [exact I|]. constructor; [|constructor]. split; [right; right; right; reflexivity | split; repeat constructor].
  - split; [reflexivity|]. intros m [<-|[]]. repeat split.
  - repeat constructor.
  - split; [|split; [|split; [|split; [|exact I]]]].
    + intros i Hi. destruct i as [|[|[|[|i]]]]; [| | | |cbn in Hi; lia]; small.
    + intros i Hi. destruct i as [|i]; [|cbn in Hi; lia]; small.
    + intros i Hi. destruct i as [|i]; [|cbn in Hi; lia]; small.
    + intros i Hi. destruct i as [|i]; [|cbn in Hi; lia]; small.
Qed.
End Ex.

(** A unit with two inputs. *)
Example C69_dense_ex : forall (L : libm (binary_float 24 128)) (L' : libm (binary_float 53 1024)),
  let w64 s : cplx (binary_float 53 1024) := let h s := @B754_finite 53 1024 s 6755399441055744 (-52) eq_refl in mkC (h s) (h (negb s)) in
  let l := mkDense (B32Ops L) (from_body [w32 true; w32 false] 1 2) [w32 true] ActNone in
  let l' := mkDense (B64Ops L') (from_body [w64 true; w64 false] 1 2) [w64 true] ActNone in
  let size i := (csum (fun j => amul (cval (weight (B32Ops L) l i j)) (cabs (cval (nth j [w32 true; w32 true] (c_default (B32Ops L)))))) 2 + cabs (cval (nth i (d_biases l) (c_default (B32Ops L)))))%RC in
  let size' i := (csum (fun j => amul (cval (weight (B64Ops L') l' i j)) (cabs (cval (nth j [w64 true; w64 true] (c_default (B64Ops L')))))) 2 + cabs (cval (nth i (d_biases l') (c_default (B64Ops L')))))%RC in
  dense_wf (B32Ops L) l /\ dense_wf (B64Ops L') l' /\
  ((1 + uu 24) ^ 5 * (re (size O) + INR 2 * (3 * SpecRound.eta 24 128)) < SpecRound.omega 128)%R /\
  ((1 + uu 53) ^ 5 * (re (size' O) + INR 2 * (3 * SpecRound.eta 53 1024)) < SpecRound.omega 1024)%R.
Proof.
  intros L L' w64 l l' size size'. split; [repeat split; discriminate|]. split; [repeat split; discriminate|].
  assert (S1 : re (size O) = (21 / 2)%R).
  { cbv -[Rplus Rmult Rinv Rdiv Rabs IZR Rlt Rminus Ropp pow]. rewrite !Rabs_mult, ?(Rabs_left (-12582912)%R), ?(Rabs_pos_eq 12582912%R), ?(Rabs_pos_eq (/ 8388608)%R) by lra. lra. }
  assert (S2 : re (size' O) = (21 / 2)%R).
  { cbv -[Rplus Rmult Rinv Rdiv Rabs IZR Rlt Rminus Ropp pow]. rewrite !Rabs_mult, ?(Rabs_left (-6755399441055744)%R), ?(Rabs_pos_eq 6755399441055744%R), ?(Rabs_pos_eq (/ 4503599627370496)%R) by lra. lra. }
  rewrite S1, S2. destruct C69_units as ((U1 & E1 & O1) & (U2 & E2 & O2)). rewrite U1, E1, O1, U2, E2, O2. change (INR 2) with (1 + 1)%R.
  assert (S3 : (/ 2 ^ 1075 <= 1)%R) by (rewrite <- Rinv_1; apply Rinv_le; [lra | apply pow_R1_Rle; lra]).
  assert (S4 : (2 ^ 10 <= 2 ^ 1024)%R) by (apply Rle_pow; [lra | lia]).
  split; [lra|]. eapply Rlt_le_trans; [|exact S4]. apply (Rle_lt_trans _ ((1 + / 2 ^ 53) ^ 5 * (21 / 2 + (1 + 1) * (3 * 1)))%R); [|lra].
  apply Rmult_le_compat_l; [lra|]. lra.
Qed.
