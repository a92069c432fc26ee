(** * Whole-number layers, spelt out, and the limit of exactness *)
From Coq Require Import ZArith Reals Lra Psatz.
From Flocq Require Import Core BinarySingleNaN.
From Verif Require Import Base BaseFacts Float Matrix Cplx Act Input Loss Dense Conv Layer Dataset Network Examples RFloat BFloat BFacts CFacts
  SpecMatrix SpecLayer SpecConv SpecNet SpecGeom SpecRound SpecExact DenseFacts RoundFacts RoundNet ExactFacts ExactNet PropDense.
Local Notation re := Cplx.re. Local Notation im := Cplx.im.
Local Notation P32 := Float.P32. Local Notation P64 := Float.P64.
Local Open Scope nat_scope.

(** One input, one unit, weight 1 and bias 1. *)
Definition counter (Fl : FloatOps) : dense Fl :=
  let one := mkC (fone Fl) (fzero Fl) in mkDense Fl (from_body [one] 1 1) [one] ActNone.

Ltac small75 := split; cbv -[Rplus Rmult Rinv Rabs IZR Rle Rminus Ropp pow]; repeat rewrite !Rabs_mult; rewrite ?(Rabs_left (-12582912)%R), ?(Rabs_pos_eq 12582912%R) by lra;
  rewrite ?(Rabs_pos_eq (/ 8388608)%R), ?(Rabs_pos_eq (/ 4194304)%R) by lra; lra.

Section Calc.
Context (prec emax : Z) (Hp : Prec_gt_0 prec) (He : Prec_lt_emax prec emax) (L : libm (binary_float prec emax)) (p : Float.prec).
Local Notation B := (binary_float prec emax).
Local Notation Fl := (BOps prec emax Hp He L).
Local Notation z := (c_default Fl).

Lemma dense_whole : (2 * prec < emax)%Z -> forall (l : dense Fl) x, dense_wf Fl l -> d_func l = ActNone -> length x = inputs Fl l ->
  Forall (gridded prec emax 0) (body (d_weights l)) -> Forall (gridded prec emax 0) (d_biases l) -> Forall (gridded prec emax 0) x ->
  let n := inputs Fl l in
  let size i := (csum (fun j => amul (cval (weight Fl l i j)) (cabs (cval (nth j x z)))) n + cabs (cval (nth i (d_biases l) z)))%RC in
  let exact i := (csum (fun j => cval (weight Fl l i j) * cval (nth j x z)) n + cval (nth i (d_biases l) z))%RC in
  (forall i, i < units Fl l -> (re (size i) <= bpow radix2 prec)%R /\ (im (size i) <= bpow radix2 prec)%R) ->
  exists y, dense_forward Fl p l (IOScalar x) = Ret (Ok (IOScalar y)) /\ length y = units Fl l /\
    forall i, i < units Fl l -> cfinite (nth i y z) /\ cval (nth i y z) = exact i.
Proof.
  intros PE l x W AC LX FW FB FX n size exact H.
  assert (EX : forall j, j < n -> nth j (sizes prec emax (IOScalar x)) 0%RC = cabs (cval (nth j x z))).
  { intros j J. unfold sizes. cbn [vals]. rewrite (nth_map_lt (fun v => cabs (cval v)) x j z) by (rewrite LX; exact J). reflexivity. }
  assert (SZ : forall i, i < units Fl l -> nth i (through prec emax Hp He L 0%RC cabs (LDense l) (Vec n) (sizes prec emax (IOScalar x))) 0%RC = size i).
  { intros i I. unfold through. rewrite nth_map_seq by auto. unfold size. f_equal. apply csum_ext. intros j J. rewrite add_zero. now rewrite EX. }
  assert (RS : rescales prec emax Hp He L (LDense l) 0 0) by (split; [now left | split; assumption]).
  assert (KN : known prec emax Hp He L (Vec n) 0 (sizes prec emax (IOScalar x)) (IOScalar x)) by (apply input_known; [exact LX | exact FX]).
  assert (RM : roomy prec emax 0 (Vec (units Fl l)) (through prec emax Hp He L 0%RC cabs (LDense l) (Vec n) (sizes prec emax (IOScalar x)))).
  { assert (PG : (0 < prec)%Z) by exact Hp. split; [unfold SpecFloat.emin; lia|]. split; [lia|]. intros i I. rewrite SZ by exact I. rewrite Z.add_0_r. apply H. exact I. }
  destruct (dense_known prec emax Hp He L p l 0 0 _ x W RS KN RM) as ([y|ms] & E & E' & (GY & N)); [|contradiction].
  cbn [layer_forward] in E. cbn [has_geom] in GY. exists y. split; [exact E|]. split; [exact GY|]. intros i I.
  destruct (N i I) as [(F1 & _) (F2 & _)]. split; [split; assumption|].
  set (l' := mkDense ROps (mval (d_weights l)) (map cval (d_biases l)) (d_func l)).
  assert (W' : dense_wf ROps l') by (destruct W as (W1 & W2 & W3); repeat split; cbn; [unfold wf in *; cbn; now rewrite map_length | now rewrite map_length | exact W3]).
  assert (GR : length (map cval x) = inputs ROps l') by (rewrite map_length; exact LX).
  apply (C40_forward ROps p l' (map cval x) W' GR) in E' as (_ & E'). specialize (E' i I). cbn [d_func l'] in E'. unfold l' in E'. cbn [d_func] in E'. rewrite AC in E'. cbn [activate] in E'.
  injection E' as E'. fold l' in E'. refine (eq_trans (eq_sym (RoundNet.cval_nth prec emax Hp He L y i)) (eq_trans (eq_sym E') _)).
  unfold pre, exact. change (inputs ROps l') with n. f_equal; [|exact (RoundNet.cval_nth prec emax Hp He L (d_biases l) i)].
  apply csum_ext. intros j J. exact (f_equal2 (c_mul ROps) (exact_weight prec emax Hp He L l i j) (RoundNet.cval_nth prec emax Hp He L x j)).
Qed.
End Calc.

Lemma dense_whole_f32 : forall (L : libm (binary_float 24 128)) (l : dense (B32Ops L)) x,
  dense_wf (B32Ops L) l -> d_func l = ActNone -> length x = inputs (B32Ops L) l ->
  Forall (gridded 24 128 0) (body (d_weights l)) -> Forall (gridded 24 128 0) (d_biases l) -> Forall (gridded 24 128 0) x ->
  let z := c_default (B32Ops L) in let n := inputs (B32Ops L) l in
  let size i := (csum (fun j => amul (cval (weight (B32Ops L) l i j)) (cabs (cval (nth j x z)))) n + cabs (cval (nth i (d_biases l) z)))%RC in
  let exact i := (csum (fun j => cval (weight (B32Ops L) l i j) * cval (nth j x z)) n + cval (nth i (d_biases l) z))%RC in
  (forall i, i < units (B32Ops L) l -> (re (size i) <= 2 ^ 24)%R /\ (im (size i) <= 2 ^ 24)%R) ->
  exists y, dense_forward (B32Ops L) P32 l (IOScalar x) = Ret (Ok (IOScalar y)) /\ length y = units (B32Ops L) l /\
    forall i, i < units (B32Ops L) l -> cfinite (nth i y z) /\ cval (nth i y z) = exact i.
Proof.
  intros L l x W A LX FW FB FX z n size exact H. apply (dense_whole 24 128 prec24 emax128 L P32); auto; [lia|].
  intros i I. replace (bpow radix2 24) with (2 ^ 24)%R by (cbn; lra). exact (H i I).
Qed.

Lemma dense_whole_f64 : forall (L : libm (binary_float 53 1024)) (l : dense (B64Ops L)) x,
  dense_wf (B64Ops L) l -> d_func l = ActNone -> length x = inputs (B64Ops L) l ->
  Forall (gridded 53 1024 0) (body (d_weights l)) -> Forall (gridded 53 1024 0) (d_biases l) -> Forall (gridded 53 1024 0) x ->
  let z := c_default (B64Ops L) in let n := inputs (B64Ops L) l in
  let size i := (csum (fun j => amul (cval (weight (B64Ops L) l i j)) (cabs (cval (nth j x z)))) n + cabs (cval (nth i (d_biases l) z)))%RC in
  let exact i := (csum (fun j => cval (weight (B64Ops L) l i j) * cval (nth j x z)) n + cval (nth i (d_biases l) z))%RC in
  (forall i, i < units (B64Ops L) l -> (re (size i) <= 2 ^ 53)%R /\ (im (size i) <= 2 ^ 53)%R) ->
  exists y, dense_forward (B64Ops L) P64 l (IOScalar x) = Ret (Ok (IOScalar y)) /\ length y = units (B64Ops L) l /\
    forall i, i < units (B64Ops L) l -> cfinite (nth i y z) /\ cval (nth i y z) = exact i.
Proof.
  intros L l x W A LX FW FB FX z n size exact H. apply (dense_whole 53 1024 prec53 emax1024 L P64); auto; [lia|].
  intros i I. replace (bpow radix2 53) with (2 ^ 53)%R by (cbn; lra). exact (H i I).
Qed.

(** The float worth 2^prec. *)
Lemma sf_unique : forall prec emax (x y : binary_float prec emax), is_finite x = true -> is_finite y = true -> B2R x = B2R y -> B2R y <> 0%R -> x = y.
Proof.
  intros prec emax x y FX FY V NZ. apply B2R_inj; [| |exact V].
  - destruct x; cbn in *; try discriminate; [congruence | reflexivity].
  - destruct y; cbn in *; try discriminate; [congruence | reflexivity].
Qed.

Lemma counter_stuck :
  (forall (L : libm (binary_float 24 128)) (l : dense (B32Ops L)) x, l = counter (B32Ops L) -> B2R (x : binary_float 24 128) = (2 ^ 24)%R ->
     is_finite (x : binary_float 24 128) = true ->
     exists y : cplx (binary_float 24 128), dense_forward (B32Ops L) P32 l (IOScalar [mkC x (fzero (B32Ops L))]) = Ret (Ok (IOScalar [y])) /\ B2R (re y) = (2 ^ 24)%R) /\
  (forall (L : libm (binary_float 53 1024)) (l : dense (B64Ops L)) x, l = counter (B64Ops L) -> B2R (x : binary_float 53 1024) = (2 ^ 53)%R ->
     is_finite (x : binary_float 53 1024) = true ->
     exists y : cplx (binary_float 53 1024), dense_forward (B64Ops L) P64 l (IOScalar [mkC x (fzero (B64Ops L))]) = Ret (Ok (IOScalar [y])) /\ B2R (re y) = (2 ^ 53)%R).
Proof.
  split; intros L l x -> V F.
  - assert (X : x = @B754_finite 24 128 false 8388608 1 eq_refl) by (apply sf_unique; [exact F | reflexivity | rewrite V; unfold B2R, F2R; cbn; lra | apply Rgt_not_eq; unfold B2R, F2R; cbn; lra]). subst x.
    eexists. split; [reflexivity|]. cbn [re].
    match goal with |- B2R ?y = _ => destruct (sf_val 24 128 y 8388608 1 ltac:(vm_compute; reflexivity)) as (_ & E); rewrite E; cbn; lra end.
  - assert (X : x = @B754_finite 53 1024 false 4503599627370496 1 eq_refl) by (apply sf_unique; [exact F | reflexivity | rewrite V; unfold B2R, F2R; cbn; lra | apply Rgt_not_eq; unfold B2R, F2R; cbn; lra]). subst x.
    eexists. split; [reflexivity|]. cbn [re].
    match goal with |- B2R ?y = _ => destruct (sf_val 53 1024 y 4503599627370496 1 ltac:(vm_compute; reflexivity)) as (_ & E); rewrite E; cbn; lra end.
Qed.
