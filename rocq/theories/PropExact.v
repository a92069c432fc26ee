(** * Property C75: quantised networks compute without rounding *)
From Coq Require Import ZArith Reals Lra Psatz.
From Flocq Require Import Core BinarySingleNaN.
From Verif Require Import Base BaseFacts Float Matrix Cplx Act Input Loss Dense Conv Layer Dataset Network Examples RFloat BFloat CFacts
  SpecMatrix SpecLayer SpecConv SpecNet SpecGeom SpecRound SpecExact RoundFacts RoundNet ExactNet ExactCalc.
Local Notation re := Cplx.re. Local Notation im := Cplx.im.
Local Notation P32 := Float.P32. Local Notation P64 := Float.P64.
Local Open Scope nat_scope.

(** The network computing with floats returns exactly what the same network
    computing with real numbers returns. *)
Theorem C75_f32 : forall (L : libm (binary_float 24 128)) (n : network (B32Ops L)) g g' e e' x,
  n <> [] -> fit_all (B32Ops L) n g g' -> has_geom g x -> Forall (gridded 24 128 e) (vals x) ->
  quantised 24 128 prec24 emax128 L n g e (sizes 24 128 x) e' ->
  exists y, net_forward (B32Ops L) P32 n x = Ret (Ok y) /\
    net_forward ROps P32 (map (exact_layer 24 128 prec24 emax128 L) n) (ioval x) = Ret (Ok (ioval y)) /\
    has_geom g' y /\ Forall (gridded 24 128 e') (vals y).
Proof. intros L. exact (network_exact 24 128 prec24 emax128 L P32). Qed.
Print Assumptions C75_f32.

Theorem C75_f64 : forall (L : libm (binary_float 53 1024)) (n : network (B64Ops L)) g g' e e' x,
  n <> [] -> fit_all (B64Ops L) n g g' -> has_geom g x -> Forall (gridded 53 1024 e) (vals x) ->
  quantised 53 1024 prec53 emax1024 L n g e (sizes 53 1024 x) e' ->
  exists y, net_forward (B64Ops L) P64 n x = Ret (Ok y) /\
    net_forward ROps P64 (map (exact_layer 53 1024 prec53 emax1024 L) n) (ioval x) = Ret (Ok (ioval y)) /\
    has_geom g' y /\ Forall (gridded 53 1024 e') (vals y).
Proof. intros L. exact (network_exact 53 1024 prec53 emax1024 L P64). Qed.
Print Assumptions C75_f64.

(** One dense layer with whole numbers, spelt out: exact as long as the absolute
    values of everything that is added up stay within 2^24 (2^53). *)
Theorem C75_dense_f32 : forall (L : libm (binary_float 24 128)) (l : dense (B32Ops L)) x,
  dense_wf (B32Ops L) l -> d_func l = ActNone -> length x = inputs (B32Ops L) l ->
  Forall (gridded 24 128 0) (body (d_weights l)) -> Forall (gridded 24 128 0) (d_biases l) -> Forall (gridded 24 128 0) x ->
  let z := c_default (B32Ops L) in let n := inputs (B32Ops L) l in
  let size i := (csum (fun j => amul (cval (weight (B32Ops L) l i j)) (cabs (cval (nth j x z)))) n + cabs (cval (nth i (d_biases l) z)))%RC in
  let exact i := (csum (fun j => cval (weight (B32Ops L) l i j) * cval (nth j x z)) n + cval (nth i (d_biases l) z))%RC in
  (forall i, i < units (B32Ops L) l -> (re (size i) <= 2 ^ 24)%R /\ (im (size i) <= 2 ^ 24)%R) ->
  exists y, dense_forward (B32Ops L) P32 l (IOScalar x) = Ret (Ok (IOScalar y)) /\ length y = units (B32Ops L) l /\
    forall i, i < units (B32Ops L) l -> cfinite (nth i y z) /\ cval (nth i y z) = exact i.
Proof. exact dense_whole_f32. Qed.
Print Assumptions C75_dense_f32.

Theorem C75_dense_f64 : forall (L : libm (binary_float 53 1024)) (l : dense (B64Ops L)) x,
  dense_wf (B64Ops L) l -> d_func l = ActNone -> length x = inputs (B64Ops L) l ->
  Forall (gridded 53 1024 0) (body (d_weights l)) -> Forall (gridded 53 1024 0) (d_biases l) -> Forall (gridded 53 1024 0) x ->
  let z := c_default (B64Ops L) in let n := inputs (B64Ops L) l in
  let size i := (csum (fun j => amul (cval (weight (B64Ops L) l i j)) (cabs (cval (nth j x z)))) n + cabs (cval (nth i (d_biases l) z)))%RC in
  let exact i := (csum (fun j => cval (weight (B64Ops L) l i j) * cval (nth j x z)) n + cval (nth i (d_biases l) z))%RC in
  (forall i, i < units (B64Ops L) l -> (re (size i) <= 2 ^ 53)%R /\ (im (size i) <= 2 ^ 53)%R) ->
  exists y, dense_forward (B64Ops L) P64 l (IOScalar x) = Ret (Ok (IOScalar y)) /\ length y = units (B64Ops L) l /\
    forall i, i < units (B64Ops L) l -> cfinite (nth i y z) /\ cval (nth i y z) = exact i.
Proof. exact dense_whole_f64. Qed.
Print Assumptions C75_dense_f64.

(** The bound cannot be raised: a unit with weight 1 and bias 1 takes 2^24
    (2^53) to itself. *)
Theorem C75_bound_refuted :
  (forall (L : libm (binary_float 24 128)) (l : dense (B32Ops L)) x, l = counter (B32Ops L) -> B2R (x : binary_float 24 128) = (2 ^ 24)%R ->
     is_finite (x : binary_float 24 128) = true ->
     exists y : cplx (binary_float 24 128), dense_forward (B32Ops L) P32 l (IOScalar [mkC x (fzero (B32Ops L))]) = Ret (Ok (IOScalar [y])) /\ B2R (re y) = (2 ^ 24)%R) /\
  (forall (L : libm (binary_float 53 1024)) (l : dense (B64Ops L)) x, l = counter (B64Ops L) -> B2R (x : binary_float 53 1024) = (2 ^ 53)%R ->
     is_finite (x : binary_float 53 1024) = true ->
     exists y : cplx (binary_float 53 1024), dense_forward (B64Ops L) P64 l (IOScalar [mkC x (fzero (B64Ops L))]) = Ret (Ok (IOScalar [y])) /\ B2R (re y) = (2 ^ 53)%R).
Proof. exact counter_stuck. Qed.
Print Assumptions C75_bound_refuted.

(** A 3 x 3 image of integers through a convolution with weights 3/2 and -3/2, a
    2 x 2 mean, a flattening and a rectified unit: multiples of 1, 1/2, 1/8,
    1/8 and 1/16. *)
Section Ex.
Context (L : libm (binary_float 24 128)).
Local Notation Fl := (B32Ops L).
Definition q32 (s : bool) : binary_float 24 128 := @B754_finite 24 128 s 12582912 (-23) eq_refl.
Definition i32 (s : bool) : binary_float 24 128 := @B754_finite 24 128 s 12582912 (-22) eq_refl.
Definition wq (s : bool) : cplx (binary_float 24 128) := mkC (q32 s) (q32 (negb s)).
Definition xq : cplx (binary_float 24 128) := mkC (i32 false) (i32 true).
Definition eq_conv : conv Fl := mkConv Fl 1 (from_body [from_body [wq true; wq false; wq false; wq true] 2 2] 1 1) [wq false] RITReLU.
Definition eq_pool : red Fl := red_init Fl 1 2 2 (avg_block Fl) m_new.
Definition eq_unit : dense Fl := mkDense Fl (from_body [wq true] 1 1) [wq true] RITReLU.
Definition eq_net : network Fl := [LConv eq_conv; LReduce eq_pool; LFlatten (flat_init 1 1 1); LDense eq_unit].
Definition eq_in : IOType (cplx (binary_float 24 128)) := IOMatrix [from_body (repeat xq 9) 3 3].

Lemma q32_grid : forall e s, (e <= -1)%Z -> on_grid e (B2R (q32 s)).
Proof.
  intros e s H. exists ((if s then -3 else 3) * 2 ^ (-1 - e))%Z. rewrite mult_IZR. change (IZR (2 ^ (-1 - e))) with (IZR (Zpower radix2 (-1 - e))).
  rewrite IZR_Zpower by lia. rewrite Rmult_assoc, <- bpow_plus. replace (-1 - e + e)%Z with (-1)%Z by lia. destruct s; unfold q32, B2R, F2R; cbn; lra.
Qed.
Lemma wq_grid : forall e s, (e <= -1)%Z -> gridded 24 128 e (wq s).
Proof. intros e s H. split; [split; reflexivity|]. split; now apply q32_grid. Qed.
Lemma xq_grid : gridded 24 128 0 xq.
Proof. split; [split; reflexivity|]. split; [exists 3%Z | exists (-3)%Z]; unfold xq, i32, B2R, F2R; cbn; lra. Qed.

Example C75_ex : fit_all Fl eq_net (Maps 1 3 3) (Vec 1) /\ has_geom (Maps 1 3 3) eq_in /\ Forall (gridded 24 128 0) (vals eq_in) /\
  quantised 24 128 prec24 emax128 L eq_net (Maps 1 3 3) 0 (sizes 24 128 eq_in) (-4).
Proof.
  split; [|split; [|split]].
  - refine (fit_cons Fl _ _ _ _ _ (fits_conv Fl eq_conv 2 2 3 3 _ _ _ _) _); try lia; try discriminate.
    { repeat split; cbn; try lia. all: destruct H as [<-|[]]; reflexivity. }
    refine (fit_cons Fl _ _ _ _ _ (fits_reduce Fl eq_pool 1 2 2 _ _ _ _ _ _) _); try (cbn; lia); try reflexivity.
    { intros b Hb. cbn [r_func red_init eq_pool r_b0 r_b1 Nat.mul Nat.add] in *. unfold avg_block. rewrite Hb. eexists. reflexivity. }
    refine (fit_cons Fl _ _ _ _ _ (fits_flatten Fl _ 1 1 1) _).
    refine (fit_cons Fl _ _ _ _ _ (fits_dense Fl eq_unit _ _) (fit_nil Fl _)); [|discriminate]. repeat split; discriminate.
  - split; [reflexivity|]. intros m [<-|[]]. repeat split.
  - repeat (constructor; [exact xq_grid|]). constructor.
  - refine (q_cons _ _ _ _ _ _ _ _ _ (-1) _ _ _ _ _).
    { split; [right; reflexivity|]. split; [|repeat constructor; try reflexivity; now apply q32_grid].
      constructor; [|constructor]. repeat (constructor; [now apply wq_grid|]). constructor. }
    { split; [cbn; lia|]. split; [lia|]. intros i Hi. destruct i as [|[|[|[|i]]]]; [| | | |cbn in Hi; lia]; small75. }
    refine (q_cons _ _ _ _ _ _ _ _ _ (-3) _ _ _ _ _).
    { split; [reflexivity|]. exists 2. repeat split; cbn; lia. }
    { split; [cbn; lia|]. split; [lia|]. intros i Hi. destruct i as [|i]; [|cbn in Hi; lia]; small75. }
    refine (q_cons _ _ _ _ _ _ _ _ _ (-3) _ _ _ _ _).
    { reflexivity. }
    { split; [cbn; lia|]. split; [lia|]. intros i Hi. destruct i as [|i]; [|cbn in Hi; lia]; small75. }
    refine (q_cons _ _ _ _ _ _ _ _ _ (-4) _ _ _ _ (q_nil _ _ _ _ _ _ _ _)).
    { split; [right; reflexivity|]. split; (constructor; [now apply wq_grid | constructor]). }
    { split; [cbn; lia|]. split; [lia|]. intros i Hi. destruct i as [|i]; [|cbn in Hi; lia]; small75. }
Qed.
End Ex.

(** A unit with two inputs and whole numbers. *)
Example C75_dense_ex : forall L : libm (binary_float 24 128), let l : dense (B32Ops L) := mkDense (B32Ops L) (from_body [xq; xq] 1 2) [xq] ActNone in
  dense_wf (B32Ops L) l /\ Forall (gridded 24 128 0) (body (d_weights l)) /\ Forall (gridded 24 128 0) (d_biases l) /\ Forall (gridded 24 128 0) [xq; xq] /\
  forall i, i < units (B32Ops L) l ->
    let s := (csum (fun j => amul (cval (weight (B32Ops L) l i j)) (cabs (cval (nth j [xq; xq] (c_default (B32Ops L)))))) 2 + cabs (cval (nth i (d_biases l) (c_default (B32Ops L)))))%RC in
    (re s <= 2 ^ 24)%R /\ (im s <= 2 ^ 24)%R.
Proof.
  intros L l. pose proof xq_grid. split; [repeat split; discriminate|]. split; [repeat constructor; apply H|]. split; [repeat constructor; apply H|].
  split; [repeat constructor; apply H|]. intros i Hi. destruct i as [|i]; [|cbn in Hi; lia]. small75.
Qed.
