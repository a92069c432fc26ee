(** * Property C89: the class predicted in floating point *)
From Coq Require Import ZArith Reals Lra.
From Flocq Require Import Core BinarySingleNaN.
From Verif Require Import Base BaseFacts Float Matrix Cplx Act Input Dense Conv Layer Dataset Network RFloat BFloat CFacts SpecMatrix SpecGeom SpecRound SpecLip SpecEval
  RoundFacts RoundNet SpecClass ClassFacts ClassEx.
Local Notation P32 := Float.P32. Local Notation P64 := Float.P64.
Local Open Scope nat_scope.

Lemma small32 : (uu 24 <= / 4)%R. Proof. rewrite (proj1 (proj1 units_values)). lra. Qed.
Lemma small64 : (uu 53 <= / 4)%R. Proof. rewrite (proj1 (proj2 units_values)). lra. Qed.

(** Of two finite numbers, the one whose modulus is clearly larger compares
    larger. *)
Theorem C89_comparison :
  (forall L (a b : cplx (binary_float 24 128)), cfinite a -> cfinite b -> (sq_above 24 128 (modulus (cval b)) < SpecRound.omega 128)%R ->
     (sq_above 24 128 (modulus (cval a)) < sq_below 24 128 (modulus (cval b)))%R -> c_lt (B32Ops L) a b = true) /\
  (forall L (a b : cplx (binary_float 53 1024)), cfinite a -> cfinite b -> (sq_above 53 1024 (modulus (cval b)) < SpecRound.omega 1024)%R ->
     (sq_above 53 1024 (modulus (cval a)) < sq_below 53 1024 (modulus (cval b)))%R -> c_lt (B64Ops L) a b = true).
Proof. split; [intros L; exact (comparison 24 128 prec24 emax128 L small32) | intros L; exact (comparison 53 1024 prec53 emax1024 L small64)]. Qed.
Print Assumptions C89_comparison.

(** The class predicted in single precision is the one the same network
    predicts with real numbers, if the latter leads by more than its rounding
    budget. *)
Theorem C89_f32 : forall (L : libm (binary_float 24 128)) et ee (n : network (B32Ops L)) g k x,
  (Exists (uses_libm 24 128 prec24 emax128 L) n -> libm_within 24 128 L et ee) -> n <> [] -> fit_all (B32Ops L) n g (Vec k) ->
  Forall (covered 24 128 prec24 emax128 L) n -> clear_input 24 128 prec24 emax128 L P32 et ee n g x ->
  exists y r i, predicts (B32Ops L) P32 n x y /\ predicts ROps P32 (map (exact_layer 24 128 prec24 emax128 L) n) (ioval x) r /\ i < k /\ length y = k /\ length r = k /\
    max_index (B32Ops L) y = i /\ max_index ROps r = i.
Proof. intros L et ee. exact (class_round 24 128 prec24 emax128 L small32 P32 et ee (literals32 L)). Qed.
Print Assumptions C89_f32.

Theorem C89_f64 : forall (L : libm (binary_float 53 1024)) et ee (n : network (B64Ops L)) g k x,
  (Exists (uses_libm 53 1024 prec53 emax1024 L) n -> libm_within 53 1024 L et ee) -> n <> [] -> fit_all (B64Ops L) n g (Vec k) ->
  Forall (covered 53 1024 prec53 emax1024 L) n -> clear_input 53 1024 prec53 emax1024 L P64 et ee n g x ->
  exists y r i, predicts (B64Ops L) P64 n x y /\ predicts ROps P64 (map (exact_layer 53 1024 prec53 emax1024 L) n) (ioval x) r /\ i < k /\ length y = k /\ length r = k /\
    max_index (B64Ops L) y = i /\ max_index ROps r = i.
Proof. intros L et ee. exact (class_round 53 1024 prec53 emax1024 L small64 P64 et ee (literals64 L)). Qed.
Print Assumptions C89_f64.

(** If that holds at every point of a data set, the accuracy is the exact one,
    rounded once. *)
Theorem C89_accuracy_f32 : forall (L : libm (binary_float 24 128)) et ee (n : network (B32Ops L)) g k d targs,
  (Exists (uses_libm 24 128 prec24 emax128 L) n -> libm_within 24 128 L et ee) -> n <> [] -> fit_all (B32Ops L) n g (Vec k) ->
  Forall (covered 24 128 prec24 emax128 L) n -> Forall (clear_input 24 128 prec24 emax128 L P32 et ee n g) (ds_inputs d) ->
  ds_target d = map (@IOScalar _) targs -> Forall (clear_target 24 128) targs -> length targs = length (ds_inputs d) -> 1 <= length targs <= Z.to_nat (2 ^ 24) ->
  exists a e, net_max_pred_test (B32Ops L) P32 n d = Ret a /\
    net_max_pred_test ROps P32 (map (exact_layer 24 128 prec24 emax128 L) n) (exact_data 24 128 d) = Ret e /\
    is_finite a = true /\ B2R a = round radix2 (SpecFloat.fexp 24 128) ZnearestE e.
Proof. intros L et ee. exact (accuracy_exact 24 128 prec24 emax128 L small32 P32 et ee (literals32 L)). Qed.
Print Assumptions C89_accuracy_f32.

Theorem C89_accuracy_f64 : forall (L : libm (binary_float 53 1024)) et ee (n : network (B64Ops L)) g k d targs,
  (Exists (uses_libm 53 1024 prec53 emax1024 L) n -> libm_within 53 1024 L et ee) -> n <> [] -> fit_all (B64Ops L) n g (Vec k) ->
  Forall (covered 53 1024 prec53 emax1024 L) n -> Forall (clear_input 53 1024 prec53 emax1024 L P64 et ee n g) (ds_inputs d) ->
  ds_target d = map (@IOScalar _) targs -> Forall (clear_target 53 1024) targs -> length targs = length (ds_inputs d) -> 1 <= length targs <= Z.to_nat (2 ^ 53) ->
  exists a e, net_max_pred_test (B64Ops L) P64 n d = Ret a /\
    net_max_pred_test ROps P64 (map (exact_layer 53 1024 prec53 emax1024 L) n) (exact_data 53 1024 d) = Ret e /\
    is_finite a = true /\ B2R a = round radix2 (SpecFloat.fexp 53 1024) ZnearestE e.
Proof. intros L et ee. exact (accuracy_exact 53 1024 prec53 emax1024 L small64 P64 et ee (literals64 L)). Qed.
Print Assumptions C89_accuracy_f64.

(** Without a clear lead the classes can differ: the outputs 1 and 1 + i/8192
    are computed without any rounding, yet their moduli compare equal in single
    precision and the first one is predicted. *)
Theorem C89_close_refuted : forall L : libm (binary_float 24 128), exists (n : network (B32Ops L)) x y r,
  fit_all (B32Ops L) n (Vec 1) (Vec 2) /\ Forall (covered 24 128 prec24 emax128 L) n /\ has_geom (Vec 1) x /\ Forall cfinite (vals x) /\
  predicts (B32Ops L) P32 n x y /\ predicts ROps P32 (map (exact_layer 24 128 prec24 emax128 L) n) (ioval x) r /\
  max_index (B32Ops L) y = 0 /\ max_index ROps r = 1.
Proof.
  intros L. destruct (hidden L) as (y & r & H). exists (two_units L one32 bit32), (IOScalar [one32]), y, r.
  split; [apply two_units_fit|]. split; [apply two_units_covered; repeat constructor|]. split; [reflexivity|]. split; [repeat constructor|]. exact H.
Qed.
Print Assumptions C89_close_refuted.

(** Two units with the weights (-3 + 3i)/2 and 0 at the input (3 - 3i)/2 meet
    the hypotheses, and a one-hot target does. *)
Example C89_ex : forall (L : libm (binary_float 24 128)) et ee, let n := two_units L (v32 true) o32 in
  fit_all (B32Ops L) n (Vec 1) (Vec 2) /\ Forall (covered 24 128 prec24 emax128 L) n /\ ~ Exists (uses_libm 24 128 prec24 emax128 L) n /\
  clear_input 24 128 prec24 emax128 L P32 et ee n (Vec 1) (IOScalar [v32 false]) /\ clear_target 24 128 [one32; o32].
Proof.
  intros L et ee n. split; [apply two_units_fit|]. split; [apply two_units_covered; repeat constructor|].
  split; [intros H; inversion H as [? ? [A|A]|? ? A]; subst; [discriminate | discriminate | inversion A]|]. split; [apply apparent | exact one_hot].
Qed.
