(** * Property C85: matrices and slices of real numbers *)
From Coq Require Import Reals Lra.
From Verif Require Import Base Float Matrix Cplx RFloat SpecRel RelFacts SpecReal RealMatFacts.

Local Notation RO := (fops ROps).
Local Notation CO := (cops ROps).
Local Notation M := (mrel embeds).
Local Notation V := (Forall2 embeds).

(** In exact arithmetic the operations on matrices of real numbers are those on
    matrices of complex numbers without imaginary part: the same failures, and
    results that are the same numbers. *)
Theorem C85_products : forall m m' k k' v v', M m m' -> M k k' -> V v v' ->
  orel (rrel M) (convolution RO m k) (convolution CO m' k') /\
  orel (rrel V) (mul_slice RO m v) (mul_slice CO m' v') /\
  orel (rrel V) (mul_vec RO m v) (mul_vec CO m' v').
Proof.
  intros m m' k k' v v' HM HK HV.
  exact (conj (convolution_rel embeds RO CO em_zero em_add em_add_assign em_mul m m' k k' HM HK)
    (conj (mul_slice_rel embeds RO CO em_zero em_add em_mul m m' v v' HM HV) (mul_vec_rel embeds RO CO em_zero em_add em_mul m m' v v' HM HV))).
Qed.
Print Assumptions C85_products.

Theorem C85_updates : forall m m' k k' s s', M m m' -> M k k' -> embeds s s' ->
  rrel M (add_mut RO m k) (add_mut CO m' k') /\ M (add_mut_scalar RO m s) (add_mut_scalar CO m' s') /\ M (mul_mut_scalar RO m s) (mul_mut_scalar CO m' s') /\
  (s <> 0%R -> orel M (div_mut_scalar RO m s) (div_mut_scalar CO m' s')).
Proof.
  intros m m' k k' s s' HM HK HS.
  exact (conj (add_mut_rel embeds RO CO em_add_assign m m' k k' HM HK) (conj (add_mut_scalar_rel embeds RO CO em_add_assign m m' s s' HM HS)
    (conj (mul_mut_scalar_rel embeds RO CO em_mul_assign m m' s s' HM HS) (em_div_scalar m m' s s' HM HS)))).
Qed.
Print Assumptions C85_updates.

Theorem C85_shapes : forall m m' k k' p q b0 b1, M m m' -> M k k' ->
  orel M (pad RO m p q) (pad CO m' p q) /\ orel (rrel M) (flip m) (flip m') /\
  orel (rrel M) (fractional_upsampling RO m b0 b1 k) (fractional_upsampling CO m' b0 b1 k').
Proof.
  intros m m' k k' p q b0 b1 HM HK.
  exact (conj (pad_rel embeds RO CO em_zero m m' p q HM) (conj (flip_rel embeds m m' HM)
    (upsampling_rel embeds RO CO em_zero em_add em_add_assign em_mul m m' b0 b1 k k' HM HK))).
Qed.
Print Assumptions C85_shapes.

Theorem C85_slices : forall u u' v v' s s', V u u' -> V v v' -> embeds s s' ->
  rrel V (add_slice RO u v) (add_slice CO u' v') /\ rrel V (add_slice_mut RO u v) (add_slice_mut CO u' v') /\
  rrel V (mul_slices RO u v) (mul_slices CO u' v') /\ rrel V (mul_slice_mut RO u v) (mul_slice_mut CO u' v') /\
  V (slice_mul_mut_scalar RO u s) (slice_mul_mut_scalar CO u' s') /\ (s <> 0%R -> orel V (slice_div_mut_scalar RO u s) (slice_div_mut_scalar CO u' s')).
Proof.
  intros u u' v v' s s' HU HV HS.
  exact (conj (add_slice_rel embeds RO CO em_add u u' v v' HU HV) (conj (add_slice_mut_rel embeds RO CO em_add_assign u u' v v' HU HV)
    (conj (mul_slices_rel embeds RO CO em_mul u u' v v' HU HV) (conj (mul_slice_mut_rel embeds RO CO em_mul_assign u u' v v' HU HV)
    (conj (slice_mul_mut_scalar_rel embeds RO CO em_mul_assign u u' s s' HU HS) (em_div_slice u u' s s' HU HS)))))).
Qed.
Print Assumptions C85_slices.

(** The same for the operators on single numbers, in both of their forms: [a + b]
    and [a += b], and likewise for difference, product and quotient. *)
Theorem C85_scalars : forall x x' y y', embeds x x' -> embeds y y' ->
  embeds (add RO x y) (add CO x' y') /\ embeds (add_assign RO x y) (add_assign CO x' y') /\
  embeds (sub RO x y) (sub CO x' y') /\ embeds (sub_assign RO x y) (sub_assign CO x' y') /\
  embeds (mul RO x y) (mul CO x' y') /\ embeds (mul_assign RO x y) (mul_assign CO x' y') /\
  (y <> 0%R -> orel embeds (div RO x y) (div CO x' y') /\ orel embeds (div_assign RO x y) (div_assign CO x' y')).
Proof. exact em_scalars. Qed.
Print Assumptions C85_scalars.

(** One difference: dividing by zero makes the complex version panic and not
    the real one. *)
Theorem C85_divide_by_zero : forall (b : matrix RC) m, body b <> [] ->
  (exists r, div_mut_scalar RO m 0%R = Ret r) /\ div_mut_scalar CO b (c_default ROps) = Panic.
Proof. exact em_div_zero. Qed.
Print Assumptions C85_divide_by_zero.

Example C85_ex : M (from_body [1; 2; 3; 4]%R 2 2) (from_body [mkC 1 0; mkC 2 0; mkC 3 0; mkC 4 0]%R 2 2) /\ V [5%R] [mkC 5 0]%R.
Proof. repeat constructor. Qed.
