(** * Vocabulary for initial weights in IEEE arithmetic *)
From Coq Require Import ZArith Reals.
From Flocq Require Import Core BinarySingleNaN.
From Verif Require Import Base Float Cplx Random BFloat.

(** What is asked of the platform's mathematical library: sine and cosine of a
    finite number are finite and between -1 and 1; the logarithm of a number
    between 2^-31 and 1 is finite, between -31 and 0 (the true ln 2^-31 is
    -21.49), and the logarithm of zero is minus infinity. *)
Definition sane {prec emax : Z} (L : libm (binary_float prec emax)) : Prop :=
  (forall x, is_finite x = true -> is_finite (l_sin L x) = true /\ (-1 <= B2R (l_sin L x) <= 1)%R) /\
  (forall x, is_finite x = true -> is_finite (l_cos L x) = true /\ (-1 <= B2R (l_cos L x) <= 1)%R) /\
  (forall x, is_finite x = true -> (/ 2147483648 <= B2R x <= 1)%R ->
     is_finite (l_ln L x) = true /\ (-31 <= B2R (l_ln L x) <= 0)%R) /\
  l_ln L (B754_zero false) = B754_infinity true.

(** Sizes that are [usize] values; the unit counts, which are divided by, not zero. *)
Definition sized (m : InitMethod) : Prop :=
  match m with
  | Uniform scale => (Z.of_nat scale < 2 ^ 64)%Z
  | XavierGlorotU n | XavierGlorotN n | Xavier n | HeInit n => (1 <= Z.of_nat n < 2 ^ 64)%Z
  end.
