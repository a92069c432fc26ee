(** * Vocabulary for the losses in IEEE arithmetic *)
From Coq Require Import ZArith Reals.
From Flocq Require Import Core BinarySingleNaN.
From Verif Require Import Base Float Matrix Cplx RFloat BFloat SpecRound.
Local Open Scope R_scope.

Section LossFloat.
Context {prec emax : Z}.
Local Notation B := (binary_float prec emax).

(** An exponential that overflows to infinity where the true one exceeds every
    float, as any does. *)
Definition exp_overflows (L : libm B) : Prop :=
  (forall x, is_finite x = true -> omega emax <= exp (B2R x) -> l_exp L x = B754_infinity false) /\
  l_exp L (B754_infinity false) = B754_infinity false.

(** An exponential that is never negative and a logarithm that is not positive
    up to 1. *)
Definition log_signs (L : libm B) : Prop :=
  (forall x, is_nan (l_exp L x) = true \/ Bsign (l_exp L x) = false) /\
  (forall x, is_finite x = true -> 0 <= B2R x <= 1 -> is_nan (l_ln L x) = true \/ Bleb (l_ln L x) (B754_zero false) = true).

(** An exponential of the right size (up to a factor of two) and a logarithm of
    the right order; any library in use is far better. *)
Definition rough (L : libm B) : Prop :=
  (forall x, is_finite x = true -> 0 <= B2R x -> 2 * exp (B2R x) < omega emax ->
     is_finite (l_exp L x) = true /\ exp (B2R x) / 2 <= B2R (l_exp L x) <= 2 * exp (B2R x)) /\
  (forall x, is_finite x = true -> 0 < B2R x ->
     is_finite (l_ln L x) = true /\ Rabs (B2R (l_ln L x)) <= 2 * Rabs (ln (B2R x)) + 1).
End LossFloat.
