(** * Vocabulary for training steps that change nothing in floating point *)
From Coq Require Import ZArith Reals.
From Flocq Require Import Core BinarySingleNaN.
From Verif Require Import Base Float Matrix Cplx Act Input Loss Dense Conv Layer Dataset Network BFloat SpecNet SpecRound SpecDead.

Section SpecStill.
Context {prec emax : Z}.
Local Notation B := (binary_float prec emax).

(** A rate of zero, with any signs. *)
Definition zero_rate (lr : cplx B) : Prop := exists s t, lr = mkC (B754_zero s) (B754_zero t).

(** [d] is too small to move [a]: less than a quarter unit in the last place.
    A zero is moved by nothing but a +0. *)
Definition negligible (a d : B) : Prop :=
  is_finite d = true /\
  match a with
  | B754_zero _ => d = B754_zero false
  | B754_finite _ _ _ _ => (Rabs (B2R d) <= Rabs (B2R a) * bpow radix2 (- (prec + 2)))%R
  | _ => False
  end.
Definition cnegligible (a d : cplx B) : Prop := negligible (Cplx.re a) (Cplx.re d) /\ negligible (Cplx.im a) (Cplx.im d).
End SpecStill.

(** The gradient of every parameter, in the order in which [net_values] lists
    the parameters: layer after layer, the weights and then the biases. *)
Definition grad_values {Fl : FloatOps} (W G : list (list (cplx (F Fl)))) : list (cplx (F Fl)) :=
  concat (map (fun g => fst g ++ snd g)%list (combine W G)).
