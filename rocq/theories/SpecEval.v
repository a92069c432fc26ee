(** * Vocabulary for stating properties of evaluation *)
From Verif Require Import Base Float Matrix Cplx Act Input Loss Dense Conv Layer Dataset Network.

Section SpecEval.
Context (Fl : FloatOps) (p : prec).
Local Notation C := (cplx (F Fl)).

(** The network maps the input [x] to the vector [v]. *)
Definition predicts (n : network Fl) (x : IOType C) (v : list C) : Prop :=
  net_forward Fl p n x = Ret (Ok (IOScalar v)).

(** [k] is the first index at which the squared modulus is maximal. *)
Definition first_max (l : list C) (k : nat) : Prop :=
  k < length l /\
  (forall j a b, nth_error l j = Some a -> nth_error l k = Some b -> fltb Fl (c_norm_sq Fl b) (c_norm_sq Fl a) = false) /\
  (forall j a b, j < k -> nth_error l j = Some a -> nth_error l k = Some b -> fltb Fl (c_norm_sq Fl a) (c_norm_sq Fl b) = true).

End SpecEval.

(** In how many positions do two lists hold the same number? *)
Fixpoint agreements (xs ys : list nat) : nat :=
  match xs, ys with
  | x :: xs', y :: ys' => (if x =? y then 1 else 0) + agreements xs' ys'
  | _, _ => 0
  end.
