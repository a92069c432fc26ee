(** * Vocabulary for numbers measured batch by batch *)
From Coq Require Import Reals NArith.
From Verif Require Import Base Float Matrix Cplx Random Input Loss Dense Conv Layer Dataset Network SpecMatrix SpecEval SpecMnist.

(** The mean of [vs] when the i-th value counts [nth i sizes] times. *)
Definition pooled (sizes : list nat) (vs : list R) : R :=
  (fold_right Rplus 0 (map (fun q => INR (fst q) * snd q) (combine sizes vs)) / INR (fold_right Nat.add 0%nat sizes))%R.

(** The network gives the image of the record [r] the class [k]. *)
Definition judged (Fl : FloatOps) (p : prec) (n : network Fl) (r : mrec) (k : nat) : Prop :=
  exists pt v, shows (cbyte Fl) (c_default Fl) (c_unit Fl) r pt /\ predicts Fl p n (fst pt) v /\ max_index Fl v = k.

(** The labels of the records. *)
Definition labels (rs : list mrec) : list nat := map (fun r => N.to_nat (snd r)) rs.
