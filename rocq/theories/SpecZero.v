(** * Vocabulary for inputs that are always zero *)
From Verif Require Import Base Float Matrix Cplx Act Input Loss Dense Conv Layer Dataset Network SpecMatrix SpecLayer SpecConv SpecNet.

Section SpecZero.
Context (Fl : FloatOps).

(** Layers without weights: pooling and flattening. *)
Definition unweighted (l : clayer Fl) : Prop := match l with LReduce _ | LFlatten _ => True | _ => False end.

(** What the units of a dense layer multiply input [j] with. *)
Definition feature_weights (l : dense Fl) (j : nat) : list (cplx (F Fl)) := map (fun i => weight Fl l i j) (seq 0 (units Fl l)).
(** What the filters of a convolutional layer put on channel [ch]: one [a x b]
    kernel each. *)
Definition channel_kernels (a b : nat) (l : conv Fl) (ch : nat) : list (cplx (F Fl)) :=
  tab3 (filters Fl l) a b (fun o => kval Fl l o ch).
End SpecZero.
