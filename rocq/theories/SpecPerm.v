(** * Vocabulary for the order of the units of a layer *)
From Verif Require Import Base Float Matrix Cplx Act Input Loss Dense Conv Layer Dataset Network SpecMatrix SpecLayer SpecConv SpecNet.

(** [s] is a reordering of [0 .. N - 1]. *)
Definition reorders (s : nat -> nat) (N : nat) : Prop :=
  (forall i, i < N -> s i < N) /\ (forall i j, i < N -> j < N -> s i = s j -> i = j).

Section SpecPerm.
Context (Fl : FloatOps).
Local Notation z := (c_default Fl).

(** [l'] is [l] with its units in another order: unit [i] of [l'] is unit [s i] of [l]. *)
Definition units_reordered (s : nat -> nat) (l l' : dense Fl) : Prop :=
  dense_wf Fl l /\ dense_wf Fl l' /\ units Fl l' = units Fl l /\ inputs Fl l' = inputs Fl l /\ d_func l' = d_func l /\
  (forall i, i < units Fl l -> nth i (d_biases l') z = nth (s i) (d_biases l) z) /\
  (forall i q, i < units Fl l -> q < inputs Fl l -> weight Fl l' i q = weight Fl l (s i) q).

(** [m'] is [m] with its inputs in another order. *)
Definition inputs_reordered (s : nat -> nat) (m m' : dense Fl) : Prop :=
  dense_wf Fl m /\ dense_wf Fl m' /\ units Fl m' = units Fl m /\ inputs Fl m' = inputs Fl m /\ d_func m' = d_func m /\
  d_biases m' = d_biases m /\ (forall o i, o < units Fl m -> i < inputs Fl m -> weight Fl m' o i = weight Fl m o (s i)).

(** The network [n'] is [n] with the units of layer [k] in another order and
    the weights of layer [k + 1] moved along; all else is the same. *)
Definition reordered (s : nat -> nat) (k : nat) (n n' : network Fl) : Prop :=
  exists before l m after l' m', n = before ++ LDense l :: LDense m :: after /\ n' = before ++ LDense l' :: LDense m' :: after /\
    length before = k /\ inputs Fl m = units Fl l /\ reorders s (units Fl l) /\ units_reordered s l l' /\ inputs_reordered s m m'.
End SpecPerm.
