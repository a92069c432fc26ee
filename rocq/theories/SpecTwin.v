(** * Vocabulary for units that are copies of each other *)
From Verif Require Import Base Float Matrix Cplx Act Input Loss Dense Conv Layer Dataset Network SpecMatrix SpecLayer SpecConv SpecNet.

Section SpecTwin.
Context (Fl : FloatOps).
Local Notation z := (c_default Fl).

(** Units [i] and [j] of layer [k] are copies: the same bias, the same weights,
    and every unit of layer [k + 1] weighs them alike. *)
Definition twins (n : network Fl) (k i j : nat) : Prop :=
  exists l m, nth_error n k = Some (LDense l) /\ nth_error n (S k) = Some (LDense m) /\
    dense_wf Fl l /\ dense_wf Fl m /\ inputs Fl m = units Fl l /\ i < units Fl l /\ j < units Fl l /\
    nth i (d_biases l) z = nth j (d_biases l) z /\
    (forall q, q < inputs Fl l -> weight Fl l i q = weight Fl l j q) /\
    (forall o, o < units Fl m -> weight Fl m o i = weight Fl m o j).

(** Filters [i] and [j] of the convolution at [k], with [a x b] kernels, are
    copies: the same bias, the same kernels, and every filter of the [a' x b']
    convolution that follows treats them alike. *)
Definition twin_filters (n : network Fl) (k a b a' b' i j : nat) : Prop :=
  exists l m, nth_error n k = Some (LConv l) /\ nth_error n (S k) = Some (LConv m) /\
    conv_wf Fl a b l /\ conv_wf Fl a' b' m /\ channels Fl m = filters Fl l /\ i < filters Fl l /\ j < filters Fl l /\
    nth i (k_biases l) z = nth j (k_biases l) z /\
    (forall ch u v, ch < channels Fl l -> u < a -> v < b -> kval Fl l i ch u v = kval Fl l j ch u v) /\
    (forall o u v, o < filters Fl m -> u < a' -> v < b' -> kval Fl m o i u v = kval Fl m o j u v).

(** A dense layer with one weight for all and one bias for all. *)
Definition constant_layer (l : dense Fl) (w b : cplx (F Fl)) : Prop :=
  (forall x, In x (body (d_weights l)) -> x = w) /\ (forall x, In x (d_biases l) -> x = b).
End SpecTwin.
