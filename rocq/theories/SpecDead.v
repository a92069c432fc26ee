(** * Vocabulary for rectifiers that are switched off *)
From Verif Require Import Base Float Matrix Cplx Act Input Loss Dense Conv Layer Dataset Network SpecMatrix SpecLayer SpecConv SpecNet.

Section SpecDead.
Context (Fl : FloatOps) (p : prec).
Local Notation C := (cplx (F Fl)).
Local Notation z := (c_default Fl).

(** The rectifier [f] is switched off at [q]: both parts negative for the one
    that acts on each part, one of them for the one that acts on both. *)
Definition off (f : ComplexActFunc) (q : C) : Prop :=
  match f with
  | RITReLU => fsignneg Fl (re q) = true /\ fsignneg Fl (im q) = true
  | ZReLU => fsignneg Fl (re q) = true \/ fsignneg Fl (im q) = true
  | _ => False
  end.

(** The same with the parts less than zero, which minus zero is not. *)
Definition below (f : ComplexActFunc) (q : C) : Prop :=
  match f with
  | RITReLU => fltb Fl (re q) (fzero Fl) = true /\ fltb Fl (im q) (fzero Fl) = true
  | ZReLU => fltb Fl (re q) (fzero Fl) = true \/ fltb Fl (im q) (fzero Fl) = true
  | _ => False
  end.

(** The value [v] reaches layer [k] when the network is given [x]. *)
Definition arrives (n : network Fl) (k : nat) (x v : IOType C) : Prop :=
  exists vs, trace Fl p (firstn k n) x vs /\ last vs x = v.

(** The parameters of unit [i]: its bias and its weights. *)
Definition unit_params (l : dense Fl) (i : nat) : list C :=
  nth i (d_biases l) z :: map (weight Fl l i) (seq 0 (inputs Fl l)).
(** The parameters of filter [o] with [a x b] kernels. *)
Definition filter_params (a b : nat) (l : conv Fl) (o : nat) : list C :=
  nth o (k_biases l) z :: tab3 (channels Fl l) a b (kval Fl l o).

(** Filter [o] is below zero at every position of the maps [ms]. *)
Definition filter_below (a b : nat) (l : conv Fl) (o : nat) (ms : list (matrix C)) : Prop :=
  forall i j, i < sh0 (nth 0 ms m_new) - a + 1 -> j < sh1 (nth 0 ms m_new) - b + 1 -> below (k_func l) (cpre Fl a b l ms o i j).

(** Training steps one after the other, each with its own batch, loss function
    and rate. *)
Fixpoint train_steps (n : network Fl) (steps : list (dataset C C * ComplexLossFunc * C)) : outcome (network Fl) :=
  match steps with
  | [] => Ret n
  | (d, f, lr) :: rest =>
      r <- net_gradient_opt Fl p n d f lr ;;
      match snd r with Ok _ => train_steps (fst r) rest | Err _ => Panic end
  end.
End SpecDead.

(** ** IEEE numbers *)
From Coq Require Import ZArith.
From Flocq Require Import Core BinarySingleNaN.
Section SpecDeadIEEE.
Context {prec emax : Z}.
Local Notation B := (binary_float prec emax).
(** The same number, whatever the sign of a zero. *)
Definition same_number (x y : B) : Prop := x = y \/ exists s t, x = B754_zero s /\ y = B754_zero t.
Definition csame (a b : cplx B) : Prop := same_number (Cplx.re a) (Cplx.re b) /\ same_number (Cplx.im a) (Cplx.im b).
(** Each part is the same number or has become NaN. *)
Definition same_or_nan (a b : cplx B) : Prop :=
  (same_number (Cplx.re a) (Cplx.re b) \/ is_nan (Cplx.re b) = true) /\ (same_number (Cplx.im a) (Cplx.im b) \/ is_nan (Cplx.im b) = true).
End SpecDeadIEEE.
