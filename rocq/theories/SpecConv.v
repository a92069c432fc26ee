(** * Vocabulary for convolutional layers and stacks of feature maps *)
From Verif Require Import Base Float Matrix Cplx Act Input Dense Conv SpecMatrix.

(** The values of [n] maps of [r] rows and [c] columns, map by map and row by row. *)
Definition tab3 {T : Type} (n r c : nat) (f : nat -> nat -> nat -> T) : list T :=
  concat (map (fun o => concat (tab_rows r c (f o))) (seq 0 n)).

(** Value (i, j) of map [o] in such a list. *)
Definition at3 {T : Type} (d : T) (r c : nat) (l : list T) (o i j : nat) : T := nth ((o * r + i) * c + j) l d.

(** [n] full feature maps, all of shape [r x c]. *)
Definition maps_wf {T : Type} (n r c : nat) (ms : list (matrix T)) : Prop :=
  length ms = n /\ forall m, In m ms -> wf m /\ sh0 m = r /\ sh1 m = c.

(** Value (i, j) of map [ch]. *)
Definition px {T : Type} (d : T) (ms : list (matrix T)) (ch i j : nat) : T := entry d (nth ch ms m_new) i j.

Section SpecConv.
Context (Fl : FloatOps).
Local Notation C := (cplx (F Fl)).
Local Notation z := (c_default Fl).

Definition filters (l : conv Fl) : nat := sh0 (k_kernels l).
Definition channels (l : conv Fl) : nat := sh1 (k_kernels l).

(** Value (u, v) of the kernel that filter [o] applies to channel [ch]. *)
Definition kval (l : conv Fl) (o ch u v : nat) : C := entry z (entry m_new (k_kernels l) o ch) u v.

(** A convolutional layer as its constructor builds it, with at least one filter,
    at least one channel and non-empty [a x b] kernels. *)
Definition conv_wf (a b : nat) (l : conv Fl) : Prop :=
  wf (k_kernels l) /\ 1 <= filters l /\ 1 <= channels l /\ 1 <= a /\ 1 <= b /\
  length (k_biases l) = filters l /\ k_in l = channels l /\
  forall k, In k (body (k_kernels l)) -> wf k /\ sh0 k = a /\ sh1 k = b.

(** Value (i, j) of output map [o] before the activation, in evaluation order:
    the correlations of the channels, added one after the other to zero, plus
    the bias. *)
Definition cpre (a b : nat) (l : conv Fl) (x : list (matrix C)) (o i j : nat) : C :=
  c_add Fl (sum_from (c_add Fl) z (fun ch => corr (cops Fl) a b (px z x ch) (kval l o ch) i j) (channels l))
           (nth o (k_biases l) z).
End SpecConv.

(** ** Motions (exact arithmetic) *)
From Coq Require Import Reals.
From Verif Require Import RFloat SpecCalculus.

(** All kernel values, filter by filter, channel by channel, row by row. *)
Definition kernel_values {Fl} (l : conv Fl) : list (cplx (F Fl)) := concat (map body (body (k_kernels l))).
(** All values of a list of feature maps. *)
Definition map_values {T} (ms : list (matrix T)) : list T := concat (map body ms).

(** A convolutional layer whose kernels and biases move with velocities [vk],
    [vb], its architecture staying the same. *)
Definition conv_moves (a b : nat) (L : R -> conv ROps) (vk vb : list RC) : Prop :=
  (forall t, conv_wf ROps a b (L t) /\ filters ROps (L t) = filters ROps (L 0%R) /\
             channels ROps (L t) = channels ROps (L 0%R) /\ k_func (L t) = k_func (L 0%R)) /\
  vderiv (fun t => kernel_values (L t)) vk /\ vderiv (fun t => k_biases (L t)) vb.

(** [n] feature maps of shape [r x c] moving with velocity [v]. *)
Definition maps_move (n r c : nat) (x : R -> list (matrix RC)) (v : list RC) : Prop :=
  (forall t, maps_wf n r c (x t)) /\ vderiv (fun t => map_values (x t)) v.

(** Entrywise sum. *)
Definition vadd (a b : list RC) : list RC := map (fun ab => c_add ROps (fst ab) (snd ab)) (combine a b).
