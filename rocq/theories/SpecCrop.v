(** * Vocabulary for windows of feature maps *)
From Verif Require Import Base Float Matrix Cplx Act Input Dense Conv Layer Network SpecMatrix SpecConv.

(** [x'] are [n] maps of [r' x c'] pixels, the window at row [s0] and column
    [s1] of the larger maps [x]. *)
Definition window {T : Type} (d : T) (s0 s1 r' c' : nat) (x' x : list (matrix T)) : Prop :=
  exists n r c, 1 <= n /\ maps_wf n r c x /\ maps_wf n r' c' x' /\ s0 + r' <= r /\ s1 + c' <= c /\
    forall ch i j, ch < n -> i < r' -> j < c' -> px d x' ch i j = px d x ch (s0 + i) (s1 + j).

Section SpecCrop.
Context (Fl : FloatOps).

(** A stack of convolutional and reduce layers that accepts maps of [r x c]
    pixels, and the size of the maps that come out. *)
Fixpoint spatial (ls : network Fl) (r c r1 c1 : nat) : Prop :=
  match ls with
  | [] => r1 = r /\ c1 = c
  | LConv l :: ls' => exists a b, conv_wf Fl a b l /\ a <= r /\ b <= c /\ spatial ls' (r - a + 1) (c - b + 1) r1 c1
  | LReduce l :: ls' => 1 <= r_b0 l <= r /\ 1 <= r_b1 l <= c /\ r mod r_b0 l = 0 /\ c mod r_b1 l = 0 /\
      spatial ls' (r / r_b0 l) (c / r_b1 l) r1 c1
  | _ => False
  end.

(** How many rows (columns) of the input one row (column) of the output stands
    for: the product of the block sizes. *)
Fixpoint stride0 (ls : network Fl) : nat :=
  match ls with [] => 1 | LReduce l :: ls' => r_b0 l * stride0 ls' | _ :: ls' => stride0 ls' end.
Fixpoint stride1 (ls : network Fl) : nat :=
  match ls with [] => 1 | LReduce l :: ls' => r_b1 l * stride1 ls' | _ :: ls' => stride1 ls' end.
End SpecCrop.
