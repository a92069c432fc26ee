(** * Vocabulary for the example programs *)
From Verif Require Import Base Float Matrix Cplx Random Act Input Loss Dense Conv Layer Dataset Network Examples
  SpecMatrix SpecLayer SpecConv SpecNet SpecGeom SpecMnist.
Local Notation P32 := Float.P32.

Section SpecExamples.
Context (Fl : FloatOps).
Local Notation C := (cplx (F Fl)).

(** [stages n gs]: the layers of [n], one after the other, take values of the
    geometries [gs] to each other. *)
Inductive stages : network Fl -> list geometry -> Prop :=
| stages_nil : forall g, stages [] [g]
| stages_cons : forall l n g g1 gs, fits Fl l g g1 -> stages n (g1 :: gs) -> stages (l :: n) (g :: g1 :: gs).

(** ** Classification *)
(** Loss and accuracy are measured on each batch in turn; with a learning rate
    the network then takes a training step on that batch. *)
Inductive visits (train : option C) (f : ComplexLossFunc) : network Fl -> list (dataset C C) -> network Fl -> list (F Fl) -> list (F Fl) -> Prop :=
| visits_nil : forall n, visits train f n [] n [] []
| visits_cons : forall n d l a n1 ds n' ls accs,
    net_loss Fl P32 n d f = Ret (Ok l) -> net_max_pred_test Fl P32 n d = Ret a ->
    match train with Some lr => net_gradient_opt Fl P32 n d f lr = Ret (n1, Ok tt) | None => n1 = n end ->
    visits train f n1 ds n' ls accs -> visits train f n (d :: ds) n' (l :: ls) (a :: accs).

(** Sum in order, starting at zero, divided by the number of values. *)
Definition mean (l : list (F Fl)) : F Fl := fdiv Fl (fold_left (fadd Fl) l (fzero Fl)) (fofnat Fl (length l)).

(** Epochs over the batches [tr] for training and [te] for testing, with the
    four learning curves: one entry per epoch. *)
Inductive epochs_run (f : ComplexLossFunc) (lr : C) (tr te : list (dataset C C))
  : nat -> network Fl -> network Fl -> list (F Fl) -> list (F Fl) -> list (F Fl) -> list (F Fl) -> Prop :=
| run_none : forall n, epochs_run f lr tr te 0 n n [] [] [] []
| run_epoch : forall k n n1 n' ls accs ls' accs' trl tra tel tea,
    visits (Some lr) f n tr n1 ls accs -> visits None f n1 te n1 ls' accs' ->
    epochs_run f lr tr te k n1 n' trl tra tel tea ->
    epochs_run f lr tr te (S k) n n' (mean ls :: trl) (mean accs :: tra) (mean ls' :: tel) (mean accs' :: tea).

(** The batches [ds] show the first [length ds * size] of the records in file
    order, [size] at a time. *)
Definition slices (rs : list mrec) (size : nat) (ds : list (dataset C C)) : Prop :=
  forall k d, nth_error ds k = Some d ->
    length (ds_inputs d) = size /\ length (ds_target d) = size /\
    Forall2 (shows (cbyte Fl) (c_default Fl) (c_unit Fl)) (firstn size (skipn (k * size) rs)) (points d).

(** ** Regression *)
(** Every round draws a training and a test batch, measures the loss on the
    training batch, trains on it, and measures the loss on the test batch. *)
Inductive rounds (pr : profile) (f : ComplexLossFunc) (lr : C) (samples size : nat) (thr : F Fl)
  : nat -> N -> N -> network Fl -> network Fl -> list (F Fl) -> list (F Fl) -> Prop :=
| rounds_none : forall a b n, rounds pr f lr samples size thr 0 a b n n [] []
| rounds_more : forall k a b a' b' d d' n n1 n' l l' ls ls',
    signal_reconstruction Fl pr samples size thr a b = Ret (a', b', d, d') ->
    net_loss Fl P32 n d f = Ret (Ok l) -> net_gradient_opt Fl P32 n d f lr = Ret (n1, Ok tt) ->
    net_loss Fl P32 n1 d' f = Ret (Ok l') ->
    rounds pr f lr samples size thr k a' b' n1 n' ls ls' ->
    rounds pr f lr samples size thr (S k) a b n n' (l :: ls) (l' :: ls').

(** What ends up in the learning curve: v becomes (v + l_k) / (k + 1). *)
Fixpoint damped (v : F Fl) (k : nat) (ls : list (F Fl)) : F Fl :=
  match ls with
  | [] => v
  | l :: rest => damped (fdiv Fl (fadd Fl v l) (fofnat Fl (k + 1))) (S k) rest
  end.
Definition recorded (ls : list (F Fl)) : F Fl := damped (fzero Fl) 0 ls.

Inductive rec_epochs (pr : profile) (f : ComplexLossFunc) (lr : C) (samples size : nat) (thr : F Fl) (batches : nat) (a b : N)
  : nat -> network Fl -> network Fl -> list (F Fl) -> list (F Fl) -> Prop :=
| rece_none : forall n, rec_epochs pr f lr samples size thr batches a b 0 n n [] []
| rece_more : forall k n n1 n' ls ls' trl tel,
    rounds pr f lr samples size thr batches a b n n1 ls ls' ->
    rec_epochs pr f lr samples size thr batches a b k n1 n' trl tel ->
    rec_epochs pr f lr samples size thr batches a b (S k) n n' (recorded ls :: trl) (recorded ls' :: tel).
End SpecExamples.
