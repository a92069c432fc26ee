(** * A training step is all or nothing (C90) *)
From Verif Require Import Base Float Matrix Cplx Act Input Loss Dense Conv Layer Dataset Network InPlace SpecMatrix SpecLayer SpecConv SpecNet SpecGeom
  ExOps InPlaceFacts PropEval PropTrain.

(** A network whose weight matrices and kernels are full, as all that the
    constructors build and all that training makes of them are (C52).  When a
    training call returns, the network left behind is the one the call has been
    proved about; when it panics, whatever the batch, the loss and the rate, the
    network is as it was before the call. *)
Theorem C90_step : forall Fl p (n : network Fl) data f lr, Forall (layer_full Fl) n ->
  (forall n' r, net_gradient_opt Fl p n data f lr = Ret (n', r) -> gradient_opt_in_place Fl p n data f lr = (n', Ret r)) /\
  (net_gradient_opt Fl p n data f lr = Panic -> gradient_opt_in_place Fl p n data f lr = (n, Panic)).
Proof. intros Fl p n data f lr FU. rewrite (all_or_nothing Fl p n data f lr FU). split; [intros n' r -> | intros ->]; reflexivity. Qed.
Print Assumptions C90_step.

(** A loop over batches that stops at the first panic leaves the network exactly
    as training on the batches before that one does. *)
Theorem C90_loop : forall Fl p (n : network Fl) ds f lr, Forall (layer_full Fl) n ->
  exists k m, k <= length ds /\ train_on Fl p n (firstn k ds) f lr = Ret m /\
    (k = length ds /\ train_in_place Fl p n ds f lr = (m, Ret tt) \/
     k < length ds /\ train_in_place Fl p n ds f lr = (m, Panic) /\ train_on Fl p n (firstn (S k) ds) f lr = Panic).
Proof.
  intros Fl p n ds f lr FU. destruct (train_prefix Fl p ds n f lr FU) as (k & m & K & T & S & D). exists k, m. split; [exact K|]. split; [exact T|].
  destruct (train_in_place Fl p n ds f lr) as (m', o). cbn [fst snd] in S, D. subst m'.
  destruct D as [(D & ->)|(D & -> & P)]; [left | right]; auto.
Qed.
Print Assumptions C90_loop.

(** A batch whose last point is too long, and a loop over a
    good batch and then the bad one. *)
Definition long_batch : dataset (cplx Z) (cplx Z) :=
  mkData (ds_inputs ex_data ++ [IOScalar (repeat (mkC 1 1)%Z 3)]) (ds_target ex_data ++ [IOScalar (repeat (mkC 1 1)%Z 2)]).
Example C90_ex : Forall (layer_full ZFl) ex_net /\
  gradient_opt_in_place ZFl P32 ex_net long_batch MeanSquare (mkC 2 0)%Z = (ex_net, Panic) /\
  snd (gradient_opt_in_place ZFl P32 ex_net ex_data MeanSquare (mkC 2 0)%Z) = Ret (Ok tt) /\
  fst (gradient_opt_in_place ZFl P32 ex_net ex_data MeanSquare (mkC 2 0)%Z) <> ex_net /\
  train_in_place ZFl P32 ex_net [ex_data; long_batch] MeanSquare (mkC 2 0)%Z =
    (fst (gradient_opt_in_place ZFl P32 ex_net ex_data MeanSquare (mkC 2 0)%Z), Panic).
Proof. split; [repeat constructor|]. split; [reflexivity|]. split; [reflexivity|]. split; [discriminate | reflexivity]. Qed.
