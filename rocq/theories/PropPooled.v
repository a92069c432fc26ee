(** * Property C104: what numbers measured batch by batch say about the whole set *)
From Coq Require Import Reals Lra NArith.
From Flocq Require Import Core BinarySingleNaN.
From Verif Require Import Base Float Matrix Cplx Random Act Input Loss Dense Conv Layer Dataset Network Examples SpecMatrix SpecLayer SpecConv SpecNet SpecGeom SpecMnist SpecExamples
  RFloat BFloat SpecEval SpecRound PropTrain ExampleFacts PropExamples SpecPooled PooledFacts PooledSweep.
Local Notation P32 := Float.P32.
Local Open Scope nat_scope.

(** In exact arithmetic: the loss of a set of points cut into batches is the
    mean of the losses of the batches, each counted with its number of points.
    Any batch that panics makes the whole panic. *)
Theorem C104_loss : forall p (n : network ROps) f (bs : list (list (IOType RC * IOType RC))), bs <> [] -> Forall (fun b => b <> []) bs ->
  (forall ls, Forall2 (fun b l => net_loss ROps p n (batch b) f = Ret (Ok l)) bs ls ->
    net_loss ROps p n (batch (concat bs)) f = Ret (Ok (pooled (map (@length _) bs) ls))) /\
  (Exists (fun b => net_loss ROps p n (batch b) f = Panic) bs -> net_loss ROps p n (batch (concat bs)) f = Panic).
Proof. exact pooled_loss. Qed.
Print Assumptions C104_loss.

Theorem C104_accuracy : forall p (n : network ROps) (bs : list (list (IOType RC * IOType RC))), bs <> [] -> Forall (fun b => b <> []) bs ->
  (forall vs, Forall2 (fun b v => net_max_pred_test ROps p n (batch b) = Ret v) bs vs ->
    net_max_pred_test ROps p n (batch (concat bs)) = Ret (pooled (map (@length _) bs) vs)) /\
  (Exists (fun b => net_max_pred_test ROps p n (batch b) = Panic) bs -> net_max_pred_test ROps p n (batch (concat bs)) = Panic).
Proof. exact pooled_accuracy. Qed.
Print Assumptions C104_accuracy.

(** With batches of one size the count does not matter: the plain mean, which is
    what the programs in [examples] compute, is the number of the whole set. *)
Theorem C104_equal : forall s ls k, 0 < s -> ls <> [] -> k = length ls -> pooled (repeat s k) ls = mean ROps ls.
Proof. exact pooled_equal. Qed.
Print Assumptions C104_equal.

(** With batches of different sizes it does: the plain mean is neither the loss
    nor the accuracy of the whole set. *)
Theorem C104_unequal_refuted : exists n b1 b2, forall p,
  (exists l1 l2 l, net_loss ROps p n (batch b1) MeanSquare = Ret (Ok l1) /\ net_loss ROps p n (batch b2) MeanSquare = Ret (Ok l2) /\
    net_loss ROps p n (batch (b1 ++ b2)) MeanSquare = Ret (Ok l) /\ l <> mean ROps [l1; l2]) /\
  (exists a1 a2 a, net_max_pred_test ROps p n (batch b1) = Ret a1 /\ net_max_pred_test ROps p n (batch b2) = Ret a2 /\
    net_max_pred_test ROps p n (batch (b1 ++ b2)) = Ret a /\ a <> mean ROps [a1; a2]).
Proof. exact unequal_differs. Qed.
Print Assumptions C104_unequal_refuted.

(** The evaluation of the classification program, in exact arithmetic: reading
    [batches] batches of [size] images from the two files reports the loss and the
    accuracy of the network on the set of the first [batches * size] records. *)
Theorem C104_sweep : forall f size batches hd hl rs n,
  0 < size -> 0 < batches -> 2 <= length n -> fit_all ROps n (Maps 1 28 28) (Vec 10) -> Forall (trainable ROps) n ->
  length hd = 16 -> length hl = 8 -> Forall record_ok rs -> batches * size <= length rs -> (N.of_nat (batches * size) <= 60000)%N ->
  exists d l a, class_sweep ROps None f batches size (image_file hd rs) (label_file hl rs) n = Ret (n, l, a) /\
    length (ds_inputs d) = batches * size /\ length (ds_target d) = batches * size /\ Forall2 (shows (cbyte ROps) (c_default ROps) (c_unit ROps)) (firstn (batches * size) rs) (points d) /\
    net_loss ROps P32 n d f = Ret (Ok l) /\ net_max_pred_test ROps P32 n d = Ret a.
Proof. exact sweep_exact. Qed.
Print Assumptions C104_sweep.

(** In single precision, as the program runs: the accuracy it reports is a finite
    number, and differs from the share of the records that the network gives their
    label by the rounding of [batches + 2] operations only. *)
Theorem C104_reported : forall (L : libm (binary_float 24 128)) f size batches hd hl rs n,
  0 < size -> 0 < batches -> 2 <= length n -> fit_all (B32Ops L) n (Maps 1 28 28) (Vec 10) -> Forall (trainable (B32Ops L)) n ->
  length hd = 16 -> length hl = 8 -> Forall record_ok rs -> batches * size <= length rs -> (N.of_nat (batches * size) <= 60000)%N ->
  exists (l a : binary_float 24 128) ks, class_sweep (B32Ops L) None f batches size (image_file hd rs) (label_file hl rs) n = Ret (n, l, a) /\
    Forall2 (judged (B32Ops L) P32 n) (firstn (batches * size) rs) ks /\
    let share := (INR (agreements ks (labels (firstn (batches * size) rs))) / INR (batches * size))%R in
    is_finite a = true /\ (0 <= share <= 1)%R /\
    (Rabs (B2R a - share) <= ((1 + uu 24) ^ (batches + 2) - 1) * share + (1 + uu 24) ^ (batches + 2) * (2 * eta 24 128))%R.
Proof. exact sweep_reported. Qed.
Print Assumptions C104_reported.

(** With the numbers of the program, a test set of 10000 images in batches of
    100: the accuracy is right to within one part in a hundred thousand, so that
    the number of images it stands for can be read off. *)
Theorem C104_program : forall (L : libm (binary_float 24 128)) f hd hl rs n,
  2 <= length n -> fit_all (B32Ops L) n (Maps 1 28 28) (Vec 10) -> Forall (trainable (B32Ops L)) n ->
  length hd = 16 -> length hl = 8 -> Forall record_ok rs -> length rs = 100 * 100 ->
  exists (l a : binary_float 24 128) ks, class_sweep (B32Ops L) None f 100 100 (image_file hd rs) (label_file hl rs) n = Ret (n, l, a) /\
    Forall2 (judged (B32Ops L) P32 n) rs ks /\ is_finite a = true /\ (Rabs (B2R a - INR (agreements ks (labels rs)) / 10000) <= / 100000)%R.
Proof. exact sweep_program. Qed.
Print Assumptions C104_program.

(** The network and files of the program meet the hypotheses, and some numbers
    for the weighted mean. *)
Example C104_ex : forall L, exists seed' n rs, get_fully_connected_cvnn (B32Ops L) Dev 224783561 = Ret (seed', (0, n)) /\
  2 <= length n /\ fit_all (B32Ops L) n (Maps 1 28 28) (Vec 10) /\ Forall (trainable (B32Ops L)) n /\ Forall record_ok rs /\ length rs = 100 * 100.
Proof.
  intros L. destruct (C63_fully_connected (B32Ops L) Dev 224783561) as (s & n & E & _ & ST & TR & _); [right; reflexivity|].
  destruct (C64_ex_files 10000) as (rs & R1 & R2). exists s, n, rs. split; [exact E|]. pose proof (stages_length (B32Ops L) _ _ ST) as LN. cbn [length] in LN.
  assert (L5 : length n = 5) by lia. pose proof (stages_fit (B32Ops L) n _ ST (Vec 0)) as FA. rewrite L5 in FA. split; [lia|]. split; [exact FA|]. split; [exact TR|]. split; [exact R1|].
  apply Nat2N.inj. rewrite R2. vm_compute. reflexivity.
Qed.
Example C104_ex_mean : pooled [1; 2] [0; 1]%R = (2 / 3)%R /\ pooled [3; 3] [0; 1]%R = (1 / 2)%R.
Proof. unfold pooled. cbn. lra. Qed.
