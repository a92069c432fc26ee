(** * Facts about training in place *)
From Verif Require Import Base BaseFacts Float Matrix Cplx Random Act Input Loss Dense Conv Layer Dataset Network InPlace SpecMatrix SpecLayer SpecConv SpecNet SpecGeom
  LayerFacts TrainFacts NetFacts GradFacts2 PropTrain.

Section InPlaceFacts.
Context (Fl : FloatOps) (p : prec).
Local Notation C := (cplx (F Fl)).

Lemma updates_complete : forall s n W B, Forall (layer_full Fl) n ->
  map (@length C) W = map (@length C) (fst (grad_zero Fl n)) -> map (@length C) B = map (@length C) (snd (grad_zero Fl n)) ->
  exists n', mapM (update_layer Fl s) (combine (combine W B) n) = Ret n' /\ update_in_place Fl s (combine W B) n = (n', Ret tt).
Proof.
  intros s n W B FU L1 L2. destruct (grad_zero_sizes Fl n FU) as (Z1 & Z2). rewrite Z1 in L1. rewrite Z2 in L2. clear Z1 Z2.
  revert W B FU L1 L2. induction n as [|l n IH]; intros [|w W] [|b B] FU L1 L2; try discriminate.
  - exists []. split; reflexivity.
  - inversion FU as [|? ? F0 F1]; subst. cbn [map] in L1, L2. injection L1 as l1 L1. injection L2 as l2 L2.
    destruct (IH W B F1 L1 L2) as (n' & I1 & I2). destruct (update_ok Fl s l w b F0 l1 l2) as (l' & U1 & _).
    exists (l' :: n'). cbn [combine mapM update_in_place]. rewrite U1. cbn [obind]. rewrite I1, I2. split; reflexivity.
Qed.

Lemma all_or_nothing : forall n d f lr, Forall (layer_full Fl) n ->
  gradient_opt_in_place Fl p n d f lr = match net_gradient_opt Fl p n d f lr with Ret (n', r) => (n', Ret r) | Panic => (n, Panic) end.
Proof.
  intros n d f lr FU. unfold gradient_opt_in_place, net_gradient_opt. destruct (length n <=? 1); [reflexivity|].
  destruct (net_gradient Fl p n d f) as [(W, B)|] eqn:G; [|reflexivity]. cbn [obind fst snd].
  destruct (c_div Fl lr (c_of_nat Fl (length (ds_inputs d)))) as [s|]; [|reflexivity]. cbn [obind].
  destruct (gradient_lengths Fl p n d f W B G) as (L1 & L2). destruct (updates_complete s n W B FU L1 L2) as (n' & -> & ->). reflexivity.
Qed.

Lemma train_prefix : forall ds n f lr, Forall (layer_full Fl) n ->
  exists k m, k <= length ds /\ train_on Fl p n (firstn k ds) f lr = Ret m /\ fst (train_in_place Fl p n ds f lr) = m /\
    (k = length ds /\ snd (train_in_place Fl p n ds f lr) = Ret tt \/
     k < length ds /\ snd (train_in_place Fl p n ds f lr) = Panic /\ train_on Fl p n (firstn (S k) ds) f lr = Panic).
Proof.
  induction ds as [|d ds IH]; intros n f lr FU; [exists 0, n; repeat split; auto|].
  cbn [train_in_place]. rewrite (all_or_nothing n d f lr FU). destruct (net_gradient_opt Fl p n d f lr) as [(n', r)|] eqn:E.
  - destruct r as [u|e].
    + destruct u. assert (FU' : Forall (layer_full Fl) n') by (apply (C52_history Fl p n n'); [apply (trained_step Fl p n n n' d f lr (trained_none Fl p n) E) | exact FU]). destruct (IH n' f lr FU') as (k & m & K & T & SF & D).
      exists (S k), m. cbn [length firstn train_on]. rewrite E. cbn [obind fst snd]. split; [lia|]. split; [exact T|]. split; [exact SF|].
      destruct D as [(-> & D)|(K' & D & P)]; [left; split; [reflexivity | exact D] | right; split; [lia|]; split; [exact D|]]. destruct ds as [|d' ds]; [cbn in K'; lia|]. exact P.
    + exists 0, n. cbn [firstn train_on length fst snd]. split; [lia|]. split; [reflexivity|]. 
      assert (n' = n) as -> by (unfold net_gradient_opt in E; destruct (length n <=? 1); [congruence|]; apply obind_inv in E as (? & _ & E); apply obind_inv in E as (? & _ & E); apply obind_inv in E as (? & _ & E); discriminate).
      split; [reflexivity|]. right. split; [lia|]. split; [reflexivity|]. rewrite E. reflexivity.
  - exists 0, n. cbn [firstn train_on length fst snd]. split; [lia|]. split; [reflexivity|]. split; [reflexivity|]. right. split; [lia|]. split; [reflexivity|]. rewrite E. reflexivity.
Qed.
End InPlaceFacts.
