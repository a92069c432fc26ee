(** * Networks whose layers fit never fail (C62) *)
From Verif Require Import Base BaseFacts Float Matrix Cplx Random Act Input Loss Dense Conv Layer Dataset Network SpecMatrix
  SpecLayer SpecConv SpecNet SpecGeom GeomFacts RFloat BFloat PropConv PropDense PropTrain ExOps.
Local Notation P32 := Float.P32.
Local Notation P64 := Float.P64.

(** ** C62 *)
(** Values of the right geometry go through, and come out with the geometry the
    layers announce. *)
Theorem C62_forward : forall Fl p n g g' x, n <> [] -> fit_all Fl n g g' -> has_geom g x ->
  exists y, net_forward Fl p n x = Ret (Ok y) /\ has_geom g' y.
Proof. exact forward_total. Qed.
Print Assumptions C62_forward.

(** The loss and, for vector outputs, the accuracy are defined. *)
Theorem C62_loss : forall Fl p n g g' d f, n <> [] -> fit_all Fl n g g' -> batch_for Fl g g' d -> ds_inputs d <> [] ->
  exists v, net_loss Fl p n d f = Ret (Ok v).
Proof. exact loss_total. Qed.
Print Assumptions C62_loss.
Theorem C62_accuracy : forall Fl p n g k d, n <> [] -> fit_all Fl n g (Vec k) -> batch_for Fl g (Vec k) d ->
  exists v, net_max_pred_test Fl p n d = Ret v.
Proof. exact accuracy_total. Qed.
Print Assumptions C62_accuracy.

(** Training succeeds, and leaves a network of the same geometry, so that it can
    go on for ever. *)
Theorem C62_training : forall Fl p g g' f lr ds n, 2 <= length n -> fit_all Fl n g g' -> Forall (trainable Fl) n ->
  (forall d, In d ds -> batch_for Fl g g' d /\ exists s, c_div Fl lr (c_of_nat Fl (length (ds_inputs d))) = Ret s) ->
  exists n', train_on Fl p n ds f lr = Ret n' /\ fit_all Fl n' g g' /\ Forall (trainable Fl) n' /\ length n' = length n.
Proof. exact train_on_total. Qed.
Print Assumptions C62_training.

(** In f32, f64 and exact arithmetic the division of the rate is defined for
    every batch with at least one point. *)
Theorem C62_rate : forall k, k <> 0 ->
  (forall lr, exists s, c_div ROps lr (c_of_nat ROps k) = Ret s) /\
  (forall L lr, exists s, c_div (B32Ops L) lr (c_of_nat (B32Ops L) k) = Ret s) /\
  (forall L lr, exists s, c_div (B64Ops L) lr (c_of_nat (B64Ops L) k) = Ret s).
Proof.
  intros k K. destruct (C53_rate k) as (H1 & H2 & H3). split; [|split].
  - intros lr. destruct (c_div ROps lr (c_of_nat ROps k)) as [s|] eqn:E; [eauto|]. exfalso. apply K. exact (proj1 (H1 lr) E).
  - intros L lr. destruct (c_div (B32Ops L) lr (c_of_nat (B32Ops L) k)) as [s|] eqn:E; [eauto|]. exfalso. apply K. exact (proj1 (H2 L lr) E).
  - intros L lr. destruct (c_div (B64Ops L) lr (c_of_nat (B64Ops L) k)) as [s|] eqn:E; [eauto|]. exfalso. apply K. exact (proj1 (H3 L lr) E).
Qed.
Print Assumptions C62_rate.

(** A convolution, a pooling, a flattening and a dense layer that fit: two
    2 x 3 maps, reduced to two 2 x 2 maps, then to two 1 x 1 maps. *)
Definition ex_pool : red ZFl := mkRed ZFl 2 2 2 (fun b => Ret (fold_left (c_add ZFl) b (mkC 0 0)%Z)) (from_body (repeat (mkC 1 0)%Z 9) 3 3).
Definition ex_cnn : network ZFl := [LConv ex_conv; LReduce ex_pool; LFlatten (mkFlat 1 1 2); LDense ex_dense].
Definition ex_image : IOType (cplx Z) :=
  IOMatrix [from_body [mkC 1 0; mkC 2 0; mkC 3 0; mkC 4 0; mkC 0 1; mkC 0 2] 2 3; from_body [mkC 0 1; mkC 0 0; mkC 1 0; mkC 1 0; mkC 2 0; mkC 1 1] 2 3]%Z.
Definition ex_batch : dataset (cplx Z) (cplx Z) := mkData [ex_image; ex_image] [IOScalar [mkC 1 0; mkC 0 1]; IOScalar [mkC 0 0; mkC 5 1]]%Z.
Example C62_ex : fit_all ZFl ex_cnn (Maps 2 2 3) (Vec 2) /\ Forall (trainable ZFl) ex_cnn /\ batch_for ZFl (Maps 2 2 3) (Vec 2) ex_batch /\
  has_geom (Maps 2 2 3) ex_image /\ (exists n', train_on ZFl P32 ex_cnn [ex_batch; ex_batch] MeanSquare (mkC 2 0)%Z = Ret n' /\ n' <> ex_cnn).
Proof.
  assert (G : has_geom (Maps 2 2 3) ex_image).
  { split; [reflexivity|]. intros m H. repeat (destruct H as [<- | H]; [repeat split|]). destruct H. }
  split; [|split; [|split; [|split; [exact G|]]]].
  - unfold ex_cnn. apply fit_cons with (Maps 2 (2 - 1 + 1) (3 - 2 + 1)).
    { apply (fits_conv ZFl ex_conv 1 2 2 3); [apply C44_ex | discriminate | lia | lia]. }
    apply fit_cons with (Maps 2 (2 / 2) (2 / 2)).
    { apply (fits_reduce ZFl ex_pool 2 2 2); cbn; try lia; eauto. }
    apply fit_cons with (Vec (2 * (1 * 1))); [apply fits_flatten|].
    apply fit_cons with (Vec 2); [|apply fit_nil]. apply (fits_dense ZFl ex_dense); [|discriminate].
    repeat split. discriminate.
  - repeat constructor.
  - split; [reflexivity|]. split; intros x H; repeat (destruct H as [<- | H]; [first [exact G | cbn; lia]|]); destruct H.
  - eexists. split; [vm_compute; reflexivity|]. vm_compute. discriminate.
Qed.
