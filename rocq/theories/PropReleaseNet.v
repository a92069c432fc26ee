(** * The release profile of whole networks (C73)

    [U] is the number of [usize] values; the functions ending in [_rel] are the
    release builds (ReleaseNet.v). *)
From Verif Require Import Base BaseFacts Float Matrix Cplx Act Input Loss Dense Conv Layer Dataset Network SpecMatrix SpecLayer SpecConv SpecNet SpecGeom
  GeomFacts Release ReleaseFacts ReleaseNet SpecRelease ReleaseNetFacts ExOps PropGeom.

(** Whatever a debug build answers, value or error, when it predicts, measures
    the loss or measures the accuracy, a release build answers too. *)
Theorem C73_evaluation : forall U Fl p (n : network Fl),
  (forall x r, net_forward Fl p n x = Ret r -> net_forward_rel U Fl p n x = Ret r) /\
  (forall d f r, net_loss Fl p n d f = Ret r -> net_loss_rel U Fl p n d f = Ret r) /\
  (forall d r, net_max_pred_test Fl p n d = Ret r -> net_max_pred_test_rel U Fl p n d = Ret r).
Proof. intros U Fl p n. split; [exact (forward_below U Fl p n) | split; [exact (loss_below U Fl p n) | exact (accuracy_below U Fl p n)]]. Qed.
Print Assumptions C73_evaluation.

(** So it does for a training step, if the sizes of the padded maps fit in a
    word. *)
Theorem C73_training : forall U Fl p (n : network Fl) d f lr r, roomy_run U Fl p n d ->
  net_gradient_opt Fl p n d f lr = Ret r -> net_gradient_opt_rel U Fl p n d f lr = Ret r.
Proof. intros U Fl p n d f lr r H. exact (training_below U Fl p n d f lr H r). Qed.
Print Assumptions C73_training.

(** Networks whose layers fit are trained to the same weights by both builds,
    however many batches they see. *)
Theorem C73_fitting_networks : forall U Fl p g g' f lr ds n, 2 <= length n -> fit_all Fl n g g' -> Forall (trainable Fl) n -> small U g ->
  (forall d, In d ds -> batch_for Fl g g' d /\ exists s, c_div Fl lr (c_of_nat Fl (length (ds_inputs d))) = Ret s) ->
  train_on_rel U Fl p n ds f lr = train_on Fl p n ds f lr.
Proof. exact train_below. Qed.
Print Assumptions C73_fitting_networks.

(** The network of C62_ex satisfies the hypotheses; with a 1 x 1 kernel in a
    pooling layer that comes first, training panics in a debug build only. *)
Definition ex_first_pool : network ZFl :=
  [LReduce (mkRed ZFl 1 4 4 (fun b => Ret (fold_left (c_add ZFl) b (mkC 0 0)%Z)) (from_body [mkC 1 0]%Z 1 1)); LFlatten (mkFlat 1 1 1);
   LDense (mkDense ZFl (from_body [mkC 1 1]%Z 1 1) [mkC 0 0]%Z ActNone)].
Definition ex_first_data : dataset (cplx Z) (cplx Z) := mkData [IOMatrix [from_body (repeat (mkC 1 0)%Z 16) 4 4]] [IOScalar [mkC 3 0]%Z].
Example C73_network_ex :
  small 16 (Maps 2 2 3) /\
  (exists n', train_on_rel 16 ZFl Float.P32 ex_cnn [ex_batch; ex_batch] MeanSquare (mkC 2 0)%Z = Ret n' /\ n' <> ex_cnn) /\
  net_gradient_opt ZFl Float.P32 ex_first_pool ex_first_data MeanSquare (mkC 1 0)%Z = Panic /\
  (exists n', net_gradient_opt_rel 32 ZFl Float.P32 ex_first_pool ex_first_data MeanSquare (mkC 1 0)%Z = Ret (n', Ok tt) /\ n' <> ex_first_pool).
Proof.
  split; [cbn; lia|]. split; [eexists; split; [vm_compute; reflexivity | vm_compute; discriminate]|]. split; [vm_compute; reflexivity|].
  eexists; split; [vm_compute; reflexivity | intros E; apply (f_equal (fun n => nth 2 (map (fun l => match l with LDense d => body (d_weights d) | _ => [] end) n) [])) in E; vm_compute in E; discriminate].
Qed.
