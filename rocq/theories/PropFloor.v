(** * Property C105: the level at which the cross entropy of a trained classifier stops *)
From Coq Require Import Reals Lra.
From Verif Require Import Base Float Matrix Cplx Random Act Input Loss Dense Conv Layer Dataset Network RFloat CFacts SpecLayer SpecEval PropTrain SpecGeom SpecDead SpecFit PropFit
  SpecError SpecFloor FloorFacts FloorEx.
Local Open Scope nat_scope.

(** In exact arithmetic, for any network and any one-hot targets: the reported
    cross entropy lies around ln (1 + (m - 1) / e), the closer the smaller the
    reported mean-square loss. *)
Theorem C105_close : forall p n m, 2 <= m -> forall xs ks, classifies p n m xs ks ->
  exists L C : R, net_loss ROps p n (labelled m xs ks) MeanSquare = Ret (Ok L) /\ net_loss ROps p n (labelled m xs ks) NormCrossEntropy = Ret (Ok C) /\ (0 <= L)%R /\
    (Rabs (C - ce_floor m) <= 4 * sqrt ((INR m - 1) * L) + 2 * ((INR m - 1) * L))%R.
Proof. exact floor_close. Qed.
Print Assumptions C105_close.

(** A network that returns the targets themselves reports exactly this number,
    and not zero. *)
Theorem C105_reached : forall p n m xs ks, 2 <= m -> classifies p n m xs ks ->
  net_loss ROps p n (labelled m xs ks) MeanSquare = Ret (Ok 0%R) -> net_loss ROps p n (labelled m xs ks) NormCrossEntropy = Ret (Ok (ce_floor m)) /\ (0 < ce_floor m)%R.
Proof. exact floor_reached. Qed.
Print Assumptions C105_reached.

(** Training with the cross entropy, of a linear last layer that could return the
    targets, at a rate small enough for the data (C86): the reported cross
    entropy tends to this number. *)
Theorem C105_limit : forall p (feat : network ROps) g d m lo pts,
  feat <> [] -> Forall no_params feat -> fit_all ROps feat g (Vec d) -> Forall (trainable ROps) feat -> 2 <= m -> pts <> [] ->
  (forall x t, In (x, t) pts -> has_geom g x /\ exists k, k < m /\ t = IOScalar (one_hot m k)) ->
  forall l (lr e : R), linear d m l -> linear d m lo -> net_loss ROps p (feat ++ [LDense lo]) (batch pts) MeanSquare = Ret (Ok 0%R) ->
  (0 < lr)%R -> (lr * sizes_of p feat pts <= INR (length pts))%R -> (0 < e)%R ->
  exists T0, forall T, T0 <= T -> exists n' c,
    train_steps ROps p (feat ++ [LDense l]) (repeat (batch pts, NormCrossEntropy, mkC lr 0%R) T) = Ret n' /\
    net_loss ROps p n' (batch pts) NormCrossEntropy = Ret (Ok c) /\ (Rabs (c - ce_floor m) <= e)%R.
Proof. exact floor_limit. Qed.
Print Assumptions C105_limit.

(** So training with the cross entropy does not make the cross entropy small: this
    network classifies its data without an error, and training it with the cross
    entropy, at any rate up to 1, makes the cross entropy more than five times
    as large. *)
Theorem C105_training_refuted : exists (n : network ROps) pts, forall p,
  net_max_pred_test ROps p n (batch pts) = Ret 1%R /\
  exists c0, net_loss ROps p n (batch pts) NormCrossEntropy = Ret (Ok c0) /\
  forall lr : R, (0 < lr <= 1)%R -> exists T0, forall T, T0 <= T -> exists n' c,
    train_steps ROps p n (repeat (batch pts, NormCrossEntropy, mkC lr 0%R) T) = Ret n' /\
    net_loss ROps p n' (batch pts) NormCrossEntropy = Ret (Ok c) /\ (5 * c0 < c)%R.
Proof. exact floor_from_below. Qed.
Print Assumptions C105_training_refuted.

(** Two features that tell two points apart, and weights that solve them: the
    hypotheses of the limit are met with a start away from the solution. *)
Definition two_pts : list (IOType RC * IOType RC) := [(one_map (mkC 1 0)%R, IOScalar (one_hot 2 0)); (one_map (mkC 0 0)%R, IOScalar (one_hot 2 1))].
Definition two_best : dense ROps := mkDense ROps (from_body [mkC 1 0; mkC (-1) 0]%R 2 1) [mkC 0 0; mkC 1 0]%R ActNone.
Example C105_ex : fit_feat <> [] /\ Forall no_params fit_feat /\ fit_all ROps fit_feat (Maps 1 1 1) (Vec 1) /\ Forall (trainable ROps) fit_feat /\
  (forall x t, In (x, t) two_pts -> has_geom (Maps 1 1 1) x /\ exists k, k < 2 /\ t = IOScalar (one_hot 2 k)) /\
  linear 1 2 fit_layer /\ linear 1 2 two_best /\ fit_layer <> two_best /\
  net_loss ROps P64 (fit_feat ++ [LDense two_best]) (batch two_pts) MeanSquare = Ret (Ok 0%R) /\ (1 / 2 * sizes_of P64 fit_feat two_pts <= INR (length two_pts))%R.
Proof.
  assert (OK : forall x t, In (x, t) two_pts -> has_geom (Maps 1 1 1) x /\ exists k, k < 2 /\ t = IOScalar (one_hot 2 k)).
  { intros x t [E|[E|[]]]; injection E as <- <-; (split; [|eexists; split; [|reflexivity]; lia]); cbn [has_geom one_map]; (split; [reflexivity|]); intros mt [<-|[]]; repeat split. }
  assert (L : linear 1 2 two_best) by (repeat split; discriminate).
  split; [discriminate|]. split; [repeat constructor|]. split; [exact fit_fits|]. split; [repeat constructor|]. split; [exact OK|]. split; [exact fit_linear|]. split; [exact L|]. split; [|split].
  - intros Q. apply (f_equal (fun l : dense ROps => re (nth 1 (d_biases l) (c_default ROps)))) in Q. cbn in Q. change (F ROps) with R in Q. lra.
  - rewrite (FitNet.lin_loss P64 fit_feat (Maps 1 1 1) 1 2); [| discriminate | repeat constructor | exact fit_fits | repeat constructor | exact L | discriminate | lia |].
    + do 2 f_equal. cbn. unfold FitFacts.nsq. cbn. field.
    + intros [x t] H. destruct (OK x t H) as (G & k & _ & E). split; [exact G|]. exists (one_hot 2 k). split; [exact E | reflexivity].
  - unfold sizes_of, size_of. cbn. unfold fsq; cbn. lra.
Qed.
