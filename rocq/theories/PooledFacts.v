(** * Facts about numbers measured batch by batch *)
From Coq Require Import Reals Lra.
From Verif Require Import Base BaseFacts Float Matrix Cplx Random Act Input Loss Dense Conv Layer Dataset Network SpecMatrix SpecLayer SpecConv SpecNet RFloat CFacts LossFacts SpecEval
  PropData PropEval PropTrain SpecPooled.
Local Open Scope nat_scope.

Section Pooled.
Context (p : prec) (n : network ROps).
Local Notation point := (IOType RC * IOType RC)%type.
Local Notation sumR := (fold_right Rplus 0%R).
Local Notation sumN := (fold_right Nat.add 0).

Lemma fold_plus : forall l (a : R), fold_left Rplus l a = (a + sumR l)%R.
Proof. induction l as [|x l IH]; intros a; cbn [fold_left fold_right]; [ring|]. rewrite IH. ring. Qed.
Lemma fold_add : forall l a, fold_left Nat.add l a = a + sumN l.
Proof. induction l as [|x l IH]; intros a; cbn [fold_left fold_right]; [lia|]. rewrite IH. lia. Qed.
Lemma sumR_app : forall a b, sumR (a ++ b) = (sumR a + sumR b)%R.
Proof. induction a as [|x a IH]; intros b; cbn [app fold_right]; [ring|]. rewrite IH. ring. Qed.

(** [h] measures one point, [m] a list of points. *)
Section Measure.
Context (h : point -> outcome R) (m : list point -> outcome R).
Context (M1 : forall pts vs, pts <> [] -> mapM h pts = Ret vs -> m pts = Ret (sumR vs / INR (length pts))%R).
Context (M2 : forall pts, mapM h pts = Panic -> m pts = Panic).

Lemma pooled_ok : forall bs vs, bs <> [] -> Forall (fun b => b <> []) bs -> Forall2 (fun b v => m b = Ret v) bs vs -> m (concat bs) = Ret (pooled (map (@length _) bs) vs).
Proof.
  intros bs vs NE NB H.
  assert (X : exists ws, mapM h (concat bs) = Ret ws /\ sumR ws = sumR (map (fun q => (INR (fst q) * snd q)%R) (combine (map (@length _) bs) vs)) /\ length (concat bs) = sumN (map (@length _) bs)).
  { clear NE. induction H as [|b v bs vs E H IH]; [exists []; auto|]. inversion NB as [|x y B0 NB']. subst.
    destruct (IH NB') as (ws & E1 & E2 & E3). destruct (mapM h b) as [us|] eqn:EB; [|rewrite (M2 b EB) in E; discriminate].
    pose proof (M1 b us B0 EB) as E'. rewrite E in E'. injection E' as ->. exists (us ++ ws). cbn [concat map combine fold_right fst snd]. rewrite mapM_app, EB. cbn [obind]. rewrite E1. cbn [obind].
    split; [reflexivity|]. rewrite sumR_app, E2, app_length, E3. split; [|reflexivity]. assert (P : (0 < INR (length b))%R) by (apply lt_0_INR; destruct b; [congruence | cbn; lia]). apply (f_equal (fun z => (z + _)%R)). symmetry. unfold Rdiv. rewrite Rmult_comm, Rmult_assoc, Rinv_l; [apply Rmult_1_r | lra]. }
  destruct X as (ws & E1 & E2 & E3). unfold pooled. rewrite <- E2, <- E3. apply M1; [|exact E1]. destruct bs as [|b bs]; [congruence|]. inversion NB; subst. destruct b; [congruence | discriminate].
Qed.

Lemma pooled_panic : forall bs, Forall (fun b => b <> []) bs -> Exists (fun b => m b = Panic) bs -> m (concat bs) = Panic.
Proof.
  intros bs NB H. apply M2. induction H as [b bs E|b bs H IH]; cbn [concat]; rewrite mapM_app.
  - destruct (mapM h b) as [us|] eqn:EB; [|reflexivity]. inversion NB; subst. rewrite (M1 b us) in E; [discriminate | assumption | exact EB].
  - inversion NB; subst. destruct (mapM h b); [|reflexivity]. cbn [obind]. now rewrite IH.
Qed.
End Measure.

Definition loss_of (f : ComplexLossFunc) (pts : list point) : outcome R := r <- net_loss ROps p n (batch pts) f ;; unwrap r.
Definition loss_at (f : ComplexLossFunc) (it : point) : outcome R := pred <-! net_forward ROps p n (fst it) ;; unwrap (loss ROps (snd it) pred f).

Lemma loss_of_iff : forall f pts v, loss_of f pts = Ret v <-> net_loss ROps p n (batch pts) f = Ret (Ok v).
Proof.
  intros f pts v. unfold loss_of. destruct (net_loss ROps p n (batch pts) f) as [[w|e]|]; cbn [obind unwrap]; split; intros H; try discriminate; injection H as ->; reflexivity.
Qed.
Lemma loss_of_panic : forall f pts, loss_of f pts = Panic <-> net_loss ROps p n (batch pts) f = Panic.
Proof.
  intros f pts. unfold loss_of, net_loss. destruct (ds_points_iter (batch pts)) as (ins, tgs). destruct (mapM _ (combine ins tgs)) as [vals|]; [|cbn; tauto]. cbn [obind].
  destruct (reduce _ vals); cbn [unwrap_opt obind unwrap]; [split; discriminate | tauto].
Qed.

Lemma loss_of_1 : forall f pts vs, pts <> [] -> mapM (loss_at f) pts = Ret vs -> loss_of f pts = Ret (sumR vs / INR (length pts))%R.
Proof.
  intros f pts vs NE E. unfold loss_of, net_loss, ds_points_iter. rewrite batch_points. cbv beta iota zeta. match goal with |- context [mapM ?g ?l] => replace (mapM g l) with (@Ret (list (F ROps)) vs) by (symmetry; exact E) end. cbn [obind].
  pose proof (mapM_length _ _ _ E) as L. destruct vs as [|v vs]; [destruct pts; [congruence | discriminate]|]. cbn [reduce unwrap_opt obind unwrap]. change (@length (F ROps) (v :: vs)) with (@length R (v :: vs)). rewrite L, fofnat_R.
  change (fadd ROps) with Rplus. change (fdiv ROps) with Rdiv. exact (f_equal (fun z : R => Ret (z / INR (length pts))%R) (fold_plus vs v)).
Qed.
Lemma loss_of_2 : forall f pts, mapM (loss_at f) pts = Panic -> loss_of f pts = Panic.
Proof. intros f pts E. unfold loss_of, net_loss, ds_points_iter. rewrite batch_points. cbv beta iota zeta. match goal with |- context [mapM ?g ?l] => replace (mapM g l) with (@Panic (list (F ROps))) by (symmetry; exact E) end. reflexivity. Qed.

Definition hit_at (it : point) : outcome nat :=
  prediction <-! net_forward ROps p n (fst it) ;; pred <- as_slice prediction ;; targ <- as_slice (snd it) ;; Ret (if max_index ROps targ =? max_index ROps pred then 1 else 0).
Definition hitR (it : point) : outcome R := k <- hit_at it ;; Ret (INR k).
Lemma hits_R : forall pts, mapM hitR pts = (ks <- mapM hit_at pts ;; Ret (map INR ks)).
Proof.
  induction pts as [|it pts IH]; [reflexivity|]. cbn [mapM]. rewrite IH. unfold hitR at 1. destruct (hit_at it); cbn [obind]; [|reflexivity]. destruct (mapM hit_at pts); reflexivity.
Qed.
Lemma sum_INR : forall l, sumR (map INR l) = INR (sumN l).
Proof. induction l as [|k l IH]; [reflexivity|]. cbn [map fold_right]. now rewrite plus_INR, IH. Qed.

Lemma accuracy_1 : forall pts vs, pts <> [] -> mapM hitR pts = Ret vs -> net_max_pred_test ROps p n (batch pts) = Ret (sumR vs / INR (length pts))%R.
Proof.
  intros pts vs NE E. rewrite hits_R in E. destruct (mapM hit_at pts) as [ks|] eqn:EK; [|discriminate]. cbn [obind] in E. injection E as <-.
  unfold net_max_pred_test, ds_points_iter. rewrite batch_points. unfold hit_at in EK. cbv beta iota zeta. rewrite EK. cbn [obind batch ds_target]. rewrite map_length, !fofnat_R, fold_add, sum_INR. reflexivity.
Qed.
Lemma accuracy_2 : forall pts, mapM hitR pts = Panic -> net_max_pred_test ROps p n (batch pts) = Panic.
Proof.
  intros pts E. rewrite hits_R in E. destruct (mapM hit_at pts) as [ks|] eqn:EK; [discriminate|].
  unfold net_max_pred_test, ds_points_iter. rewrite batch_points. unfold hit_at in EK. cbv beta iota zeta. now rewrite EK.
Qed.

Theorem pooled_loss : forall f bs, bs <> [] -> Forall (fun b : list point => b <> []) bs ->
  (forall ls, Forall2 (fun b l => net_loss ROps p n (batch b) f = Ret (Ok l)) bs ls -> net_loss ROps p n (batch (concat bs)) f = Ret (Ok (pooled (map (@length _) bs) ls))) /\
  (Exists (fun b => net_loss ROps p n (batch b) f = Panic) bs -> net_loss ROps p n (batch (concat bs)) f = Panic).
Proof.
  intros f bs NE NB. split.
  - intros ls H. apply loss_of_iff. apply (pooled_ok (loss_at f) (loss_of f) (loss_of_1 f) (loss_of_2 f) bs ls NE NB). clear - H. induction H; constructor; auto. now apply loss_of_iff.
  - intros H. apply loss_of_panic. apply (pooled_panic (loss_at f) (loss_of f) (loss_of_1 f) (loss_of_2 f) bs NB). clear - H. induction H; [left; now apply loss_of_panic | now right].
Qed.

Theorem pooled_accuracy : forall bs, bs <> [] -> Forall (fun b : list point => b <> []) bs ->
  (forall vs, Forall2 (fun b v => net_max_pred_test ROps p n (batch b) = Ret v) bs vs -> net_max_pred_test ROps p n (batch (concat bs)) = Ret (pooled (map (@length _) bs) vs)) /\
  (Exists (fun b => net_max_pred_test ROps p n (batch b) = Panic) bs -> net_max_pred_test ROps p n (batch (concat bs)) = Panic).
Proof.
  intros bs NE NB. split.
  - intros vs H. exact (pooled_ok hitR _ accuracy_1 accuracy_2 bs vs NE NB H).
  - intros H. exact (pooled_panic hitR _ accuracy_1 accuracy_2 bs NB H).
Qed.
End Pooled.
