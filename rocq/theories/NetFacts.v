(** * Lemmas about networks *)
From Verif Require Import Base BaseFacts Float Matrix Cplx Act Input Loss Dense Conv Layer Dataset Network SpecMatrix SpecLayer SpecConv SpecNet.

Section NetFacts.
Context (Fl : FloatOps) (p : prec).
Local Notation C := (cplx (F Fl)).
Local Notation z := (c_default Fl).
Implicit Types (l : clayer Fl) (ls n : list (clayer Fl)) (x y : IOType C).

Lemma fwd_ok : forall l x y, layer_forward Fl p l x = Ret (Ok y) -> fwd Fl p l x = Ret y.
Proof. intros l x y E. unfold fwd. now rewrite E. Qed.

Lemma fwd_cases : forall l x, (exists y, layer_forward Fl p l x = Ret (Ok y) /\ fwd Fl p l x = Ret y) \/
  ((forall y, layer_forward Fl p l x <> Ret (Ok y)) /\ fwd Fl p l x = Panic).
Proof.
  intros l x. unfold fwd. destruct (layer_forward Fl p l x) as [[y|e]|]; cbn [obind unwrap].
  - left. eauto.
  - right. split; [discriminate | reflexivity].
  - right. split; [discriminate | reflexivity].
Qed.

Lemma trace_cases : forall ls x, (exists vs, trace Fl p ls x vs) \/ (forall vs, ~ trace Fl p ls x vs).
Proof.
  induction ls as [|l ls IH]; intros x.
  - left. exists [x]. constructor.
  - destruct (fwd_cases l x) as [(y & E & _) | (N & _)].
    + destruct (IH y) as [(vs & T) | T].
      * left. exists (x :: vs). econstructor; eauto.
      * right. intros vs H. inversion H; subst. assert (y0 = y) by congruence. subst. eapply T; eauto.
    + right. intros vs H. inversion H; subst. eapply N; eauto.
Qed.

Lemma trace_length : forall ls x vs, trace Fl p ls x vs -> length vs = S (length ls).
Proof. intros ls x vs H. induction H; cbn; auto. Qed.

Lemma trace_det : forall ls x vs vs', trace Fl p ls x vs -> trace Fl p ls x vs' -> vs = vs'.
Proof.
  intros ls x vs vs' H. revert vs'. induction H; intros vs' H'; inversion H'; subst; auto.
  f_equal. apply IHtrace. congruence.
Qed.

Lemma trace_hd : forall ls x vs d, trace Fl p ls x vs -> nth 0 vs d = x.
Proof. intros ls x vs d H. inversion H; reflexivity. Qed.

Lemma trace_nth : forall ls x vs k l d, trace Fl p ls x vs -> nth_error ls k = Some l ->
  layer_forward Fl p l (nth k vs d) = Ret (Ok (nth (S k) vs d)).
Proof.
  intros ls x vs k l d H. revert k. induction H as [|l0 ls x y vs E T IH]; intros k K; [destruct k; discriminate|].
  destruct k as [|k]; cbn in K.
  - injection K as ->. cbn [nth]. pose proof (trace_hd _ _ _ d T) as H0. now rewrite H0.
  - cbn [nth]. now apply IH.
Qed.

(** The loops. *)
Lemma collect_fold : forall ls x vs pre, trace Fl p ls x vs ->
  foldM (fun outs l => a <- unwrap_opt (nth_error outs (length outs - 1)) ;;
                       y <- fwd Fl p l a ;; Ret (outs ++ [y])) ls (pre ++ [x]) = Ret (pre ++ vs).
Proof.
  intros ls x vs pre H. revert pre. induction H as [x|l ls x y vs E T IH]; intros pre; [reflexivity|].
  cbn [foldM]. rewrite app_length. cbn [length]. rewrite Nat.add_sub, nth_error_app2, Nat.sub_diag by lia.
  cbn [nth_error unwrap_opt obind]. rewrite (fwd_ok _ _ _ E). cbn [obind]. rewrite (IH (pre ++ [x])).
  now rewrite <- app_assoc.
Qed.

Lemma collect_fold_panic : forall ls x pre, (forall vs, ~ trace Fl p ls x vs) ->
  foldM (fun outs l => a <- unwrap_opt (nth_error outs (length outs - 1)) ;;
                       y <- fwd Fl p l a ;; Ret (outs ++ [y])) ls (pre ++ [x]) = Panic.
Proof.
  induction ls as [|l ls IH]; intros x pre N.
  - exfalso. apply (N [x]). constructor.
  - cbn [foldM]. rewrite app_length. cbn [length]. rewrite Nat.add_sub, nth_error_app2, Nat.sub_diag by lia.
    cbn [nth_error unwrap_opt obind]. destruct (fwd_cases l x) as [(y & E & ->) | (_ & ->)]; [|reflexivity].
    cbn [obind]. apply IH. intros vs T. apply (N (x :: vs)). econstructor; eauto.
Qed.

Lemma fwd_fold : forall ls x vs, trace Fl p ls x vs -> foldM (fun acc l => fwd Fl p l acc) ls x = Ret (last vs x).
Proof.
  intros ls x vs H. induction H as [x|l ls x y vs E T IH]; [reflexivity|].
  cbn [foldM]. rewrite (fwd_ok _ _ _ E). cbn [obind]. rewrite IH. f_equal.
  inversion T; subst; [reflexivity|]. cbn [last]. destruct vs0 as [|v vs0]; [inversion H0|]. clear.
  cbn [last]. generalize v. induction vs0 as [|w vs0 IH]; intros u; [reflexivity|]. cbn [last]. destruct vs0; [reflexivity | apply (IH w)].
Qed.

Lemma fwd_fold_panic : forall ls x, (forall vs, ~ trace Fl p ls x vs) -> foldM (fun acc l => fwd Fl p l acc) ls x = Panic.
Proof.
  induction ls as [|l ls IH]; intros x N; [exfalso; apply (N [x]); constructor|].
  cbn [foldM]. destruct (fwd_cases l x) as [(y & E & ->) | (_ & ->)]; [|reflexivity].
  cbn [obind]. apply IH. intros vs T. apply (N (x :: vs)). econstructor; eauto.
Qed.

Lemma forward_fold : forall n x, n <> [] ->
  net_forward Fl p n x = (out <- foldM (fun acc l => fwd Fl p l acc) n x ;; Ret (Ok out)).
Proof.
  intros n x N. destruct n as [|l n]; [congruence|]. unfold net_forward. cbn [foldM].
  destruct (fwd Fl p l x) as [y|]; cbn [obind]; [|reflexivity]. destruct n as [|l' n]; reflexivity.
Qed.

Lemma intercept_ok : forall ls x vs k cur idx l d, trace Fl p (firstn k ls) x vs -> nth_error ls k = Some l ->
  idx = cur + k -> intercept_loop Fl p ls cur idx x = Ret (nth k vs d, l).
Proof.
  induction ls as [|l0 ls IH]; intros x vs k cur idx l d T K ->; [destruct k; discriminate|].
  destruct k as [|k].
  - rewrite Nat.add_0_r. cbn in *. rewrite Nat.eqb_refl. injection K as ->. inversion T. reflexivity.
  - cbn [firstn] in T. inversion T as [|? ? ? y vs0 E T0]; subst. cbn [intercept_loop].
    replace (cur =? cur + S k) with false by (symmetry; apply Nat.eqb_neq; lia).
    rewrite (fwd_ok _ _ _ E). cbn [obind nth]. apply IH; auto. lia.
Qed.

Lemma intercept_panic : forall ls x k cur idx, (forall vs, ~ trace Fl p (firstn k ls) x vs) -> k < length ls ->
  idx = cur + k -> intercept_loop Fl p ls cur idx x = Panic.
Proof.
  induction ls as [|l0 ls IH]; intros x k cur idx N K ->; [reflexivity|].
  destruct k as [|k]; [exfalso; apply (N [x]); constructor|].
  cbn [intercept_loop]. replace (cur =? cur + S k) with false by (symmetry; apply Nat.eqb_neq; lia).
  destruct (fwd_cases l0 x) as [(y & E & ->) | (_ & ->)]; [|reflexivity]. cbn [obind].
  apply IH with (k := k); [|cbn in K; lia | lia]. intros vs T. apply (N (x :: vs)). cbn [firstn]. econstructor; eauto.
Qed.

Lemma trace_firstn : forall ls x vs k, trace Fl p ls x vs -> k <= length ls ->
  trace Fl p (firstn k ls) x (firstn (S k) vs).
Proof.
  intros ls x vs k H. revert k. induction H as [x|l ls x y vs E T IH]; intros k K.
  - cbn in K. replace k with 0 by lia. constructor.
  - destruct k as [|k]; [constructor|]. cbn [firstn length] in *. econstructor; [exact E|]. apply IH. lia.
Qed.

(** Construction. *)
Lemma nth_error_snoc_inv : forall {A} (l : list A) a k b, nth_error (l ++ [a]) k = Some b ->
  (k < length l /\ nth_error l k = Some b) \/ (k = length l /\ b = a).
Proof.
  intros A l a k b H. destruct (Nat.lt_ge_cases k (length l)) as [K|K].
  - left. split; [auto|]. now rewrite nth_error_app1 in H.
  - right. rewrite nth_error_app2 in H by auto. destruct (k - length l) as [|m] eqn:E; cbn in H.
    + split; [lia | congruence].
    + destruct m; discriminate.
Qed.

Lemma shape_eqb_eq : forall a b, shape_eqb a b = true -> a = b.
Proof. intros [a|a] [b|b] H; cbn in H; try discriminate; apply Nat.eqb_eq in H; congruence. Qed.

Lemma accepted_snoc : forall os rs o r, length os = length rs ->
  accepted Fl (os ++ [o]) (rs ++ [r]) = accepted Fl os rs ++ accepted Fl [o] [r].
Proof.
  induction os as [|a os IH]; intros [|b rs] o r L; try discriminate; [reflexivity|].
  cbn [app accepted]. rewrite IH by (cbn in L; congruence). now rewrite <- app_assoc.
Qed.

Lemma built_length : forall os rs n, built Fl os rs n -> length os = length rs.
Proof. intros os rs n H. induction H; [reflexivity|]. now rewrite !app_length, IHbuilt. Qed.

End NetFacts.
