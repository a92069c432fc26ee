(** * Lemmas about convolutional, reduce and flatten layers *)
From Verif Require Import Base BaseFacts Float Matrix Cplx Random Act Input Dense Conv Layer SpecMatrix MatrixFacts SpecLayer DenseFacts.

Lemma nth_zip_sub : forall Fl (l r : list (cplx (F Fl))) k z, length l = length r -> k < length r ->
  nth k (zip_assign (sub_conj Fl) l r) z = c_sub Fl (nth k l z) (c_conj Fl (nth k r z)).
Proof.
  intros Fl l; induction l as [|a l IH]; intros [|b r] k z L K; cbn [length] in *; try lia.
  destruct k; cbn [zip_assign nth]; [reflexivity|]. apply IH; lia.
Qed.

Lemma nth_error_seq : forall n i a, i < n -> nth_error (seq a n) i = Some (a + i).
Proof.
  induction n as [|n IH]; intros i a H; [lia|]. destruct i; cbn; [f_equal; lia|]. rewrite IH by lia. f_equal. lia.
Qed.

Lemma mapM_panic_inv : forall {A B} (f : A -> outcome B) l, mapM f l = Panic -> exists a, In a l /\ f a = Panic.
Proof.
  intros A B f l; induction l as [|a l IH]; cbn [mapM]; [discriminate|].
  destruct (f a) as [b|] eqn:E; cbn [obind]; [|intros _; exists a; cbn; auto].
  destruct (mapM f l); cbn [obind]; [discriminate|]. intros _. destruct IH as (a' & I & E'); [reflexivity|].
  exists a'. cbn. auto.
Qed.

Lemma mapM_nth_inv : forall {A B} (f : A -> outcome B) l r i a, mapM f l = Ret r -> nth_error l i = Some a ->
  exists b, nth_error r i = Some b /\ f a = Ret b.
Proof.
  intros A B f l; induction l as [|a0 l IH]; intros r i a H N; [destruct i; discriminate|].
  cbn [mapM] in H. apply obind_inv in H as [b [Eb H]]. apply obind_inv in H as [bs [Es H]].
  assert (b :: bs = r) by congruence. subst r. destruct i; cbn in *.
  - assert (a0 = a) by congruence. subst. eauto.
  - eapply IH; eauto.
Qed.

Lemma kernel_count : forall {T} (ks : list (matrix T)), Forall wf ks ->
  fold_left (fun acc k => acc + sh0 k * sh1 k) ks 0 = length (concat (map body ks)).
Proof.
  intros T ks W. assert (H : forall a, fold_left (fun acc k => acc + sh0 k * sh1 k) ks a = a + length (concat (map body ks))).
  { induction W as [|k ks Wk W IH]; intros a; cbn [fold_left map concat length]; [lia|].
    rewrite IH, app_length, Wk. lia. }
  apply H.
Qed.

Lemma adjust_kernels_shapes : forall Fl (ks : list (matrix (cplx (F Fl)))) dw,
  map (fun k => (sh0 k, sh1 k, length (body k))) (adjust_kernels Fl ks dw) = map (fun k => (sh0 k, sh1 k, length (body k))) ks.
Proof.
  intros Fl ks; induction ks as [|k ks IH]; intros dw; cbn [adjust_kernels map]; [reflexivity|].
  rewrite IH. cbn [with_body sh0 sh1 body]. now rewrite zip_assign_length.
Qed.

Lemma zip_assign_app : forall {A B} (op : A -> B -> A) l1 l2 r,
  zip_assign op (l1 ++ l2) r = zip_assign op l1 r ++ zip_assign op l2 (skipn (length l1) r).
Proof.
  intros A B op l1; induction l1 as [|a l1 IH]; intros l2 r; cbn [app zip_assign length skipn]; [reflexivity|].
  destruct r; cbn [app]; [|f_equal; apply IH]. f_equal. f_equal. destruct l2; reflexivity.
Qed.

Lemma adjust_kernels_values : forall Fl (ks : list (matrix (cplx (F Fl)))) dw,
  concat (map body (adjust_kernels Fl ks dw)) = zip_assign (sub_conj Fl) (concat (map body ks)) dw.
Proof.
  intros Fl ks; induction ks as [|k ks IH]; intros dw; cbn [adjust_kernels map concat]; [reflexivity|].
  rewrite zip_assign_app, IH. reflexivity.
Qed.

Lemma combine_app' : forall {A B} (l1 l2 : list A) (r1 r2 : list B), length l1 = length r1 ->
  combine (l1 ++ l2) (r1 ++ r2) = combine l1 r1 ++ combine l2 r2.
Proof.
  intros A B l1; induction l1 as [|a l1 IH]; intros l2 [|b r1] r2 H; cbn in *; try discriminate; [reflexivity|].
  f_equal. apply IH. lia.
Qed.

Lemma sum_from_ext : forall {A B} (op : A -> B -> A) z f g n, (forall i, i < n -> f i = g i) ->
  sum_from op z f n = sum_from op z g n.
Proof.
  intros A B op z f g n; induction n as [|n IH]; intros H; [reflexivity|].
  unfold sum_from in *. rewrite seq_S, !fold_left_app. cbn [fold_left Nat.add]. rewrite IH, H; auto.
Qed.
