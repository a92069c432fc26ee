(** * Lemmas about the release profile of layers and networks *)
From Verif Require Import Base BaseFacts Float Matrix Cplx Random Act Input Loss Dense Conv Layer Dataset Network SpecMatrix MatrixFacts SpecLayer SpecConv SpecNet SpecGeom
  NetFacts TrainDense GeomFacts Release ReleaseFacts ReleaseNet SpecRelease.

(** ** Returning as much *)
Definition below {A : Type} (m m' : outcome A) : Prop := forall r, m = Ret r -> m' = Ret r.

Lemma below_refl : forall {A} (m : outcome A), below m m.
Proof. intros A m r H. exact H. Qed.
Lemma below_bind : forall {A B} (m m' : outcome A) (k k' : A -> outcome B), below m m' -> (forall a, m = Ret a -> below (k a) (k' a)) -> below (obind m k) (obind m' k').
Proof. intros A B m m' k k' H K r E. apply obind_inv in E as (a & E1 & E2). rewrite (H a E1). cbn [obind]. exact (K a E1 r E2). Qed.
Lemma below_mapM : forall {A B} (f g : A -> outcome B) l, (forall a, In a l -> below (f a) (g a)) -> below (mapM f l) (mapM g l).
Proof.
  intros A B f g l H. induction l as [|a l IH]; [apply below_refl|]. cbn [mapM]. apply below_bind; [apply H; now left|]. intros b _.
  apply below_bind; [apply IH; intros; apply H; now right|]. intros; apply below_refl.
Qed.
Lemma below_foldM : forall {A S} (f g : S -> A -> outcome S) l s, (forall s a, In a l -> below (f s a) (g s a)) -> below (foldM f l s) (foldM g l s).
Proof.
  intros A S f g l. induction l as [|a l IH]; intros s H; [apply below_refl|]. cbn [foldM]. apply below_bind; [apply H; now left|]. intros b _.
  apply IH. intros; apply H; now right.
Qed.
Lemma below_flat_mapM : forall {A B} (f g : A -> outcome (list B)) l, (forall a, In a l -> below (f a) (g a)) -> below (flat_mapM f l) (flat_mapM g l).
Proof.
  intros A B f g l H. unfold flat_mapM. apply below_bind; [now apply below_mapM|]. intros; apply below_refl.
Qed.

Section ReleaseNetFacts.
Context (U : nat) (Fl : FloatOps) (p : prec).
Local Notation C := (cplx (F Fl)).
Local Notation O := (cops Fl).

Lemma conv_below : forall (m k : matrix C), below (convolution O m k) (convolution_rel U O m k).
Proof. intros m k r. apply convolution_dev. Qed.

Lemma out_shape_below : forall (l : conv Fl) input, below (conv_out_shape Fl l input) (conv_out_shape_rel U Fl l input).
Proof.
  intros l input. unfold conv_out_shape, conv_out_shape_rel. apply below_bind; [apply below_refl|]. intros e _. apply below_bind; [apply below_refl|]. intros k _.
  apply below_bind; [apply below_refl|]. intros m _ r H.
  apply obind_inv in H as (a & E1 & H). apply obind_inv in H as (f0 & E2 & H). apply obind_inv in H as (b & E3 & H). apply obind_inv in H as (f1 & E4 & H).
  rewrite (wsub_dev U _ _ _ E1), (wsub_dev U _ _ _ E2), (wsub_dev U _ _ _ E3), (wsub_dev U _ _ _ E4). exact H.
Qed.

Lemma feature_below : forall o0 o1 input filter bias, below (conv_feature Fl o0 o1 input filter bias) (conv_feature_rel U Fl o0 o1 input filter bias).
Proof.
  intros. unfold conv_feature, conv_feature_rel. cbv zeta. apply below_bind; [|intros; apply below_refl]. apply below_foldM. intros s fk _.
  apply below_bind; [apply conv_below|]. intros; apply below_refl.
Qed.

Lemma conv_forward_below : forall (l : conv Fl) x, below (conv_forward Fl p l x) (conv_forward_rel U Fl p l x).
Proof.
  intros l [v|input]; [apply below_refl|]. unfold conv_forward, conv_forward_rel. apply below_bind; [apply out_shape_below|]. intros (o0, o1) _.
  destruct (negb _); [apply below_refl|]. apply below_bind; [apply below_refl|]. intros rows _. apply below_bind; [|intros; apply below_refl].
  apply below_mapM. intros fb _. apply below_bind; [apply feature_below|]. intros; apply below_refl.
Qed.

Lemma conv_q_below : forall (l : conv Fl) input, below (conv_q Fl l input) (conv_q_rel U Fl l input).
Proof.
  intros l input. unfold conv_q, conv_q_rel. apply below_bind; [apply out_shape_below|]. intros (o0, o1) _. apply below_bind; [apply below_refl|]. intros rows _.
  apply below_flat_mapM. intros fb _. apply below_bind; [apply feature_below|]. intros; apply below_refl.
Qed.

Lemma oper_a_below : forall input fa fb, below (conv_oper_a Fl input fa fb) (conv_oper_a_rel U Fl input fa fb).
Proof.
  intros. unfold conv_oper_a, conv_oper_a_rel. apply below_bind; [|intros; apply below_refl]. apply below_flat_mapM. intros f _.
  apply below_bind; [apply conv_below|]. intros r _. apply below_bind; [apply below_refl|]. intros t1 _.
  apply below_bind; [apply conv_below|]. intros; apply below_refl.
Qed.

Lemma oper_b_below : forall filter (fa fb : matrix C) px py, sh0 fa + 2 * px < U -> sh1 fa + 2 * py < U -> sh0 fb = sh0 fa -> sh1 fb = sh1 fa ->
  below (conv_oper_b Fl filter fa fb px py) (conv_oper_b_rel U Fl filter fa fb px py).
Proof.
  intros filter fa fb px py A B E0 E1. unfold conv_oper_b, conv_oper_b_rel. rewrite !pad_dev by (rewrite ?E0, ?E1; auto).
  do 3 (apply below_bind; [apply below_refl|]; intros ? _).
  apply below_bind; [apply below_flat_mapM; intros fk _; apply below_bind; [apply conv_below | intros; apply below_refl]|]. intros na _.
  apply below_bind; [apply below_flat_mapM; intros fk _; apply below_bind; [apply conv_below | intros; apply below_refl]|]. intros; apply below_refl.
Qed.

Lemma filter_step_below : forall input osz o0 o1 px py st filter, o0 + 2 * px < U -> o1 + 2 * py < U ->
  below (conv_filter_step Fl input osz o0 o1 px py st filter) (conv_filter_step_rel U Fl input osz o0 o1 px py st filter).
Proof.
  intros. unfold conv_filter_step, conv_filter_step_rel. do 2 (apply below_bind; [apply below_refl|]; intros ? _). cbv zeta.
  apply below_bind; [apply oper_a_below|]. intros (dldk, dldb) _. apply below_bind; [apply oper_b_below; auto|]. intros (na, nb) _. apply below_refl.
Qed.

Lemma conv_derivatives_below : forall (l : conv Fl) x g gc, roomy U Fl (LConv l) x -> below (conv_derivatives Fl p l x g gc) (conv_derivatives_rel U Fl p l x g gc).
Proof.
  intros l [v|input] g gc R; [apply below_refl|]. unfold conv_derivatives, conv_derivatives_rel.
  apply below_bind; [apply below_refl|]. intros m IM. apply below_bind; [apply below_refl|]. intros k0 EK. apply below_bind; [apply below_refl|]. intros k UK.
  assert (SZ : sh0 m + sh0 k <= U /\ sh1 m + sh1 k <= U).
  { apply R.
    - unfold index in IM. destruct (nth_error input 0) eqn:N; [|discriminate]. injection IM as ->. eapply nth_error_In; eauto.
    - apply unwrap_inv in UK as ->. unfold elm in EK. repeat match type of EK with context [if ?c then _ else _] => destruct c end; try discriminate.
      apply obind_inv in EK as (y & EI & EK). injection EK as ->. unfold index in EI. destruct (nth_error _ _) eqn:N; [|discriminate]. injection EI as ->. eapply nth_error_In; eauto. }
  intros r H.
  apply obind_inv in H as (px & E1 & H). apply obind_inv in H as (py & E2 & H). apply obind_inv in H as (o0 & E3 & H). apply obind_inv in H as (o1 & E4 & H).
  cbv zeta. rewrite (wsub_dev U _ _ _ E1), (wsub_dev U _ _ _ E2), (wsub_dev U _ _ _ E3), (wsub_dev U _ _ _ E4). revert r H.
  assert (SO : o0 + 2 * px < U /\ o1 + 2 * py < U).
  { unfold usub in E1, E2, E3, E4. destruct (1 <=? sh0 k) eqn:L1; [|discriminate]. destruct (1 <=? sh1 k) eqn:L2; [|discriminate]. destruct (px <=? sh0 m) eqn:L3; [|discriminate].
    destruct (py <=? sh1 m) eqn:L4; [|discriminate]. apply Nat.leb_le in L1, L2, L3, L4. injection E1 as <-. injection E2 as <-. injection E3 as <-. injection E4 as <-. lia. }
  fold (@below (result (derivs Fl) GradientError)).
  match goal with |- forall r, ?a = Ret r -> ?b = Ret r => change (below a b) end.
  apply below_bind; [apply conv_q_below|]. intros q _. do 4 (apply below_bind; [apply below_refl|]; intros ? _).
  apply below_bind; [|intros; apply below_refl]. apply below_foldM. intros s f _. now apply filter_step_below.
Qed.

Lemma layer_forward_below : forall l x, below (layer_forward Fl p l x) (layer_forward_rel U Fl p l x).
Proof. intros [l|l|l|l] x; try apply below_refl. apply conv_forward_below. Qed.

Lemma layer_derivatives_below : forall l x g gc, roomy U Fl l x -> below (layer_derivatives Fl p l x g gc) (layer_derivatives_rel U Fl p l x g gc).
Proof.
  intros [l|l|l|l] x g gc R; try apply below_refl; [now apply conv_derivatives_below|].
  intros r H. apply red_derivatives_dev; [|exact H]. intros ms -> m M. specialize (R m M). cbn in R. lia.
Qed.

Lemma fwd_below : forall l x, below (fwd Fl p l x) (fwd_rel U Fl p l x).
Proof. intros l x. apply below_bind; [apply layer_forward_below|]. intros; apply below_refl. Qed.

Lemma forward_below : forall n x, below (net_forward Fl p n x) (net_forward_rel U Fl p n x).
Proof.
  intros [|l n] x; [apply below_refl|]. unfold net_forward, net_forward_rel. apply below_bind; [apply fwd_below|]. intros y _.
  apply below_bind; [|intros; apply below_refl]. destruct (1 <? _); [|apply below_refl]. apply below_foldM. intros; apply fwd_below.
Qed.

Lemma collect_below : forall n x, below (net_collect_acts Fl p n x) (net_collect_acts_rel U Fl p n x).
Proof.
  intros [|l n] x; [apply below_refl|]. unfold net_collect_acts, net_collect_acts_rel. apply below_bind; [|intros; apply below_refl]. apply below_foldM. intros s a _.
  apply below_bind; [apply below_refl|]. intros b _. apply below_bind; [apply fwd_below|]. intros; apply below_refl.
Qed.

Lemma loss_below : forall n d f, below (net_loss Fl p n d f) (net_loss_rel U Fl p n d f).
Proof.
  intros n d f. unfold net_loss, net_loss_rel. destruct (ds_points_iter d) as (ins, tgs). apply below_bind; [|intros; apply below_refl].
  apply below_mapM. intros it _. apply below_bind; [apply forward_below|]. intros; apply below_refl.
Qed.

Lemma accuracy_below : forall n d, below (net_max_pred_test Fl p n d) (net_max_pred_test_rel U Fl p n d).
Proof.
  intros n d. unfold net_max_pred_test, net_max_pred_test_rel. destruct (ds_points_iter d) as (ins, tgs). apply below_bind; [|intros; apply below_refl].
  apply below_mapM. intros it _. apply below_bind; [apply forward_below|]. intros; apply below_refl.
Qed.

Lemma back_below : forall k st al, roomy U Fl (snd al) (fst al) -> below (back_step Fl p k st al) (back_step_rel U Fl p k st al).
Proof.
  intros k st (x, l) R. unfold back_step, back_step_rel. destruct (layer_propagates Fl l); [|apply below_refl].
  apply below_bind; [now apply layer_derivatives_below|]. intros r0 _. apply below_bind; [apply below_refl|]. intros (((dw, db), da), dc) _ r H.
  apply obind_inv in H as (i & E & H). apply obind_inv in E as (a & E1 & E2). cbv zeta. rewrite (wsub_dev U _ _ _ E1), (wsub_dev U _ _ _ E2). exact H.
Qed.

(** The values handed to the layers of a batch in the dev profile. *)
Lemma collect_length : forall n x acts, net_collect_acts Fl p n x = Ret (Ok acts) -> length acts = S (length n).
Proof.
  intros [|l n] x acts H; [discriminate|]. unfold net_collect_acts in H. apply obind_inv in H as (outs & E & H). injection H as <-.
  assert (G : forall (m : network Fl) s r, foldM (fun outs l => a <- unwrap_opt (nth_error outs (length outs - 1)) ;; y <- fwd Fl p l a ;; Ret (outs ++ [y])) m s = Ret r ->
    length r = length s + length m).
  { clear. induction m as [|l m IH]; intros s r H; cbn [foldM] in H; [injection H as <-; cbn; lia|].
    apply obind_inv in H as (s' & E & H). apply obind_inv in E as (a & _ & E). apply obind_inv in E as (y & _ & E). injection E as <-.
    apply IH in H. rewrite H, app_length. cbn. lia. }
  apply G in E. cbn [length] in *. lia.
Qed.

Lemma in_combine_rev : forall {A B} (acts : list A) last rest (n : list B) al, rev acts = last :: rest -> length acts = S (length n) ->
  In al (combine rest (rev n)) -> In al (combine acts n).
Proof.
  intros A B acts last rest n al R L H.
  assert (E : acts = rev rest ++ [last]) by (rewrite <- (rev_involutive acts), R; reflexivity). subst acts.
  rewrite app_length, rev_length in L. cbn in L.
  assert (E : combine rest (rev n) = rev (combine (rev rest) n)).
  { rewrite <- (rev_involutive rest) at 1. generalize (rev rest) (eq_trans (rev_length rest) (eq_add_S _ _ (eq_trans (eq_sym (Nat.add_1_r _)) L))). clear.
    intros xs. revert n. induction xs as [|x xs IH]; intros [|b n] L; cbn in *; try discriminate; auto.
    rewrite <- (IH n) by congruence. clear IH.
    assert (G : forall (u : list A) (v : list B) a b, length u = length v -> combine (u ++ [a]) (v ++ [b]) = combine u v ++ [(a, b)]).
    { clear. induction u as [|a u IH]; intros [|b v] a0 b0 L; cbn in *; try discriminate; auto. f_equal. apply IH. congruence. }
    apply G. rewrite !rev_length. congruence. }
  rewrite E in H. apply in_rev in H. clear E R. revert H. generalize (rev rest). intros xs. revert n L. clear. intros n _. revert n.
  induction xs as [|x xs IH]; intros [|b n] H; cbn in *; try contradiction. destruct H as [H|H]; [now left | right; now apply IH].
Qed.

Lemma point_below : forall n f g it, (forall acts, net_collect_acts Fl p n (fst it) = Ret (Ok acts) -> Forall (fun al => roomy U Fl (snd al) (fst al)) (combine acts n)) ->
  below (point_step Fl p n f g it) (point_step_rel U Fl p n f g it).
Proof.
  intros n f g it R. unfold point_step, point_step_rel. apply below_bind; [apply collect_below|]. intros r0 E. apply below_bind; [apply below_refl|]. intros acts EA.
  apply unwrap_inv in EA as ->. destruct (rev acts) as [|pr rest] eqn:RV; [apply below_refl|]. apply below_bind; [apply below_refl|]. intros dl _.
  apply below_bind; [|intros; apply below_refl]. apply below_foldM. intros s al I. apply back_below.
  specialize (R acts E). rewrite Forall_forall in R. apply R. eapply in_combine_rev; eauto. eapply collect_length; eauto.
Qed.

Lemma training_below : forall n d f lr, roomy_run U Fl p n d -> below (net_gradient_opt Fl p n d f lr) (net_gradient_opt_rel U Fl p n d f lr).
Proof.
  intros n d f lr R. unfold net_gradient_opt, net_gradient_opt_rel. destruct (length n <=? 1); [apply below_refl|].
  apply below_bind; [|intros; apply below_refl]. unfold net_gradient, net_gradient_rel. unfold ds_points_iter. apply below_foldM. intros s it I.
  apply point_below. intros acts E. destruct it as (x, t). exact (R x acts (in_combine_l _ _ _ _ I) E).
Qed.

(** ** Networks whose layers fit *)
Lemma fits_roomy : forall l g g' x, fits Fl l g g' -> trainable Fl l -> small U g -> has_geom g x -> roomy U Fl l x /\ small U g'.
Proof.
  intros l g g' x H T S X. destruct H as [l W NM | l a b r c W NM A B | l n r c N A B MA MB HF | l n r c];
    destruct x as [x|x]; cbn [has_geom] in X; try contradiction; cbn [roomy small] in *; auto.
  - destruct W as (_ & _ & _ & A1 & B1 & _ & _ & KW). split; [|lia]. intros m k Im Ik. destruct (KW k Ik) as (_ & -> & ->).
    destruct X as (_ & X). destruct (X m Im) as (_ & -> & ->). lia.
  - split.
    + intros m Im. destruct X as (_ & X). destruct (X m Im) as (_ & -> & ->). destruct T as (_ & _ & -> & _). lia.
    + assert (r / r_b0 l <= r) by (apply Nat.div_le_upper_bound; nia). assert (c / r_b1 l <= c) by (apply Nat.div_le_upper_bound; nia). lia.
Qed.

Lemma trace_roomy : forall n x vs, trace Fl p n x vs -> forall g g', fit_all Fl n g g' -> Forall (trainable Fl) n -> small U g -> has_geom g x ->
  Forall (fun al => roomy U Fl (snd al) (fst al)) (combine vs n).
Proof.
  intros n x vs T. induction T as [x | l n x y vs E T IH]; intros g g' H TR S X; [constructor|].
  inversion H as [|? ? ? g1 ? Hl Hn]; subst. inversion TR as [|? ? Tl TRn]; subst. cbn [combine].
  destruct (layer_total Fl p l g g1 x Hl X) as (y' & E' & Y). destruct (fits_roomy l g g1 x Hl Tl S X) as (R & S1).
  constructor; [exact R|]. rewrite E' in E. injection E as <-. eapply IH; eauto.
Qed.

Lemma fit_roomy : forall n g g' d, fit_all Fl n g g' -> Forall (trainable Fl) n -> batch_for Fl g g' d -> small U g -> roomy_run U Fl p n d.
Proof.
  intros n g g' d H TR (_ & HX & _) S x acts I E. destruct (sweep Fl p n g g' H x (HX x I)) as (vs & y & T & _).
  destruct n as [|l n]; [discriminate|]. rewrite (collect_trace Fl p (l :: n) x vs) in E; [|discriminate | exact T]. injection E as <-.
  eapply trace_roomy; eauto.
Qed.

Lemma train_below : forall g g' f lr ds n, 2 <= length n -> fit_all Fl n g g' -> Forall (trainable Fl) n -> small U g ->
  (forall d, In d ds -> batch_for Fl g g' d /\ exists s, c_div Fl lr (c_of_nat Fl (length (ds_inputs d))) = Ret s) ->
  train_on_rel U Fl p n ds f lr = train_on Fl p n ds f lr.
Proof.
  intros g g' f lr ds. induction ds as [|d ds IH]; intros n L H TR S HD; [reflexivity|].
  destruct (HD d (or_introl eq_refl)) as (B & s & HS). destruct (training_total Fl p n g g' d f lr s L H TR B HS) as (n1 & E & H1 & TR1 & L1).
  cbn [train_on train_on_rel]. rewrite E, (training_below n d f lr (fit_roomy n g g' d H TR B S) _ E). cbn [obind fst snd].
  apply IH; auto; [lia|]. intros d' I. apply HD. now right.
Qed.
End ReleaseNetFacts.
