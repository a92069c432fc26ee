(** * Facts about inputs that are always zero *)
From Verif Require Import Base BaseFacts Float Matrix Cplx Random Act Input Loss Dense Conv Layer Dataset Network SpecMatrix MatrixFacts
  SpecLayer SpecConv SpecNet DenseFacts ConvFacts LayerFacts NetFacts TrainFacts TrainDense PropDense GradFacts GradFacts2 ConvCalc NanFacts SpecGeom GeomFacts
  SpecDead DeadFacts TwinFacts PropNet PropTrain SpecZero.
Local Open Scope nat_scope.

Section Zero.
Context (Fl : FloatOps) (p : prec).
Local Notation C := (cplx (F Fl)).
Local Notation z := (c_default Fl).
Context (nilr : F Fl -> Prop) (kept : F Fl -> F Fl -> Prop).
Context (N0 : nilr (fzero Fl)).
Context (Nadd : forall x y, nilr x -> nilr y -> nilr (fadd Fl x y)).
Context (Nsub : forall x y, nilr x -> nilr y -> nilr (fsub Fl x y)).
Context (Nneg : forall x, nilr x -> nilr (fneg Fl x)).
Context (Nmul : forall x y, nilr x \/ nilr y -> nilr (fmul Fl x y)).
Context (Ksub : forall a x, nilr x -> kept a (fsub Fl a x)).
Local Notation nilc := (nilc Fl nilr).
Local Notation keptc := (keptc Fl kept).

Lemma map_kept : forall (g h : nat -> C) js, (forall j, In j js -> keptc (g j) (h j)) -> Forall2 keptc (map g js) (map h js).
Proof. intros g h js. induction js as [|j js IH]; intros H; cbn [map]; constructor; [apply H; now left | apply IH; intros; apply H; now right]. Qed.

(** ** Dense layers *)
Lemma dense_zero : forall (l : dense Fl) j v y g gc dw db h hc, dense_wf Fl l -> j < inputs Fl l -> nilc (nth j v z) ->
  dense_forward Fl p l (IOScalar v) = Ret (Ok y) -> dense_derivatives Fl p l (IOScalar v) g gc = Ret (Ok (dw, db, h, hc)) ->
  forall i, i < units Fl l -> nilc (nth (i * inputs Fl l + j) dw z).
Proof.
  intros l j v y g gc dw db h hc W Hj O FW D i Hi.
  assert (X : length v = inputs Fl l).
  { destruct (Nat.eq_dec (length v) (inputs Fl l)) as [|NE]; [assumption|]. rewrite (proj2 (C40_rejects Fl p l) v NE) in FW. discriminate. }
  assert (LG : length g = units Fl l /\ length gc = units Fl l).
  { destruct (Nat.eq_dec (length g) (units Fl l)) as [|NE]; [|rewrite C41_rejects in D by auto; discriminate].
    destruct (Nat.eq_dec (length gc) (units Fl l)) as [|NE]; [auto | rewrite C41_rejects in D by auto; discriminate]. }
  destruct LG as (LG & LGC). destruct (derivs_exist Fl p l v g gc _ W X LG LGC D) as (d & dc & HD).
  destruct (C41_derivatives Fl p l v g gc d dc W X LG LGC HD) as (dw' & db' & dx & E & _ & _ & _ & _ & DW & _).
  rewrite E in D. injection D as -> _ _ _. rewrite DW by auto. apply (nilc_mul Fl nilr Nadd Nsub Nmul). now left.
Qed.

Theorem feature_step : forall n data f lr n' r k (l : dense Fl) j, nth_error n k = Some (LDense l) -> dense_wf Fl l -> j < inputs Fl l ->
  (forall x v, In x (ds_inputs data) -> arrives Fl p n k x (IOScalar v) -> nilc (nth j v z)) ->
  net_gradient_opt Fl p n data f lr = Ret (n', Ok r) ->
  exists l', nth_error n' k = Some (LDense l') /\ arch_of Fl (LDense l') = arch_of Fl (LDense l) /\
    Forall2 keptc (feature_weights Fl l j) (feature_weights Fl l' j).
Proof.
  intros n data f lr n' r k l j K W Hj O E.
  destruct (step_quiet Fl p nilr N0 Nadd n data f lr n' r k (LDense l) (fun q => exists i, i < units Fl l /\ q = i * inputs Fl l + j) (fun _ => False) K eq_refl)
    as (s & dw & db & l' & K' & U & Q1 & _); [|exact E|].
  - intros x t ws bs HI P. destruct (pgrad_nth Fl p _ _ _ _ _ _ k _ P K eq_refl) as (v & y & g & gc & dw & db & h & hc & A & FW & D & E1 & E2).
    destruct v as [v|ms]; [|cbn in FW; discriminate]. cbn [layer_forward layer_derivatives] in FW, D.
    assert (HX : In x (ds_inputs data)) by (eapply in_combine_l; exact HI).
    pose proof (dense_zero l j v y g gc dw db h hc W Hj (O x v HX A) FW D) as N1. rewrite <- E1 in N1.
    split; [intros q (i & Hi & ->); auto | intros q []].
  - assert (AR : arch_of Fl l' = arch_of Fl (LDense l)) by (eapply update_arch; exact U).
    destruct l' as [l'|l'|l'|l']; try discriminate. exists l'. split; [exact K'|]. split; [exact AR|].
    destruct (update_dense_inv Fl s dw db l l' U) as (L1 & L2 & V1 & V2).
    destruct (arch_dense Fl l' l AR W) as (W' & EU & EI & _). destruct W as (W1 & W2 & W3).
    unfold feature_weights. rewrite EU. apply map_kept. intros i Hi. apply in_seq in Hi. unfold weight, entry.
    assert (ES : sh1 (d_weights l') = inputs Fl l) by exact EI. rewrite ES. change (sh1 (d_weights l)) with (inputs Fl l).
    assert (B0 : i * inputs Fl l + j < length (body (d_weights l))) by (rewrite W1; unfold units, inputs in *; nia).
    rewrite V1, (zip_nth _ _ _ _ _ (c_mul_assign Fl z s)) by (rewrite ?map_length; lia). apply (kept_sub_conj Fl nilr kept Nneg Ksub).
    rewrite (map_nth (fun e => c_mul_assign Fl e s)). apply (nilc_mul_assign Fl nilr Nadd Nsub Nmul), Q1. exists i. split; [lia | reflexivity].
Qed.

(** ** Convolutional layers *)
Lemma nil_corr : forall a b g h i j, (forall u v, u < a -> v < b -> nilc (g (i + u) (j + v))) -> nilc (corr (cops Fl) a b g h i j).
Proof.
  intros a b g h i j H. unfold corr. apply (nilc_sum Fl nilr Nadd _ a z (nilc_z Fl nilr N0)). intros u Hu.
  apply (nilc_sum Fl nilr Nadd _ b z (nilc_z Fl nilr N0)). intros v Hv. apply (nilc_mul Fl nilr Nadd Nsub Nmul). left. auto.
Qed.

Lemma conv_zero : forall a b r c (l : conv Fl) x (g gc : list C) dw db h hc ch, geom Fl a b r c l x -> k_func l <> ModZ -> ch < channels Fl l ->
  length g = filters Fl l * ((r - a + 1) * (c - b + 1)) -> length gc = filters Fl l * ((r - a + 1) * (c - b + 1)) ->
  (forall i j, i < r -> j < c -> nilc (px z x ch i j)) ->
  conv_derivatives Fl p l (IOMatrix x) g gc = Ret (Ok (dw, db, h, hc)) ->
  forall o u v, o < filters Fl l -> u < a -> v < b -> nilc (nth ((o * channels Fl l + ch) * (a * b) + (u * b + v)) dw z).
Proof.
  intros a b r c l x g gc dw db h hc ch G NM Hc Lg Lgc O D o u v Ho Hu Hv.
  pose (d := fun o i j => match d_activate Fl p (k_func l) (cpre Fl a b l x o i j) with Ret c => c | Panic => z end).
  pose (dc := fun o i j => match d_conj_activate Fl p (k_func l) (cpre Fl a b l x o i j) with Ret c => c | Panic => z end).
  rewrite (conv_derivatives_ok Fl p a b r c l x g gc d dc G Lg Lgc) in D.
  2: { intros o' i j _ _ _. unfold d, dc. destruct (k_func l); try now destruct NM. all: cbn [d_activate d_conj_activate]; split; reflexivity. }
  injection D as <- _ _ _. pose proof G as (W & _ & RA & CB).
  replace ((o * channels Fl l + ch) * (a * b) + (u * b + v)) with (o * (channels Fl l * (a * b)) + ((ch * a + u) * b + v)) by nia.
  rewrite nth_concat_const.
  - rewrite nth_map_seq by exact Ho.
    match goal with |- nilc (nth _ (tab3 ?n ?r0 ?c0 ?f) z) => change (nilc (at3 z r0 c0 (tab3 n r0 c0 f) ch u v)) end.
    rewrite at3_tab3 by auto. apply (nilc_add Fl nilr Nadd); apply nil_corr; intros i j Hi Hj; apply O; lia.
  - apply Forall_forall. intros q Hq. apply in_map_iff in Hq as (o' & <- & _). apply tab3_length.
  - assert (X1 : ch * a + u < channels Fl l * a) by nia. revert X1. rewrite Nat.mul_assoc. generalize (ch * a + u) (channels Fl l * a). intros; nia.
Qed.

Theorem channel_step : forall n g g' data f lr n' r k a b (l : conv Fl) ch, fit_all Fl n g g' -> Forall (trainable Fl) n -> batch_for Fl g g' data ->
  nth_error n k = Some (LConv l) -> conv_wf Fl a b l -> ch < channels Fl l ->
  (forall x ms i j, In x (ds_inputs data) -> arrives Fl p n k x (IOMatrix ms) ->
     i < sh0 (nth ch ms m_new) -> j < sh1 (nth ch ms m_new) -> nilc (px z ms ch i j)) ->
  net_gradient_opt Fl p n data f lr = Ret (n', Ok r) ->
  exists l', nth_error n' k = Some (LConv l') /\ arch_of Fl (LConv l') = arch_of Fl (LConv l) /\
    Forall2 keptc (channel_kernels Fl a b l ch) (channel_kernels Fl a b l' ch).
Proof.
  intros n g g' data f lr n' r k a b l ch FA TR BF K W Hc O E.
  destruct (step_quiet Fl p nilr N0 Nadd n data f lr n' r k (LConv l)
     (fun q => exists o u v, o < filters Fl l /\ u < a /\ v < b /\ q = (o * channels Fl l + ch) * (a * b) + (u * b + v)) (fun _ => False) K eq_refl)
    as (s & dw & db & l' & K' & U & Q1 & _); [|exact E|].
  - intros x t ws bs HI P. destruct BF as (_ & BI & BT).
    assert (HX : In x (ds_inputs data)) by (eapply in_combine_l; exact HI). assert (HT : In t (ds_target data)) by (eapply in_combine_r; exact HI).
    destruct (pgrad_geom Fl p n g g' f x t ws bs k _ FA TR (BI x HX) (BT t HT) P K eq_refl) as (v & g0 & g1 & h & hc & dw & db & e & ec & A & FT & GV & L1 & L2 & D & E1 & E2).
    inversion FT as [|? a' b' r0 c0 W' NM Ra Rb| |]; subst.
    assert (AB : a' = a /\ b' = b).
    { destruct (kernel_nth Fl a b l 0 0 W) as (_ & S0 & S1); [apply W .. |]. destruct (kernel_nth Fl a' b' l 0 0 W') as (_ & S2 & S3); [apply W .. |]. split; congruence. }
    destruct AB as (-> & ->). destruct v as [v|ms]; [contradiction|]. cbn [has_geom gsize] in GV, L1, L2. cbn [layer_derivatives] in D.
    destruct (maps_nth Fl _ r0 c0 ms ch GV Hc) as (_ & S0 & S1).
    pose proof (conv_zero a b r0 c0 l ms h hc (nth k ws []) (nth k bs []) e ec ch (Logic.conj W (Logic.conj GV (Logic.conj Ra Rb))) NM Hc L1 L2) as N1.
    split; [|intros q []]. intros q (o & u & v & H1 & H2 & H3 & ->). apply N1; auto.
    intros i j Hi Hj. apply (O x ms i j HX A); rewrite ?S0, ?S1; assumption.
  - assert (AR : arch_of Fl l' = arch_of Fl (LConv l)) by (eapply update_arch; exact U).
    destruct l' as [l'|l'|l'|l']; try discriminate. exists l'. split; [exact K'|]. split; [exact AR|].
    destruct (arch_conv Fl a b l' l AR W) as (W' & EF & EC & _).
    pose proof (conv_update_inv Fl l l' a b s dw db W U) as (L1 & L2 & V1 & V2). unfold channel_kernels. rewrite EF.
    rewrite !tab3_rows. apply Forall2_concat_tab. intros q v Hq Hv. assert (A0 : a <> 0) by (intros ->; lia).
    assert (Ho : q / a < filters Fl l) by (apply Nat.div_lt_upper_bound; lia). assert (Hu : q mod a < a) by now apply Nat.mod_upper_bound.
    destruct (kval_values Fl a b l (q / a) ch (q mod a) v W Ho Hc Hu Hv) as (B1 & <-).
    destruct (kval_values Fl a b l' (q / a) ch (q mod a) v W' ltac:(lia) ltac:(lia) Hu Hv) as (B2 & <-). rewrite EC.
    rewrite V1, (zip_nth _ _ _ _ _ (c_mul_assign Fl z s)) by (rewrite ?map_length; lia). apply (kept_sub_conj Fl nilr kept Nneg Ksub).
    rewrite (map_nth (fun e => c_mul_assign Fl e s)). apply (nilc_mul_assign Fl nilr Nadd Nsub Nmul), Q1. exists (q / a), (q mod a), v. auto.
Qed.

(** ** Any number of steps *)
Context (Krefl : forall a, kept a a) (Ktrans : forall a b c, kept a b -> kept b c -> kept a c).

Lemma kept_refl_all : forall l, Forall2 keptc l l.
Proof. induction l as [|a l IH]; constructor; [split; apply Krefl | exact IH]. Qed.
Lemma kept_trans_all : forall l l' l'', Forall2 keptc l l' -> Forall2 keptc l' l'' -> Forall2 keptc l l''.
Proof.
  intros l l' l'' H. revert l''. induction H as [|a b l l' (H1 & H2) _ IH]; intros l2 X; inversion X as [|? ? ? ? (X1 & X2)]; subst; constructor; [|auto].
  split; eapply Ktrans; eassumption.
Qed.

Lemma step_same_arch : forall n data f lr n', net_gradient_opt Fl p n data f lr = Ret (n', Ok tt) -> map (arch_of Fl) n' = map (arch_of Fl) n.
Proof. intros n data f lr n' E. apply (C52_history Fl p n n'). eapply trained_step; [apply trained_none | exact E]. Qed.

Lemma unweighted_same : forall k n n', Forall (unweighted Fl) (firstn k n) -> map (arch_of Fl) n' = map (arch_of Fl) n -> firstn k n' = firstn k n.
Proof.
  induction k as [|k IH]; intros [|l n] [|l' n'] H E; try discriminate; [reflexivity .. |]. cbn [firstn map] in *.
  inversion H as [|? ? H1 H2]; subst. assert (arch_of Fl l' = arch_of Fl l) as E1 by congruence.
  rewrite (IH n n') by (auto; congruence). f_equal. destruct l; try contradiction; destruct l'; cbn in E1; congruence.
Qed.

Lemma arrives_same : forall k n n' x v, firstn k n' = firstn k n -> arrives Fl p n' k x v -> arrives Fl p n k x v.
Proof. intros k n n' x v E (vs & T & LS). exists vs. rewrite <- E. auto. Qed.

Theorem feature_forever : forall steps n n' k (l : dense Fl) j, nth_error n k = Some (LDense l) -> dense_wf Fl l -> j < inputs Fl l ->
  Forall (unweighted Fl) (firstn k n) ->
  (forall d f lr x v, In (d, f, lr) steps -> In x (ds_inputs d) -> arrives Fl p n k x (IOScalar v) -> nilc (nth j v z)) ->
  train_steps Fl p n steps = Ret n' ->
  exists l', nth_error n' k = Some (LDense l') /\ arch_of Fl (LDense l') = arch_of Fl (LDense l) /\
    Forall2 keptc (feature_weights Fl l j) (feature_weights Fl l' j).
Proof.
  induction steps as [|[[d f] lr] steps IH]; intros n n' k l j K W Hj UW H E; cbn [train_steps] in E.
  - injection E as <-. exists l. split; [exact K|]. split; [reflexivity | apply kept_refl_all].
  - apply obind_inv in E as ((n1 & r) & E1 & E). cbn [fst snd] in E. destruct r as [[]|]; [|discriminate].
    destruct (feature_step n d f lr n1 tt k l j K W Hj) as (l1 & K1 & A1 & B1); [|exact E1|].
    { intros x v Hx A. apply (H d f lr x v); auto. now left. }
    destruct (arch_dense Fl l1 l A1 W) as (W1 & EU & EI & EF).
    pose proof (unweighted_same k n n1 UW (step_same_arch _ _ _ _ _ E1)) as EP.
    destruct (IH n1 n' k l1 j K1 W1 ltac:(lia)) as (l' & K' & A' & B').
    + rewrite EP. exact UW.
    + intros d' f' lr' x v Hs Hx A. apply (H d' f' lr' x v); auto; [now right|]. now apply (arrives_same k n n1).
    + exact E.
    + exists l'. split; [exact K'|]. split; [congruence|]. eapply kept_trans_all; eauto.
Qed.

Theorem channel_forever : forall steps n n' g g' k a b (l : conv Fl) ch, fit_all Fl n g g' -> Forall (trainable Fl) n ->
  (forall d f lr, In (d, f, lr) steps -> batch_for Fl g g' d) ->
  nth_error n k = Some (LConv l) -> conv_wf Fl a b l -> ch < channels Fl l -> Forall (unweighted Fl) (firstn k n) ->
  (forall d f lr x ms i j, In (d, f, lr) steps -> In x (ds_inputs d) -> arrives Fl p n k x (IOMatrix ms) ->
     i < sh0 (nth ch ms m_new) -> j < sh1 (nth ch ms m_new) -> nilc (px z ms ch i j)) ->
  train_steps Fl p n steps = Ret n' ->
  exists l', nth_error n' k = Some (LConv l') /\ arch_of Fl (LConv l') = arch_of Fl (LConv l) /\
    Forall2 keptc (channel_kernels Fl a b l ch) (channel_kernels Fl a b l' ch).
Proof.
  induction steps as [|[[d f] lr] steps IH]; intros n n' g g' k a b l ch FA TR BF K W Hc UW H E; cbn [train_steps] in E.
  - injection E as <-. exists l. split; [exact K|]. split; [reflexivity | apply kept_refl_all].
  - apply obind_inv in E as ((n1 & r) & E1 & E). cbn [fst snd] in E. destruct r as [[]|]; [|discriminate].
    destruct (channel_step n g g' d f lr n1 tt k a b l ch FA TR) as (l1 & K1 & A1 & B1); [eapply BF; now left | exact K | exact W | exact Hc | | exact E1 |].
    { intros x ms i j Hx A. apply (H d f lr x ms i j); auto. now left. }
    destruct (arch_conv Fl a b l1 l A1 W) as (W1 & EF & EC & _).
    pose proof (step_same_arch _ _ _ _ _ E1) as AA. pose proof (unweighted_same k n n1 UW AA) as EP.
    destruct (IH n1 n' g g' k a b l1 ch) as (l' & K' & A' & B'); auto.
    + eapply fit_all_arch; eauto.
    + eapply trainable_all_arch; eauto.
    + intros. eapply BF. right. eassumption.
    + lia.
    + rewrite EP. exact UW.
    + intros d' f' lr' x ms i j Hs Hx A. apply (H d' f' lr' x ms i j); auto; [now right|]. now apply (arrives_same k n n1).
    + exists l'. split; [exact K'|]. split; [congruence|]. eapply kept_trans_all; eauto.
Qed.
End Zero.
