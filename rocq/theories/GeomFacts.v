(** * Networks with matching geometry never fail *)
From Verif Require Import Base BaseFacts Float Matrix Cplx Random Act Input Loss Dense Conv Layer Dataset Network SpecMatrix MatrixFacts MatrixFacts2
  SpecLayer SpecConv SpecNet SpecGeom DenseFacts LayerFacts ConvFacts PoolFacts NetFacts TrainFacts TrainDense PropAct PropMatrix PropDense PropConv PropPool.

Section Geom.
Context (Fl : FloatOps) (p : prec).
Local Notation C := (cplx (F Fl)).
Local Notation O := (cops Fl).
Local Notation z := (c_default Fl).

Lemma no_modz : forall f (w : C), f <> ModZ -> exists y, activate Fl p f w = Ret y.
Proof. intros f w H. destruct f; try congruence; eexists; reflexivity. Qed.

(** ** Forward *)
Lemma pick3 : forall {A} (P : nat -> nat -> nat -> A -> Prop) (d : A),
  (forall o i j, exists a, P o i j a) -> forall n r c,
  exists f : nat -> nat -> nat -> A, forall o i j, o < n -> i < r -> j < c -> P o i j (f o i j).
Proof.
  intros A P d H n r c.
  destruct (pick (fun o f => forall i j, i < r -> j < c -> P o i j (f i j)) n (fun _ _ => d)) as (f & Hf).
  - intros o _. destruct (pick (fun i f => forall j, j < c -> P o i j (f j)) r (fun _ => d)) as (f & Hf).
    + intros i _. apply (pick (fun j a => P o i j a) c d). auto.
    + exists f. auto.
  - exists f. auto.
Qed.

Lemma maps_tab : forall n r c (f : nat -> nat -> nat -> C), maps_wf n r c (map (fun o => mat r c (f o)) (seq 0 n)).
Proof.
  intros n r c f. split; [now rewrite map_length, seq_length|]. intros m H. apply in_map_iff in H as (o & <- & _).
  split; [apply wf_mat | split; reflexivity].
Qed.

Lemma map_values_length : forall n r c (ms : list (matrix C)), maps_wf n r c ms -> length (map_values ms) = n * (r * c).
Proof.
  intros n r c ms (L & M). unfold map_values. rewrite (concat_length_const (r * c)); [now rewrite map_length, L|].
  apply Forall_forall. intros q Hq. apply in_map_iff in Hq as (m & <- & Hm). destruct (M m Hm) as (W & E0 & E1). rewrite <- E0, <- E1. exact W.
Qed.

Lemma red_total : forall (l : red Fl) n r c x, 1 <= r_b0 l <= r -> 1 <= r_b1 l <= c -> r mod r_b0 l = 0 -> c mod r_b1 l = 0 ->
  (forall b, length b = r_b0 l * r_b1 l -> exists v, r_func l b = Ret v) -> maps_wf n r c x ->
  exists y, red_forward Fl l (IOMatrix x) = Ret (Ok (IOMatrix y)) /\ maps_wf n (r / r_b0 l) (c / r_b1 l) y.
Proof.
  intros l n r c x (A1 & A2) (B1 & B2) MA MB HF (L & M).
  set (g := fun b => match r_func l b with Ret v => v | Panic => z end).
  exists (map (fun m => mat (r / r_b0 l) (c / r_b1 l) (fun i j => g (block (r_b0 l) (r_b1 l) (entry z m) i j))) x). split.
  - unfold red_forward.
    rewrite (mapM_ret _ (fun m => mat (r / r_b0 l) (c / r_b1 l) (fun i j => g (block (r_b0 l) (r_b1 l) (entry z m) i j)))); [reflexivity|].
    intros m Hm. destruct (M m Hm) as (W & E0 & E1).
    rewrite (C25_blocks z) by (rewrite ?E0, ?E1; auto). rewrite E0, E1.
    rewrite (mapM_ret _ (tab_row (fun i j => g (block (r_b0 l) (r_b1 l) (entry z m) i j)) (c / r_b1 l))); [reflexivity|].
    intros i _. rewrite (mapM_ret _ (fun j => g (block (r_b0 l) (r_b1 l) (entry z m) i j))); [reflexivity|].
    intros j _. unfold g. destruct (HF (block (r_b0 l) (r_b1 l) (entry z m) i j)) as (v & E); [|now rewrite E].
    unfold block. apply concat_tab_length.
  - split; [now rewrite map_length|]. intros m Hm. apply in_map_iff in Hm as (m0 & <- & _).
    split; [apply wf_mat | split; reflexivity].
Qed.

Lemma last_irrel : forall {A} (l : list A) a d d', last (a :: l) d = last (a :: l) d'.
Proof. intros A l. induction l as [|b l IH]; intros a d d'; [reflexivity|]. exact (IH b d d'). Qed.

Lemma trace_head : forall n x vs, trace Fl p n x vs -> exists us, vs = x :: us.
Proof. intros n x vs T. destruct T; eauto. Qed.

Lemma last_step : forall n x y vs, trace Fl p n y vs -> last (x :: vs) x = last vs y.
Proof. intros n x y vs T. destruct (trace_head _ _ _ T) as (us & ->). change (last (x :: y :: us) x) with (last (y :: us) x). apply last_irrel. Qed.

(** One layer forwards. *)
Lemma layer_total : forall l g g' x, fits Fl l g g' -> has_geom g x ->
  exists y, layer_forward Fl p l x = Ret (Ok y) /\ has_geom g' y.
Proof.
  intros l g g' x H X. destruct H as [l W NM | l a b r c W NM A B | l n r c N A B MA MB HF | l n r c];
    destruct x as [x|x]; cbn [has_geom] in X; try contradiction; cbn [layer_forward].
  - destruct (C40_total Fl p l x W) as [(ys & E) | (E & i & Hi & Ei)]; [auto | |].
    + exists (IOScalar ys). split; [exact E|]. cbn [has_geom]. apply (C40_forward Fl p l x W X ys). exact E.
    + exfalso. apply NM. eapply C29_only_modz. left. exact Ei.
  - destruct (pick3 (fun o i j y => activate Fl p (k_func l) (cpre Fl a b l x o i j) = Ret y) z
       (fun o i j => no_modz (k_func l) _ NM) (filters Fl l) (r - a + 1) (c - b + 1)) as (y & Hy).
    eexists. split; [apply (C44_forward Fl p a b r c l x y); auto|]. apply maps_tab.
  - destruct (red_total l n r c x A B MA MB HF X) as (y & E & M). exists (IOMatrix y). auto.
  - destruct (C48_forward Fl l n r c x X) as (v & E & L & _). exists (IOScalar v). auto.
Qed.

(** ** Backward *)
Lemma layer_back : forall l g g' x (h hc : list C), fits Fl l g g' -> trainable Fl l -> has_geom g x -> layer_propagates Fl l = true ->
  length h = gsize g' -> length hc = gsize g' ->
  exists dw db k kc, layer_derivatives Fl p l x h hc = Ret (Ok (dw, db, k, kc)) /\
    length dw = fst (layer_params_len Fl l) /\ length db = snd (layer_params_len Fl l) /\ length k = gsize g /\ length kc = gsize g.
Proof.
  intros l g g' x h hc H T X PR. destruct H as [l W NM | l a b r c W NM A B | l n r c N A B MA MB HF | l n r c];
    destruct x as [x|x]; cbn [has_geom] in X; try contradiction; cbn [layer_derivatives layer_params_len gsize]; intros Lh Lhc; [| | |discriminate].
  - destruct (pick (fun i d => d_activate Fl p (d_func l) (pre Fl l x i) = Ret d) (units Fl l) z) as (d & Hd).
    { intros i _. apply no_modz_derivs; exact NM. }
    destruct (pick (fun i d => d_conj_activate Fl p (d_func l) (pre Fl l x i) = Ret d) (units Fl l) z) as (dc & Hdc).
    { intros i _. apply no_modz_derivs; exact NM. }
    destruct (C41_derivatives Fl p l x h hc d dc W X Lh Lhc) as (dw & db & dx & ED & L1 & L2 & L3 & _).
    { intros i Hi. split; auto. }
    rewrite ED. do 4 eexists. split; [reflexivity|]. cbn. rewrite map_length. destruct W as (_ & WB & _). unfold units in *. repeat split; auto; congruence.
  - destruct (pick3 (fun o i j y => d_activate Fl p (k_func l) (cpre Fl a b l x o i j) = Ret y) z
       (fun o i j => proj1 (no_modz_derivs Fl p (k_func l) _ NM)) (filters Fl l) (r - a + 1) (c - b + 1)) as (d & Hd).
    destruct (pick3 (fun o i j y => d_conj_activate Fl p (k_func l) (cpre Fl a b l x o i j) = Ret y) z
       (fun o i j => proj2 (no_modz_derivs Fl p (k_func l) _ NM)) (filters Fl l) (r - a + 1) (c - b + 1)) as (dc & Hdc).
    rewrite (conv_derivatives_ok Fl p a b r c l x h hc d dc (conj W (conj X (conj A B))) Lh Lhc) by auto.
    do 4 eexists. split; [reflexivity|]. rewrite !tab3_length. pose proof W as (WK & _ & _ & _ & _ & WB & _ & KW).
    unfold conv_params_len. cbn [fst snd]. rewrite kernel_count by (apply Forall_forall; intros k Hk; apply KW; auto).
    split; [|repeat split; auto].
    + rewrite (concat_length_const (channels Fl l * (a * b))).
      * rewrite map_length, seq_length. rewrite (concat_length_const (a * b)).
        -- rewrite map_length, WK. unfold filters, channels. lia.
        -- apply Forall_forall. intros q Hq. apply in_map_iff in Hq as (k & <- & Hk). destruct (KW k Hk) as (Wk & E0 & E1). rewrite Wk, E0, E1. reflexivity.
      * apply Forall_forall. intros q Hq. apply in_map_iff in Hq as (o & <- & _). apply tab3_length.
    + rewrite map_length, seq_length. auto.
  - destruct T as (SQ & KW & K0 & K1). pose proof X as (XL & _).
    rewrite <- SQ in B, MB, Lh, Lhc.
    destruct (C47_backward Fl l (r_b0 l) n r c x h hc) as (dx & dxc & E & L1 & L2 & _); auto; try lia.
    rewrite E. do 4 eexists. split; [reflexivity|]. rewrite L1, L2, (map_values_length _ _ _ _ X). cbn. auto.
Qed.

Definition wsz (n : network Fl) : list nat := map (fun l => fst (layer_params_len Fl l)) n.
Definition bsz (n : network Fl) : list nat := map (fun l => snd (layer_params_len Fl l)) n.

Lemma sweep : forall n g g', fit_all Fl n g g' -> forall x, has_geom g x ->
  exists vs y, trace Fl p n x vs /\ last vs x = y /\ has_geom g' y /\
    (Forall (trainable Fl) n -> forall h hc : list C, length h = gsize g' -> length hc = gsize g' ->
      exists ws bs k kc, bp Fl p (combine vs n) h hc = Ret (ws, bs, k, kc) /\
        map (@length C) ws = wsz n /\ map (@length C) bs = bsz n /\ length k = gsize g /\ length kc = gsize g).
Proof.
  intros n g g' H. induction H as [g | l n g g1 g2 Hl H IH]; intros x X.
  - exists [x], x. split; [constructor|]. split; [reflexivity|]. split; [exact X|].
    intros _ h hc Lh Lhc. exists [], [], h, hc. repeat split; auto.
  - destruct (layer_total l g g1 x Hl X) as (y & E & Y). destruct (IH y Y) as (vs & w & T & LS & GW & S).
    exists (x :: vs), w. split; [econstructor; eauto|]. split; [|split; [exact GW|]].
    { rewrite <- LS. eapply last_step; eauto. }
    intros TR h hc Lh Lhc. inversion TR; subst. destruct (S ltac:(assumption) h hc Lh Lhc) as (ws & bs & k & kc & B & LW & LB & Lk & Lkc).
    cbn [combine bp]. rewrite B. cbn [obind]. destruct (layer_propagates Fl l) eqn:PR.
    + destruct (layer_back l g g1 x k kc Hl) as (dw & db & k' & kc' & ED & L1 & L2 & L3 & L4); auto.
      rewrite ED. cbn [obind unwrap]. do 4 eexists. split; [reflexivity|]. cbn [map]. unfold wsz, bsz in *. cbn [map]. rewrite LW, LB, L1, L2. auto.
    + assert (exists l0, l = LFlatten l0) as (l0 & ->) by (destruct l; try discriminate; eauto).
      inversion Hl; subst. do 4 eexists. split; [reflexivity|]. unfold wsz, bsz in *. cbn [map]. rewrite LW, LB. cbn. auto.
Qed.

(** ** Loss *)
Lemma d_loss_geom : forall f g t y, has_geom g y -> target_for g t ->
  exists h, d_loss Fl t y f = Ok h /\ length h = gsize g.
Proof.
  intros f g t y Y T. assert (K : forall a b : list C, length b <= length a -> length (release_dloss Fl f a b) = length b).
  { intros a b L. destruct f; cbn [release_dloss]; unfold d_norm_ce_loss, d_mean_sq_loss; rewrite map_length, combine_length; lia. }
  destruct g as [n | n r c]; destruct y as [y|y]; try contradiction; destruct t as [t|t]; try contradiction; cbn [has_geom target_for gsize d_loss] in *.
  - eexists. split; [reflexivity|]. rewrite K; lia.
  - eexists. split; [reflexivity|]. pose proof (map_values_length _ _ _ _ Y) as L. unfold map_values in L, T. rewrite <- flat_map_concat_map in L, T.
    rewrite K by lia. exact L.
Qed.

Lemma loss_geom : forall f g t y, has_geom g y -> target_for g t -> exists v, loss Fl t y f = Ok v.
Proof.
  intros f g t y Y T.
  destruct g as [n | n r c]; destruct y as [y|y]; try contradiction; destruct t as [t|t]; try contradiction; cbn [loss]; eauto.
Qed.

Lemma geom_pgrad : forall n g g' x t f, n <> [] -> fit_all Fl n g g' -> Forall (trainable Fl) n -> has_geom g x -> target_for g' t ->
  exists ws bs, pgrad Fl p n f (x, t) = Ret (ws, bs) /\ map (@length C) ws = wsz n /\ map (@length C) bs = bsz n.
Proof.
  intros n g g' x t f NE H TR X T. destruct (sweep n g g' H x X) as (vs & y & TRC & LS & Y & S).
  unfold pgrad. cbn [fst snd]. rewrite (collect_trace _ _ _ _ _ NE TRC). cbn [obind unwrap]. rewrite LS.
  destruct (d_loss_geom f g' t y Y T) as (h & -> & Lh). cbn [obind unwrap].
  destruct (S TR h (map (c_conj Fl) h)) as (ws & bs & k & kc & -> & L1 & L2 & _); rewrite ?map_length; auto.
  cbn [obind]. eauto.
Qed.

Lemma geom_gradient : forall n g g' f its W0 B0, n <> [] -> fit_all Fl n g g' -> Forall (trainable Fl) n ->
  (forall it, In it its -> has_geom g (fst it) /\ target_for g' (snd it)) -> slots Fl n W0 -> slots Fl n B0 ->
  map (@length C) W0 = wsz n -> map (@length C) B0 = bsz n ->
  exists W B, foldM (point_step Fl p n f) its (W0, B0) = Ret (W, B) /\ map (@length C) W = wsz n /\ map (@length C) B = bsz n.
Proof.
  intros n g g' f its W0 B0 NE H TR. revert W0 B0. induction its as [|[x t] its IH]; intros W0 B0 HI S1 S2 L1 L2; [exists W0, B0; auto|].
  destruct (HI (x, t) (or_introl eq_refl)) as (X & T). cbn [fst snd] in X, T.
  cbn [foldM]. rewrite point_step_eq by assumption.
  destruct (geom_pgrad n g g' x t f NE H TR X T) as (ws & bs & -> & E1 & E2). cbn [obind].
  destruct (addv_ok Fl W0 ws) as (W1 & -> & F1); [congruence|]. cbn [obind].
  destruct (addv_ok Fl B0 bs) as (B1 & -> & F2); [congruence|]. cbn [obind].
  apply IH; try congruence; [intros it Hit; apply HI; now right | eapply slots_lengths; eauto ..].
Qed.

Lemma grad_zero_sizes : forall n, map (@length C) (fst (grad_zero Fl n)) = wsz n /\ map (@length C) (snd (grad_zero Fl n)) = bsz n.
Proof.
  intros n. unfold grad_zero, wsz, bsz. cbn [fst snd]. rewrite !map_map.
  split; apply map_ext; intros [l|l|l|l]; cbn; rewrite ?repeat_length; reflexivity.
Qed.

(** ** Updates *)
Lemma fits_arch : forall l l' g g', arch_of Fl l' = arch_of Fl l -> fits Fl l g g' -> fits Fl l' g g'.
Proof.
  intros l l' g g' E H. destruct H as [l W NM | l a b r c W NM A B | l n r c N A B MA MB HF | l n r c]; destruct l' as [l'|l'|l'|l']; cbn [arch_of] in E; try discriminate.
  - injection E as E0 E1 _ _ EW EB EF. assert (U : units Fl l' = units Fl l /\ inputs Fl l' = inputs Fl l) by (split; assumption).
    destruct U as (<- & <-). constructor; [|congruence]. destruct W as (W1 & W2 & W3). unfold dense_wf, wf in *. repeat split; congruence.
  - injection E as EI E0 E1 _ _ EB EF EK. assert (U : channels Fl l' = channels Fl l /\ filters Fl l' = filters Fl l) by (split; assumption).
    destruct U as (U1 & U2). rewrite <- U1, <- U2. constructor; auto; [|congruence].
    destruct W as (W1 & W2 & W3 & W4 & W5 & W6 & W7 & W8).
    assert (LK : length (body (k_kernels l')) = length (body (k_kernels l))) by (apply (f_equal (@length _)) in EK; now rewrite !map_length in EK).
    unfold conv_wf. rewrite U1, U2. split; [unfold wf in *; congruence|]. repeat (split; [assumption || congruence|]).
    intros k Hk. apply In_nth_error in Hk as (i & Hi).
    pose proof (f_equal (fun l => nth_error l i) EK) as EI'. cbv beta in EI'. rewrite !nth_error_map, Hi in EI'. cbn [option_map] in EI'.
    destruct (nth_error (body (k_kernels l)) i) as [k0|] eqn:Hk0; cbn [option_map] in EI'; [|discriminate].
    injection EI' as F0 F1 _ _ FB. destruct (W8 k0 (nth_error_In _ _ Hk0)) as (Wk & G0 & G1). unfold wf in *. repeat split; congruence.
  - assert (l' = l) as -> by congruence. constructor; auto.
  - constructor.
Qed.

Lemma trainable_arch : forall l l', arch_of Fl l' = arch_of Fl l -> trainable Fl l -> trainable Fl l'.
Proof.
  intros [l|l|l|l] [l'|l'|l'|l'] E H; cbn [arch_of trainable] in *; auto; try discriminate. assert (l' = l) as -> by congruence. exact H.
Qed.

Lemma fit_all_arch : forall n g g', fit_all Fl n g g' -> forall n', map (arch_of Fl) n' = map (arch_of Fl) n -> fit_all Fl n' g g'.
Proof.
  intros n g g' H. induction H as [g | l n g g1 g2 Hl H IH]; intros [|l' n'] E; try discriminate; [constructor|].
  cbn [map] in E. econstructor; [eapply fits_arch; [|exact Hl]; congruence | apply IH; congruence].
Qed.

Lemma trainable_all_arch : forall n, Forall (trainable Fl) n -> forall n', map (arch_of Fl) n' = map (arch_of Fl) n -> Forall (trainable Fl) n'.
Proof.
  intros n H. induction H as [|l n Hl H IH]; intros [|l' n'] E; try discriminate; [constructor|].
  cbn [map] in E. constructor; [eapply trainable_arch; [|exact Hl]; congruence | apply IH; congruence].
Qed.

Lemma layer_update : forall l g g' s dw db, fits Fl l g g' -> length dw = fst (layer_params_len Fl l) -> length db = snd (layer_params_len Fl l) ->
  exists l', update_layer Fl s (dw, db, l) = Ret l'.
Proof.
  intros l g g' s dw db H. destruct H as [l W NM | l a b r c W NM A B | l n r c N A B MA MB HF | l n r c]; intros L1 L2; unfold update_layer;
    cbn [layer_propagates dense_propagates conv_propagates red_propagates flat_propagates layer_adjust].
  - unfold dense_adjust, slice_mul_mut_scalar. destruct W as (W & _). cbn [layer_params_len] in L1, L2. unfold dense_params_len in L1, L2. cbn [fst snd] in L1, L2.
    rewrite !map_length, L1, L2, W, !Nat.eqb_refl. cbn [negb map_ok obind unwrap]. eauto.
  - unfold conv_adjust, slice_mul_mut_scalar. cbn [layer_params_len] in L1, L2. destruct (conv_params_len Fl l) as (nw, nb). cbn [fst snd] in L1, L2.
    rewrite !map_length, L1, L2, !Nat.eqb_refl. cbn [negb map_ok obind unwrap]. eauto.
  - cbn [red_adjust map_ok obind unwrap]. eauto.
  - eauto.
Qed.

Lemma layer_updates : forall n g g', fit_all Fl n g g' -> forall s W B, map (@length C) W = wsz n -> map (@length C) B = bsz n ->
  exists n', mapM (update_layer Fl s) (combine (combine W B) n) = Ret n' /\ map (arch_of Fl) n' = map (arch_of Fl) n.
Proof.
  intros n g g' H. induction H as [g | l n g g1 g2 Hl H IH]; intros s W B L1 L2.
  - destruct W; [|discriminate]. exists []. auto.
  - destruct W as [|dw W]; [discriminate|]. destruct B as [|db B]; [discriminate|]. unfold wsz, bsz in L1, L2. cbn [map] in L1, L2. cbn [combine mapM].
    destruct (layer_update l g g1 s dw db Hl) as (l' & E); [congruence .. |]. rewrite E. cbn [obind].
    destruct (IH s W B) as (n' & -> & A); [unfold wsz; congruence | unfold bsz; congruence |]. cbn [obind].
    exists (l' :: n'). split; [reflexivity|]. cbn [map]. rewrite A. f_equal. eapply update_arch; eauto.
Qed.

(** ** The three operations on a batch *)
Lemma forward_total : forall n g g' x, n <> [] -> fit_all Fl n g g' -> has_geom g x ->
  exists y, net_forward Fl p n x = Ret (Ok y) /\ has_geom g' y.
Proof.
  intros n g g' x NE H X. destruct (sweep n g g' H x X) as (vs & y & T & LS & Y & _). exists y. split; [|exact Y].
  destruct n as [|l n]; [congruence|]. unfold net_forward. inversion T as [|? ? ? y1 vs1 E T1]; subst.
  unfold fwd at 1. rewrite E. cbn [obind unwrap].
  assert (G : forall n x vs, trace Fl p n x vs -> foldM (fun acc l => fwd Fl p l acc) n x = Ret (last vs x)).
  { clear. intros n x vs T. induction T as [x | l n x y vs E T IH]; [reflexivity|]. cbn [foldM]. unfold fwd at 1. rewrite E. cbn [obind unwrap].
    rewrite IH. f_equal. symmetry. eapply last_step; eauto. }
  assert (EQ : last (x :: vs1) x = last vs1 y1) by (eapply last_step; eauto).
  rewrite EQ. destruct (1 <? length (l :: n)) eqn:L.
  - rewrite (G _ _ _ T1). reflexivity.
  - destruct n; [|discriminate]. inversion T1; subst. reflexivity.
Qed.

Lemma combine_points : forall {A B} (P : A -> Prop) (Q : B -> Prop) l m, (forall a, In a l -> P a) -> (forall b, In b m -> Q b) ->
  forall it, In it (combine l m) -> P (fst it) /\ Q (snd it).
Proof. intros A B P Q l m H1 H2 [a b] H. split; [apply H1; eapply in_combine_l; eauto | apply H2; eapply in_combine_r; eauto]. Qed.

Lemma loss_total : forall n g g' d f, n <> [] -> fit_all Fl n g g' -> batch_for Fl g g' d -> ds_inputs d <> [] ->
  exists v, net_loss Fl p n d f = Ret (Ok v).
Proof.
  intros n g g' d f NE H (LT & HX & HT) ND. unfold net_loss, ds_points_iter.
  destruct (mapM_cases (fun it => pred <-! net_forward Fl p n (fst it) ;; unwrap (loss Fl (snd it) pred f)) (combine (ds_inputs d) (ds_target d)))
    as [(vals & E)|(E & it & Hit & Eit)].
  - rewrite E. cbn [obind]. apply mapM_length in E. rewrite combine_length, LT, Nat.min_id in E.
    destruct vals as [|v vals]; [destruct (ds_inputs d); [congruence|discriminate]|]. cbn [reduce unwrap_opt obind]. eauto.
  - exfalso. destruct (combine_points _ _ _ _ HX HT it Hit) as (X & T).
    destruct (forward_total n g g' (fst it) NE H X) as (y & E1 & Y). rewrite E1 in Eit. cbn [obind unwrap] in Eit.
    destruct (loss_geom f g' (snd it) y Y T) as (v & E2). rewrite E2 in Eit. discriminate.
Qed.

Lemma accuracy_total : forall n g k d, n <> [] -> fit_all Fl n g (Vec k) -> batch_for Fl g (Vec k) d ->
  exists v, net_max_pred_test Fl p n d = Ret v.
Proof.
  intros n g k d NE H (LT & HX & HT). unfold net_max_pred_test, ds_points_iter.
  match goal with |- context [mapM ?h ?l] => destruct (mapM_cases h l) as [(vals & E)|(E & it & Hit & Eit)] end.
  - rewrite E. cbn [obind]. eauto.
  - exfalso. destruct (combine_points _ _ _ _ HX HT it Hit) as (X & T).
    destruct (forward_total n g _ (fst it) NE H X) as (y & E1 & Y). rewrite E1 in Eit. cbn [obind unwrap] in Eit.
    destruct y as [y|y]; [|contradiction]. destruct (snd it) as [t|t]; [|contradiction]. discriminate.
Qed.

Lemma training_total : forall n g g' d f lr s, 2 <= length n -> fit_all Fl n g g' -> Forall (trainable Fl) n -> batch_for Fl g g' d ->
  c_div Fl lr (c_of_nat Fl (length (ds_inputs d))) = Ret s ->
  exists n', net_gradient_opt Fl p n d f lr = Ret (n', Ok tt) /\ fit_all Fl n' g g' /\ Forall (trainable Fl) n' /\ length n' = length n.
Proof.
  intros n g g' d f lr s L2 H TR (LT & HX & HT) HS. unfold net_gradient_opt, net_gradient, ds_points_iter.
  rewrite (proj2 (Nat.leb_gt _ _) L2). destruct (grad_zero_sizes n) as (Z1 & Z2). destruct (grad_zero_slots Fl n) as (S1 & S2).
  destruct (grad_zero Fl n) as (W0, B0). cbn [fst snd] in Z1, Z2, S1, S2.
  destruct (geom_gradient n g g' f (combine (ds_inputs d) (ds_target d)) W0 B0) as (W & B & E & E1 & E2); auto.
  { intros ->. inversion L2. } { apply combine_points; assumption. }
  rewrite E. cbn [obind]. rewrite HS. cbn [obind fst snd].
  destruct (layer_updates n g g' H s W B E1 E2) as (n' & -> & A). cbn [obind]. exists n'. split; [reflexivity|].
  split; [eapply fit_all_arch; eauto|]. split; [eapply trainable_all_arch; eauto|].
  apply (f_equal (@length _)) in A. now rewrite !map_length in A.
Qed.

Lemma train_on_total : forall g g' f lr ds n, 2 <= length n -> fit_all Fl n g g' -> Forall (trainable Fl) n ->
  (forall d, In d ds -> batch_for Fl g g' d /\ exists s, c_div Fl lr (c_of_nat Fl (length (ds_inputs d))) = Ret s) ->
  exists n', train_on Fl p n ds f lr = Ret n' /\ fit_all Fl n' g g' /\ Forall (trainable Fl) n' /\ length n' = length n.
Proof.
  intros g g' f lr ds. induction ds as [|d ds IH]; intros n L2 H TR HD; [exists n; auto|].
  destruct (HD d (or_introl eq_refl)) as (B & s & HS).
  destruct (training_total n g g' d f lr s L2 H TR B HS) as (n1 & E & H1 & TR1 & L1). cbn [train_on]. rewrite E. cbn [obind fst snd].
  destruct (IH n1) as (n2 & E2 & H2 & TR2 & L3); auto; [lia | intros d' Hd; apply HD; now right |]. exists n2. repeat split; auto. congruence.
Qed.
End Geom.
