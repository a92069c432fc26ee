(** * Facts about rectifiers that are switched off *)
From Verif Require Import Base BaseFacts Float Matrix Cplx Random Act Input Loss Dense Conv Layer Dataset Network SpecMatrix MatrixFacts
  SpecLayer SpecConv SpecNet DenseFacts ConvFacts LayerFacts NetFacts TrainFacts TrainDense PropDense GradFacts GradFacts2 ConvCalc NanFacts SpecGeom GeomFacts SpecDead.
Local Open Scope nat_scope.

Lemma in_concat_tab : forall {T} r c (f : nat -> nat -> T) x, In x (concat (tab_rows r c f)) <-> exists i j, i < r /\ j < c /\ x = f i j.
Proof.
  intros T r c f x. unfold tab_rows. rewrite in_concat. split.
  - intros (l & Hl & Hx). apply in_map_iff in Hl as (i & <- & Hi). apply in_map_iff in Hx as (j & <- & Hj). apply in_seq in Hi. apply in_seq in Hj.
    exists i, j. repeat split; lia.
  - intros (i & j & Hi & Hj & ->). eexists. split; [apply in_map_iff; exists i; split; [reflexivity | apply in_seq; lia]|].
    apply in_map_iff. exists j. split; [reflexivity | apply in_seq; lia].
Qed.

Section Dead.
Context (Fl : FloatOps) (p : prec).
Local Notation C := (cplx (F Fl)).
Local Notation z := (c_default Fl).

(** [nil x]: a number that does not move what it is subtracted from; [kept a b]:
    [b] is [a] with such numbers subtracted. *)
Context (nilr : F Fl -> Prop) (kept : F Fl -> F Fl -> Prop).
Context (N0 : nilr (fzero Fl)).
Context (Nadd : forall x y, nilr x -> nilr y -> nilr (fadd Fl x y)).
Context (Nsub : forall x y, nilr x -> nilr y -> nilr (fsub Fl x y)).
Context (Nneg : forall x, nilr x -> nilr (fneg Fl x)).
Context (Nmul : forall x y, nilr x \/ nilr y -> nilr (fmul Fl x y)).
Context (Ksub : forall a x, nilr x -> kept a (fsub Fl a x)).

Definition nilc (c : C) : Prop := nilr (re c) /\ nilr (im c).
Definition keptc (a b : C) : Prop := kept (re a) (re b) /\ kept (im a) (im b).

Lemma nilc_z : nilc z. Proof. split; exact N0. Qed.
Lemma nilc_add : forall a b, nilc a -> nilc b -> nilc (c_add Fl a b). Proof. intros a b (A1 & A2) (B1 & B2). split; apply Nadd; auto. Qed.
Lemma nilc_mul : forall a b, nilc a \/ nilc b -> nilc (c_mul Fl a b).
Proof. intros a b H. assert (P : forall x y, nilr x \/ nilr y -> nilr (fmul Fl x y)) by exact Nmul. split; [apply Nsub | apply Nadd]; apply P; destruct H as [(H1 & H2)|(H1 & H2)]; auto. Qed.
Lemma nilc_conj : forall a, nilc a -> nilc (c_conj Fl a). Proof. intros a (A1 & A2). split; [exact A1 | apply Nneg; exact A2]. Qed.
Lemma nilc_mul_assign : forall a s, nilc a -> nilc (c_mul_assign Fl a s).
Proof.
  intros a s (A1 & A2). unfold c_mul_assign. cbn [re im].
  assert (X : nilr (fsub Fl (fmul Fl (re a) (re s)) (fmul Fl (im a) (im s)))) by (apply Nsub; apply Nmul; auto).
  split; [exact X | apply Nadd; apply Nmul; auto].
Qed.
Lemma kept_sub_conj : forall a d, nilc d -> keptc a (sub_conj Fl a d).
Proof. intros a d D. apply nilc_conj in D as (D1 & D2). split; apply Ksub; assumption. Qed.
Lemma nilc_sum : forall f n a, nilc a -> (forall i, i < n -> nilc (f i)) -> nilc (sum_from (c_add Fl) a f n).
Proof.
  intros f n a A H. unfold sum_from. assert (G : forall i, In i (seq 0 n) -> nilc (f i)) by (intros i Hi; apply in_seq in Hi; apply H; lia).
  revert a A G. generalize (seq 0 n). induction l as [|i l IH]; intros a A G; [exact A|]. cbn [fold_left].
  apply IH; [apply nilc_add; [exact A | apply G; now left] | intros; apply G; now right].
Qed.

Lemma off_nil : forall f q, off Fl f q -> exists d dc, d_activate Fl p f q = Ret d /\ d_conj_activate Fl p f q = Ret dc /\ nilc d /\ nilc dc.
Proof.
  intros f q H. destruct f; cbn [off] in H; try contradiction; cbn [d_activate d_conj_activate]; do 2 eexists; (split; [reflexivity|]); (split; [reflexivity|]).
  - destruct H as (H1 & H2). unfold d_ritrelu, d_conj_ritrelu, d_relu. rewrite H1, H2. split; split; cbn [re im]; try exact N0; apply Nmul; left; [apply Nadd | apply Nsub]; exact N0.
  - unfold d_zrelu, d_conj_zrelu. replace (fsignneg Fl (re q) || fsignneg Fl (im q)) with true by (symmetry; apply orb_true_iff; exact H). split; split; exact N0.
Qed.

Lemma rect_ret : forall f q q', off Fl f q -> exists d dc, d_activate Fl p f q' = Ret d /\ d_conj_activate Fl p f q' = Ret dc.
Proof. intros f q q' H. destruct f; cbn [off] in H; try contradiction; cbn [d_activate d_conj_activate]; eauto. Qed.

(** ** One layer of the sweep *)
Lemma bp_nth : forall xs g gc ws bs h hc k x l, bp Fl p xs g gc = Ret (ws, bs, h, hc) -> nth_error xs k = Some (x, l) -> layer_propagates Fl l = true ->
  exists g' gc' dw db h' hc', layer_derivatives Fl p l x g' gc' = Ret (Ok (dw, db, h', hc')) /\ nth k ws [] = dw /\ nth k bs [] = db.
Proof.
  induction xs as [|[x0 l0] xs IH]; intros g gc ws bs h hc k x l E K PR; [destruct k; discriminate|]. cbn [bp] in E.
  apply obind_inv in E as ((((ws0 & bs0) & h0) & hc0) & E0 & E). destruct k as [|k]; cbn [nth_error] in K.
  - injection K as -> ->. rewrite PR in E. apply obind_inv in E as (r & E1 & E). destruct r as [d|e]; cbn [unwrap obind] in E; [|discriminate].
    destruct d as (((dw & db) & h1) & hc1). injection E as <- <- <- <-. exists h0, hc0, dw, db, h1, hc1. repeat split; auto.
  - destruct (IH _ _ _ _ _ _ _ _ _ E0 K PR) as (g' & gc' & dw & db & h' & hc' & D & W1 & B1).
    exists g', gc', dw, db, h', hc'. split; [exact D|]. destruct (layer_propagates Fl l0).
    + apply obind_inv in E as (r & E1 & E). destruct r as [d|e]; cbn [unwrap obind] in E; [|discriminate].
      destruct d as (((dw1 & db1) & h1) & hc1). injection E as <- <- <- <-. cbn [nth]. auto.
    + injection E as <- <- <- <-. cbn [nth]. auto.
Qed.

Lemma nth_error_combine : forall {A B} (l : list A) (m : list B) k a b, nth_error l k = Some a -> nth_error m k = Some b -> nth_error (combine l m) k = Some (a, b).
Proof. induction l as [|x l IH]; intros [|y m] [|k] a b; cbn; try discriminate; [congruence | apply IH]. Qed.

(** The gradients of one point in layer [k]. *)
Lemma pgrad_nth : forall n f x t ws bs k l, pgrad Fl p n f (x, t) = Ret (ws, bs) -> nth_error n k = Some l -> layer_propagates Fl l = true ->
  exists v y g' gc' dw db h' hc', arrives Fl p n k x v /\ layer_forward Fl p l v = Ret (Ok y) /\
    layer_derivatives Fl p l v g' gc' = Ret (Ok (dw, db, h', hc')) /\ nth k ws [] = dw /\ nth k bs [] = db.
Proof.
  intros n f x t ws bs k l E K PR. unfold pgrad in E. cbn [fst snd] in E. apply obind_inv in E as (r & E1 & E).
  destruct r as [acts|]; cbn [unwrap obind] in E; [|discriminate].
  apply obind_inv in E as (g & E2 & E). apply obind_inv in E as ((((ws' & bs') & h) & hc) & E3 & E). injection E as -> ->.
  assert (T : trace Fl p n x acts).
  { destruct n as [|l0 n]; [discriminate|]. unfold net_collect_acts in E1. destruct (trace_cases Fl p (l0 :: n) x) as [(vs & T)|T].
    - pose proof (collect_fold Fl p _ _ _ [] T) as CF. cbn [app] in CF. rewrite CF in E1. cbn [obind app] in E1. now assert (acts = vs) as -> by congruence.
    - pose proof (collect_fold_panic Fl p _ _ [] T) as CF. cbn [app] in CF. rewrite CF in E1. discriminate. }
  assert (KL : k < length n) by (apply nth_error_Some; congruence). pose proof (trace_length Fl p _ _ _ T) as LA.
  pose proof (trace_nth Fl p _ _ _ _ _ x T K) as FW.
  assert (KA : nth_error acts k = Some (nth k acts x)) by (apply nth_error_nth'; lia).
  destruct (bp_nth _ _ _ _ _ _ _ k _ l E3 (nth_error_combine _ _ _ _ _ KA K) PR) as (g' & gc' & dw & db & h' & hc' & D & W1 & B1).
  exists (nth k acts x), (nth (S k) acts x), g', gc', dw, db, h', hc'. split; [|auto].
  exists (firstn (S k) acts). split; [apply trace_firstn; [exact T | lia]|].
  assert (LF : length (firstn (S k) acts) = S k) by (rewrite firstn_length; lia).
  assert (LS : forall (u : list (IOType C)) m, length u = S m -> last u x = nth m u x).
  { clear. induction u as [|b u IH]; intros m H; [discriminate|]. destruct u as [|c u].
    - cbn in H. injection H as <-. reflexivity.
    - destruct m as [|m]; [discriminate|]. change (last (c :: u) x = nth m (c :: u) x). apply IH. cbn in *. lia. }
  rewrite (LS _ k LF). rewrite <- (firstn_skipn (S k) acts) at 2. rewrite app_nth1 by lia. reflexivity.
Qed.

(** ** The gradient of a batch *)
Lemma addv_nth : forall (W ws W' : list (list C)) k, addv Fl W ws = Ret W' -> k < length ws ->
  nth k W' [] = zip_assign (c_add_assign Fl) (nth k W []) (nth k ws []) /\ (k < length W -> length (nth k ws []) = length (nth k W [])).
Proof.
  induction W as [|w W IH]; intros [|d ws] W' k E K; cbn [addv] in E; cbn [length] in K; try lia.
  - injection E as <-. destruct k; cbn [nth length]; (split; [reflexivity | lia]).
  - apply obind_inv in E as (y & E1 & E). apply obind_inv in E as (r & E2 & E). injection E as <-.
    unfold add_slice_mut in E1. destruct (Nat.eqb_spec (length w) (length d)) as [Q|Q]; cbn [negb unwrap] in E1; [|discriminate].
    assert (EY : zip_assign (c_add_assign Fl) w d = y) by (change (add_assign (cops Fl)) with (c_add_assign Fl) in E1; congruence).
    destruct k as [|k]; cbn [nth]; [split; [now symmetry | lia]|].
    destruct (IH ws r k E2 ltac:(lia)) as (I1 & I2). split; [exact I1|]. cbn [length]. intros; apply I2; lia.
Qed.

Lemma nil_zip : forall (l r : list C) q, length r = length l -> nilc (nth q l z) -> nilc (nth q r z) -> nilc (nth q (zip_assign (c_add_assign Fl) l r) z).
Proof.
  intros l r q L A B. destruct (Nat.lt_ge_cases q (length l)) as [H|H].
  - rewrite (zip_nth _ _ _ _ _ z) by lia. apply (nilc_add _ _ A B).
  - rewrite nth_overflow by (rewrite zip_assign_length; lia). apply nilc_z.
Qed.

Section Batch.
Context (n : network Fl) (f : ComplexLossFunc) (k : nat) (Iw Ib : nat -> Prop).
Context (KN : k < length n).
Definition quiet (W B : list (list C)) : Prop :=
  (forall q, Iw q -> nilc (nth q (nth k W []) z)) /\ (forall q, Ib q -> nilc (nth q (nth k B []) z)).

Lemma batch_quiet : forall its W B W' B', slots Fl n W -> slots Fl n B ->
  (forall it ws bs, In it its -> pgrad Fl p n f it = Ret (ws, bs) -> quiet ws bs) ->
  quiet W B -> foldM (point_step Fl p n f) its (W, B) = Ret (W', B') -> quiet W' B'.
Proof.
  induction its as [|it its IH]; intros W B W' B' SW SB Q Q0 E; cbn [foldM] in E; [injection E as <- <-; exact Q0|].
  apply obind_inv in E as ((W2 & B2) & E1 & E). destruct (point_step_lengths Fl p _ _ _ _ _ _ _ SW SB E1) as (L1 & L2).
  rewrite point_step_eq in E1 by auto. apply obind_inv in E1 as ((ws & bs) & P & E1).
  apply obind_inv in E1 as (W3 & A1 & E1). apply obind_inv in E1 as (B3 & A2 & E1). injection E1 as -> ->.
  apply (IH W2 B2 W' B'); auto; try (eapply slots_lengths; eauto); [intros; eapply Q; eauto; now right|].
  pose proof (Q it ws bs (or_introl eq_refl) P) as (Q1 & Q2). destruct Q0 as (Q3 & Q4).
  assert (LL : length ws = length n /\ length bs = length n).
  { clear - P. unfold pgrad in P. apply obind_inv in P as (r & E1 & E). destruct r as [acts|]; cbn [unwrap obind] in E; [|discriminate].
    apply obind_inv in E as (g & E2 & E). apply obind_inv in E as ((((ws' & bs') & h) & hc) & E3 & E).
    injection E as -> ->. apply bp_length in E3 as (L1 & L2). apply collect_length in E1. rewrite combine_length in L1, L2. lia. }
  destruct LL as (LW & LB).
  assert (LW0 : length W = length n) by (symmetry; eapply Forall2_len; exact SW).
  assert (LB0 : length B = length n) by (symmetry; eapply Forall2_len; exact SB).
  destruct (addv_nth _ _ _ k A1 ltac:(lia)) as (EW & M1). destruct (addv_nth _ _ _ k A2 ltac:(lia)) as (EB & M2).
  split; intros q Hq; rewrite ?EW, ?EB; apply nil_zip; auto; [apply M1 | apply M2]; lia.
Qed.
End Batch.

(** A step moves no parameter of layer [k] whose gradient is nil at every point. *)
Lemma step_quiet : forall n data f lr n' r k l (Iw Ib : nat -> Prop), nth_error n k = Some l -> layer_propagates Fl l = true ->
  (forall x t ws bs, In (x, t) (combine (ds_inputs data) (ds_target data)) -> pgrad Fl p n f (x, t) = Ret (ws, bs) -> quiet k Iw Ib ws bs) ->
  net_gradient_opt Fl p n data f lr = Ret (n', Ok r) ->
  exists s dw db l', nth_error n' k = Some l' /\ update_layer Fl s (dw, db, l) = Ret l' /\
    (forall q, Iw q -> nilc (nth q dw z)) /\ (forall q, Ib q -> nilc (nth q db z)).
Proof.
  intros n data f lr n' r k l Iw Ib K PR Q E. unfold net_gradient_opt in E. destruct (length n <=? 1); [discriminate|].
  apply obind_inv in E as ((W & B) & EG & E). apply obind_inv in E as (s & ES & E). apply obind_inv in E as (m & EM & E).
  injection E as -> _. cbn [fst snd] in EM. destruct (gradient_lengths Fl p n data f W B EG) as (L1 & L2).
  destruct (grad_zero_length Fl n) as (G1 & G2). assert (KL : k < length n) by (apply nth_error_Some; congruence).
  apply (f_equal (@length nat)) in L1. apply (f_equal (@length nat)) in L2. rewrite !map_length in L1, L2. rewrite G1 in L1. rewrite G2 in L2.
  assert (QQ : quiet k Iw Ib W B).
  { unfold net_gradient, ds_points_iter in EG. destruct (grad_zero_slots Fl n) as (S1 & S2).
    rewrite (surjective_pairing (grad_zero Fl n)) in EG. eapply batch_quiet; [exact KL | exact S1 | exact S2 | | | exact EG].
    - intros [x t] ws bs Hi P. eapply Q; eauto.
    - assert (Z : forall (g : clayer Fl -> nat) q, nilc (nth q (nth k (map (fun l => if layer_propagates Fl l then repeat z (g l) else []) n) []) z)).
      { intros g q. clear - N0. revert k. induction n as [|l0 m IH]; intros k; [destruct k, q; apply nilc_z|].
        destruct k as [|k]; cbn [map nth]; [|apply IH]. destruct (layer_propagates Fl l0); [|destruct q; apply nilc_z]. rewrite nth_repeat. apply nilc_z. }
      unfold grad_zero. cbn [fst snd]. split; intros q _; apply Z. }
  destruct QQ as (Q1 & Q2).
  assert (NW : nth_error W k = Some (nth k W [])) by (apply nth_error_nth'; lia).
  assert (NB : nth_error B k = Some (nth k B [])) by (apply nth_error_nth'; lia).
  destruct (mapM_nth_inv _ _ _ k _ EM (nth_error_combine _ _ _ _ _ (nth_error_combine _ _ _ _ _ NW NB) K)) as (l' & K' & U).
  exists s, (nth k W []), (nth k B []), l'. auto.
Qed.

(** ** Dense layers *)
Lemma dense_quiet : forall (l : dense Fl) i v y g gc dw db h hc, dense_wf Fl l -> i < units Fl l -> off Fl (d_func l) (pre Fl l v i) ->
  dense_forward Fl p l (IOScalar v) = Ret (Ok y) -> dense_derivatives Fl p l (IOScalar v) g gc = Ret (Ok (dw, db, h, hc)) ->
  nilc (nth i db z) /\ forall j, j < inputs Fl l -> nilc (nth (i * inputs Fl l + j) dw z).
Proof.
  intros l i v y g gc dw db h hc W Hi O FW D.
  assert (X : length v = inputs Fl l).
  { destruct (Nat.eq_dec (length v) (inputs Fl l)) as [|NE]; [assumption|]. rewrite (proj2 (C40_rejects Fl p l) v NE) in FW. discriminate. }
  assert (LG : length g = units Fl l /\ length gc = units Fl l).
  { destruct (Nat.eq_dec (length g) (units Fl l)) as [|NE]; [|rewrite C41_rejects in D by auto; discriminate].
    destruct (Nat.eq_dec (length gc) (units Fl l)) as [|NE]; [auto | rewrite C41_rejects in D by auto; discriminate]. }
  destruct LG as (LG & LGC).
  pose (d := fun u => match d_activate Fl p (d_func l) (pre Fl l v u) with Ret c => c | Panic => z end).
  pose (dc := fun u => match d_conj_activate Fl p (d_func l) (pre Fl l v u) with Ret c => c | Panic => z end).
  destruct (C41_derivatives Fl p l v g gc d dc W X LG LGC) as (dw' & db' & dx & E & _ & _ & _ & DB & DW & _).
  { intros u _. destruct (rect_ret (d_func l) _ (pre Fl l v u) O) as (a & b & Ha & Hb). unfold d, dc. rewrite Ha, Hb. auto. }
  rewrite E in D. injection D as -> -> _ _.
  assert (ND : nilc (c_add Fl (c_mul Fl (d i) (nth i g z)) (c_mul Fl (c_conj Fl (dc i)) (nth i gc z)))).
  { destruct (off_nil _ _ O) as (a & b & Ha & Hb & Na & Nb). unfold d, dc. rewrite Ha, Hb.
    apply nilc_add; apply nilc_mul; left; [exact Na | apply nilc_conj, Nb]. }
  split; [rewrite DB by auto; exact ND|]. intros j Hj. rewrite DW by auto. apply nilc_mul. right. exact ND.
Qed.

Theorem dead_unit_step : forall n data f lr n' r k (l : dense Fl) i, nth_error n k = Some (LDense l) -> dense_wf Fl l -> i < units Fl l ->
  (forall x v, In x (ds_inputs data) -> arrives Fl p n k x (IOScalar v) -> off Fl (d_func l) (pre Fl l v i)) ->
  net_gradient_opt Fl p n data f lr = Ret (n', Ok r) ->
  exists l', nth_error n' k = Some (LDense l') /\ arch_of Fl (LDense l') = arch_of Fl (LDense l) /\
    Forall2 keptc (unit_params Fl l i) (unit_params Fl l' i).
Proof.
  intros n data f lr n' r k l i K W Hi O E.
  destruct (step_quiet n data f lr n' r k (LDense l) (fun q => exists j, j < inputs Fl l /\ q = i * inputs Fl l + j) (fun q => q = i) K eq_refl) as (s & dw & db & l' & K' & U & Q1 & Q2); [|exact E|].
  - intros x t ws bs HI P. destruct (pgrad_nth _ _ _ _ _ _ k _ P K eq_refl) as (v & y & g & gc & dw & db & h & hc & A & FW & D & E1 & E2).
    destruct v as [v|ms]; [|cbn in FW; discriminate]. cbn [layer_forward layer_derivatives] in FW, D.
    assert (HX : In x (ds_inputs data)) by (eapply in_combine_l; exact HI).
    destruct (dense_quiet l i v y g gc dw db h hc W Hi (O x v HX A) FW D) as (N1 & N2).
    rewrite <- E1 in N2. rewrite <- E2 in N1. split; [intros q (j & Hj & ->); auto | intros q ->; auto].
  - assert (AR : arch_of Fl l' = arch_of Fl (LDense l)) by (eapply update_arch; exact U).
    destruct l' as [l'|l'|l'|l']; try discriminate. exists l'. split; [exact K'|]. split; [exact AR|].
    destruct (update_dense_inv Fl s dw db l l' U) as (L1 & L2 & V1 & V2).
    destruct (arch_dense Fl l' l AR W) as (W' & EU & EI & _). destruct W as (W1 & W2 & W3).
    unfold unit_params. rewrite EI. constructor.
    + rewrite V2, (zip_nth _ _ _ _ _ (c_mul_assign Fl z s)) by (rewrite ?map_length; unfold units in *; lia). apply kept_sub_conj.
      rewrite (map_nth (fun e => c_mul_assign Fl e s)). apply nilc_mul_assign, Q2. reflexivity.
    + assert (G : forall js, (forall j, In j js -> j < inputs Fl l) -> Forall2 keptc (map (weight Fl l i) js) (map (weight Fl l' i) js)).
      { induction js as [|j js IH]; intros H; cbn [map]; constructor; [|apply IH; intros; apply H; now right].
        assert (Hj : j < inputs Fl l) by (apply H; now left). unfold weight, entry.
        assert (ES : sh1 (d_weights l') = inputs Fl l) by exact EI. rewrite ES. change (sh1 (d_weights l)) with (inputs Fl l).
        assert (B0 : i * inputs Fl l + j < length (body (d_weights l))) by (rewrite W1; unfold units, inputs in *; nia).
        rewrite V1, (zip_nth _ _ _ _ _ (c_mul_assign Fl z s)) by (rewrite ?map_length; lia). apply kept_sub_conj.
        rewrite (map_nth (fun e => c_mul_assign Fl e s)). apply nilc_mul_assign, Q1. exists j. auto. }
      apply G. intros j Hj. apply in_seq in Hj. lia.
Qed.

(** ** Convolutional layers *)
Lemma bp_geom : forall n g g', fit_all Fl n g g' -> Forall (trainable Fl) n -> forall x vs h hc ws bs e ec k l, has_geom g x -> trace Fl p n x vs ->
  length h = gsize g' -> length hc = gsize g' -> bp Fl p (combine vs n) h hc = Ret (ws, bs, e, ec) -> nth_error n k = Some l -> layer_propagates Fl l = true ->
  exists g0 g1 h' hc' dw db e' ec', fits Fl l g0 g1 /\ has_geom g0 (nth k vs x) /\ length h' = gsize g1 /\ length hc' = gsize g1 /\
    layer_derivatives Fl p l (nth k vs x) h' hc' = Ret (Ok (dw, db, e', ec')) /\ nth k ws [] = dw /\ nth k bs [] = db.
Proof.
  intros n g g' FA. induction FA as [g | l0 n g g1 g2 Hl FA IH]; intros TR x vs h hc ws bs e ec k l X T Lh Lhc E K PR; [destruct k; discriminate|].
  inversion TR as [|? ? T0 TR']; subst. inversion T as [|? ? ? y vs' E1 T']; subst.
  destruct (layer_total Fl p l0 g g1 x Hl X) as (y' & E1' & Y). assert (y' = y) by congruence. subst y'.
  destruct (sweep Fl p n g1 g2 FA y Y) as (vs2 & w & T2 & _ & _ & S). assert (vs2 = vs') by (eapply trace_det; eauto). subst vs2.
  destruct (S TR' h hc Lh Lhc) as (ws1 & bs1 & h1 & hc1 & B1 & _ & _ & L1 & L2).
  cbn [combine bp] in E. rewrite B1 in E. cbn [obind] in E. destruct k as [|k]; cbn [nth_error] in K.
  - injection K as ->. rewrite PR in E. apply obind_inv in E as (r & E2 & E). destruct r as [d|]; cbn [unwrap obind] in E; [|discriminate].
    destruct d as (((dw & db) & h2) & hc2). injection E as <- <- <- <-. cbn [nth]. exists g, g1, h1, hc1, dw, db, h2, hc2. auto 8.
  - destruct (IH TR' y vs' h hc ws1 bs1 h1 hc1 k l Y T' Lh Lhc B1 K PR) as (g3 & g4 & h' & hc' & dw & db & e' & ec' & R1 & R2 & R3 & R4 & R5 & R6 & R7).
    assert (KL : k < length vs') by (rewrite (trace_length Fl p _ _ _ T'); assert (k < length n) by (apply nth_error_Some; congruence); lia).
    exists g3, g4, h', hc', dw, db, e', ec'. cbn [nth]. rewrite (nth_indep vs' x y KL). repeat (split; [assumption|]).
    destruct (layer_propagates Fl l0).
    + apply obind_inv in E as (r & E2 & E). destruct r as [d|]; cbn [unwrap obind] in E; [|discriminate].
      destruct d as (((dw1 & db1) & h2) & hc2). injection E as <- <- <- <-. cbn [nth]. auto.
    + injection E as <- <- <- <-. cbn [nth]. auto.
Qed.

Lemma pgrad_geom : forall n g g' f x t ws bs k l, fit_all Fl n g g' -> Forall (trainable Fl) n -> has_geom g x -> target_for g' t ->
  pgrad Fl p n f (x, t) = Ret (ws, bs) -> nth_error n k = Some l -> layer_propagates Fl l = true ->
  exists v g0 g1 h hc dw db e ec, arrives Fl p n k x v /\ fits Fl l g0 g1 /\ has_geom g0 v /\ length h = gsize g1 /\ length hc = gsize g1 /\
    layer_derivatives Fl p l v h hc = Ret (Ok (dw, db, e, ec)) /\ nth k ws [] = dw /\ nth k bs [] = db.
Proof.
  intros n g g' f x t ws bs k l FA TR X T E K PR.
  destruct (sweep Fl p n g g' FA x X) as (vs & y & TC & LS & Y & _).
  assert (NE : n <> []) by (intros ->; destruct k; discriminate).
  unfold pgrad in E. cbn [fst snd] in E. rewrite (collect_trace _ _ _ _ _ NE TC) in E. cbn [obind unwrap] in E. rewrite LS in E.
  destruct (d_loss_geom Fl f g' t y Y T) as (h & EH & Lh). rewrite EH in E. cbn [obind unwrap] in E.
  apply obind_inv in E as ((((ws' & bs') & e) & ec) & EB & E). injection E as -> ->.
  destruct (bp_geom n g g' FA TR x vs h (map (c_conj Fl) h) ws bs e ec k l X TC Lh ltac:(rewrite map_length; exact Lh) EB K PR)
    as (g3 & g4 & h' & hc' & dw & db & e' & ec' & R1 & R2 & R3 & R4 & R5 & R6 & R7).
  exists (nth k vs x), g3, g4, h', hc', dw, db, e', ec'. split; [|auto 8].
  assert (KL : k < length n) by (apply nth_error_Some; congruence). pose proof (trace_length Fl p _ _ _ TC) as LA.
  exists (firstn (S k) vs). split; [apply trace_firstn; [exact TC | lia]|].
  assert (LF : length (firstn (S k) vs) = S k) by (rewrite firstn_length; lia).
  assert (LL : forall (u : list (IOType C)) m, length u = S m -> last u x = nth m u x).
  { clear. induction u as [|b u IH]; intros m H; [discriminate|]. destruct u as [|c u].
    - cbn in H. injection H as <-. reflexivity.
    - destruct m as [|m]; [discriminate|]. change (last (c :: u) x = nth m (c :: u) x). apply IH. cbn in *. lia. }
  rewrite (LL _ k LF). rewrite <- (firstn_skipn (S k) vs) at 2. rewrite app_nth1 by lia. reflexivity.
Qed.

Lemma nilc_corr : forall a b g h i j, (forall u v, u < a -> v < b -> nilc (h u v)) -> nilc (corr (cops Fl) a b g h i j).
Proof.
  intros a b g h i j H. unfold corr. apply (nilc_sum _ a z nilc_z). intros u Hu. apply (nilc_sum _ b z nilc_z). intros v Hv.
  apply nilc_mul. right. auto.
Qed.

Lemma kval_values : forall a b (l : conv Fl) o ch u v, conv_wf Fl a b l -> o < filters Fl l -> ch < channels Fl l -> u < a -> v < b ->
  (o * channels Fl l + ch) * (a * b) + (u * b + v) < length (kernel_values l) /\ nth ((o * channels Fl l + ch) * (a * b) + (u * b + v)) (kernel_values l) z = kval Fl l o ch u v.
Proof.
  intros a b l o ch u v W Ho Hc Hu Hv. pose proof W as (WK & _ & _ & _ & _ & _ & _ & KW).
  assert (FA : Forall (fun q : list C => length q = a * b) (map body (body (k_kernels l)))).
  { apply Forall_forall. intros q Hq. apply in_map_iff in Hq as (m & <- & Hm). destruct (KW m Hm) as (Wm & E0 & E1). rewrite Wm, E0, E1. reflexivity. }
  assert (LI : o * channels Fl l + ch < length (body (k_kernels l))) by (rewrite WK; unfold filters, channels in *; nia).
  unfold kernel_values. split.
  - rewrite (concat_length_const (a * b)) by exact FA. rewrite map_length.
    assert (u * b + v < a * b) by nia. revert LI. generalize (o * channels Fl l + ch) (length (body (k_kernels l))). intros; nia.
  - rewrite nth_concat_const by (auto; nia). destruct (kernel_nth Fl a b l o ch W Ho Hc) as (Wm & E0 & E1).
    unfold kval, entry. unfold entry in E1. rewrite E1. f_equal. change (@nil C) with (body (@m_new C)). rewrite map_nth. reflexivity.
Qed.

Lemma conv_quiet : forall a b r c (l : conv Fl) x (g gc : list C) dw db h hc o, geom Fl a b r c l x -> o < filters Fl l ->
  length g = filters Fl l * ((r - a + 1) * (c - b + 1)) -> length gc = filters Fl l * ((r - a + 1) * (c - b + 1)) ->
  (forall i j, i < r - a + 1 -> j < c - b + 1 -> off Fl (k_func l) (cpre Fl a b l x o i j)) ->
  conv_derivatives Fl p l (IOMatrix x) g gc = Ret (Ok (dw, db, h, hc)) ->
  nilc (nth o db z) /\ forall ch u v, ch < channels Fl l -> u < a -> v < b -> nilc (nth ((o * channels Fl l + ch) * (a * b) + (u * b + v)) dw z).
Proof.
  intros a b r c l x g gc dw db h hc o G Ho Lg Lgc O D.
  pose (d := fun o i j => match d_activate Fl p (k_func l) (cpre Fl a b l x o i j) with Ret c => c | Panic => z end).
  pose (dc := fun o i j => match d_conj_activate Fl p (k_func l) (cpre Fl a b l x o i j) with Ret c => c | Panic => z end).
  assert (O00 : off Fl (k_func l) (cpre Fl a b l x o 0 0)) by (apply O; lia).
  rewrite (conv_derivatives_ok Fl p a b r c l x g gc d dc G Lg Lgc) in D.
  2: { intros o' i j _ _ _. destruct (rect_ret (k_func l) _ (cpre Fl a b l x o' i j) O00) as (e1 & e2 & H1 & H2). unfold d, dc. rewrite H1, H2. auto. }
  injection D as <- <- _ _.
  assert (ND : forall i j, i < r - a + 1 -> j < c - b + 1 ->
     nilc (c_mul Fl (d o i j) (at3 z (r - a + 1) (c - b + 1) g o i j)) /\ nilc (c_mul Fl (c_conj Fl (dc o i j)) (at3 z (r - a + 1) (c - b + 1) gc o i j))).
  { intros i j Hi Hj. destruct (off_nil _ _ (O i j Hi Hj)) as (e1 & e2 & H1 & H2 & N1 & N2). unfold d, dc. rewrite H1, H2.
    split; apply nilc_mul; left; [exact N1 | apply nilc_conj, N2]. }
  split.
  - rewrite nth_map_seq by exact Ho.
    assert (NQ : forall q, q < (r - a + 1) * (c - b + 1) -> q / (c - b + 1) < r - a + 1 /\ q mod (c - b + 1) < c - b + 1).
    { intros q Hq. split; [apply Nat.div_lt_upper_bound; lia | apply Nat.mod_upper_bound; lia]. }
    unfold sum_all. apply nilc_sum; [|intros q Hq]; apply nilc_add; apply ND; apply NQ; nia.
  - intros ch u v Hc Hu Hv. pose proof G as (W & _).
    replace ((o * channels Fl l + ch) * (a * b) + (u * b + v)) with (o * (channels Fl l * (a * b)) + ((ch * a + u) * b + v)) by nia.
    rewrite nth_concat_const.
    + rewrite nth_map_seq by exact Ho.
      match goal with |- nilc (nth _ (tab3 ?n ?r0 ?c0 ?f) z) => change (nilc (at3 z r0 c0 (tab3 n r0 c0 f) ch u v)) end.
      rewrite at3_tab3 by auto. apply nilc_add; apply nilc_corr; intros i j Hi Hj; apply ND; auto.
    + apply Forall_forall. intros q Hq. apply in_map_iff in Hq as (o' & <- & _). apply tab3_length.
    + assert (X1 : ch * a + u < channels Fl l * a) by nia. revert X1. rewrite Nat.mul_assoc. generalize (ch * a + u) (channels Fl l * a). intros; nia.
Qed.

Lemma conv_update_inv : forall (l l' : conv Fl) a b s dw db, conv_wf Fl a b l -> update_layer Fl s (dw, db, LConv l) = Ret (LConv l') ->
  length dw = length (kernel_values l) /\ length db = length (k_biases l) /\
  kernel_values l' = zip_assign (sub_conj Fl) (kernel_values l) (map (fun e => c_mul_assign Fl e s) dw) /\
  k_biases l' = zip_assign (sub_conj Fl) (k_biases l) (map (fun e => c_mul_assign Fl e s) db).
Proof.
  intros l l' a b s dw db W U. pose proof W as (_ & _ & _ & _ & _ & WB & _ & KW).
  assert (FU : layer_full Fl (LConv l)) by (cbn; apply Forall_forall; intros m Hm; apply KW; exact Hm).
  pose proof (full_params Fl (LConv l) FU) as (P1 & P2). cbn [layer_params_len layer_values fst snd] in P1, P2.
  assert (LL : length dw = length (kernel_values l) /\ length db = length (k_biases l)).
  { unfold update_layer in U. cbn [layer_propagates conv_propagates layer_adjust] in U. unfold conv_adjust, slice_mul_mut_scalar in U.
    destruct (conv_params_len Fl l) as (nw & nb). cbn [fst snd] in P1, P2. rewrite !map_length in U.
    destruct (Nat.eqb_spec (length db) nb) as [B1|B1]; cbn in U; [|discriminate].
    destruct (Nat.eqb_spec (length dw) nw) as [B2|B2]; cbn in U; [|discriminate]. split; congruence. }
  destruct LL as (LL1 & LL2). destruct (update_ok Fl s (LConv l) dw db FU LL1 LL2) as (l2 & U2 & _ & V). rewrite U in U2. injection U2 as <-.
  cbn [layer_values fst snd] in V. split; [exact LL1|]. split; [exact LL2|]. split; congruence.
Qed.

Theorem dead_filter_step : forall n g g' data f lr n' r k a b (l : conv Fl) o, fit_all Fl n g g' -> Forall (trainable Fl) n -> batch_for Fl g g' data ->
  nth_error n k = Some (LConv l) -> conv_wf Fl a b l -> o < filters Fl l ->
  (forall x ms i j, In x (ds_inputs data) -> arrives Fl p n k x (IOMatrix ms) ->
     i < sh0 (nth 0 ms m_new) - a + 1 -> j < sh1 (nth 0 ms m_new) - b + 1 -> off Fl (k_func l) (cpre Fl a b l ms o i j)) ->
  net_gradient_opt Fl p n data f lr = Ret (n', Ok r) ->
  exists l', nth_error n' k = Some (LConv l') /\ arch_of Fl (LConv l') = arch_of Fl (LConv l) /\
    Forall2 keptc (filter_params Fl a b l o) (filter_params Fl a b l' o).
Proof.
  intros n g g' data f lr n' r k a b l o FA TR BF K W Ho O E.
  destruct (step_quiet n data f lr n' r k (LConv l)
     (fun q => exists ch u v, ch < channels Fl l /\ u < a /\ v < b /\ q = (o * channels Fl l + ch) * (a * b) + (u * b + v)) (fun q => q = o) K eq_refl)
    as (s & dw & db & l' & K' & U & Q1 & Q2); [|exact E|].
  - intros x t ws bs HI P. destruct BF as (_ & BI & BT).
    assert (HX : In x (ds_inputs data)) by (eapply in_combine_l; exact HI). assert (HT : In t (ds_target data)) by (eapply in_combine_r; exact HI).
    destruct (pgrad_geom n g g' f x t ws bs k _ FA TR (BI x HX) (BT t HT) P K eq_refl) as (v & g0 & g1 & h & hc & dw & db & e & ec & A & FT & GV & L1 & L2 & D & E1 & E2).
    inversion FT as [|? a' b' r0 c0 W' NM Ra Rb| |]; subst.
    assert (AB : a' = a /\ b' = b).
    { destruct (kernel_nth Fl a b l 0 0 W) as (_ & S0 & S1); [apply W .. |]. destruct (kernel_nth Fl a' b' l 0 0 W') as (_ & S2 & S3); [apply W .. |]. split; congruence. }
    destruct AB as (-> & ->). destruct v as [v|ms]; [contradiction|]. cbn [has_geom gsize] in GV, L1, L2. cbn [layer_derivatives] in D.
    pose proof W as (_ & _ & C1 & _). destruct (maps_nth Fl _ r0 c0 ms 0 GV ltac:(lia)) as (_ & S0 & S1).
    destruct (conv_quiet a b r0 c0 l ms h hc (nth k ws []) (nth k bs []) e ec o (Logic.conj W (Logic.conj GV (Logic.conj Ra Rb))) Ho L1 L2) with (2 := D) as (N1 & N2).
    { intros i j Hi Hj. apply (O x ms i j HX A); rewrite ?S0, ?S1; assumption. }
    split; [intros q (ch & u & v & H1 & H2 & H3 & ->); auto | intros q ->; auto].
  - assert (AR : arch_of Fl l' = arch_of Fl (LConv l)) by (eapply update_arch; exact U).
    destruct l' as [l'|l'|l'|l']; try discriminate. exists l'. split; [exact K'|]. split; [exact AR|].
    destruct (arch_conv Fl a b l' l AR W) as (W' & EF & EC & _).
    pose proof (conv_update_inv l l' a b s dw db W U) as (L1 & L2 & V1 & V2). unfold filter_params. rewrite EC. constructor.
    + pose proof W as (_ & _ & _ & _ & _ & WB & _). rewrite V2, (zip_nth _ _ _ _ _ (c_mul_assign Fl z s)) by (rewrite ?map_length; lia). apply kept_sub_conj.
      rewrite (map_nth (fun e => c_mul_assign Fl e s)). apply nilc_mul_assign, Q2. reflexivity.
    + rewrite !tab3_rows. apply Forall2_concat_tab. intros q v Hq Hv. assert (A0 : a <> 0) by (intros ->; lia).
      assert (Hc : q / a < channels Fl l) by (apply Nat.div_lt_upper_bound; lia). assert (Hu : q mod a < a) by now apply Nat.mod_upper_bound.
      destruct (kval_values a b l o _ _ v W Ho Hc Hu Hv) as (B1 & <-).
      destruct (kval_values a b l' o (q / a) (q mod a) v W' ltac:(lia) ltac:(lia) Hu Hv) as (B2 & <-). rewrite EC.
      rewrite V1, (zip_nth _ _ _ _ _ (c_mul_assign Fl z s)) by (rewrite ?map_length; lia). apply kept_sub_conj.
      rewrite (map_nth (fun e => c_mul_assign Fl e s)). apply nilc_mul_assign, Q1. exists (q / a), (q mod a), v. auto.
Qed.

(** ** Any number of steps *)
Context (bad : F Fl -> Prop) (same : F Fl -> F Fl -> Prop).
Context (Kcase : forall a b, kept a b -> bad b \/ same a b).
Context (Bsub : forall a x, bad a -> bad (fsub Fl a x)).
Context (Srefl : forall a, same a a) (Strans : forall a b c, same a b -> same b c -> same a c).
Context (Sadd : forall a b c d, same a b -> same c d -> same (fadd Fl a c) (fadd Fl b d)).
Context (Ssub : forall a b c d, same a b -> same c d -> same (fsub Fl a c) (fsub Fl b d)).
Context (Smul : forall a b c d, same a b -> same c d -> same (fmul Fl a c) (fmul Fl b d)).
Context (Slt : forall a b, same a b -> fltb Fl a (fzero Fl) = true -> fltb Fl b (fzero Fl) = true).
Context (Lsign : forall a, fltb Fl a (fzero Fl) = true -> fsignneg Fl a = true).

Definition badc (a : C) : Prop := bad (re a) \/ bad (im a).
Definition samec (a b : C) : Prop := same (re a) (re b) /\ same (im a) (im b).

Lemma samec_refl : forall a, samec a a. Proof. intros a. split; apply Srefl. Qed.
Lemma samec_trans : forall a b c, samec a b -> samec b c -> samec a c. Proof. intros a b c (A1 & A2) (B1 & B2). split; eapply Strans; eauto. Qed.
Lemma samec_add : forall a b c d, samec a b -> samec c d -> samec (c_add Fl a c) (c_add Fl b d).
Proof. intros a b c d (A1 & A2) (B1 & B2). split; apply Sadd; assumption. Qed.
Lemma samec_mul : forall a b c d, samec a b -> samec c d -> samec (c_mul Fl a c) (c_mul Fl b d).
Proof. intros a b c d (A1 & A2) (B1 & B2). split; [apply Ssub | apply Sadd]; apply Smul; assumption. Qed.
Lemma samec_sum : forall f g n a b, samec a b -> (forall i, i < n -> samec (f i) (g i)) -> samec (sum_from (c_add Fl) a f n) (sum_from (c_add Fl) b g n).
Proof.
  intros f g n a b A H. unfold sum_from. assert (G : forall i, In i (seq 0 n) -> samec (f i) (g i)) by (intros i Hi; apply in_seq in Hi; apply H; lia).
  revert a b A G. generalize (seq 0 n). induction l as [|i l IH]; intros a b A G; [exact A|]. cbn [fold_left].
  apply IH; [apply samec_add; [exact A | apply G; now left] | intros; apply G; now right].
Qed.

Lemma keptc_case : forall a b, keptc a b -> badc b \/ samec a b.
Proof.
  intros a b (H1 & H2). destruct (Kcase _ _ H1) as [H|S1]; [left; now left|]. destruct (Kcase _ _ H2) as [H|S2]; [left; now right | right; split; auto].
Qed.
Lemma kept_all : forall l l', Forall2 keptc l l' -> Exists badc l' \/ Forall2 samec l l'.
Proof.
  intros l l' H. induction H as [|a b l l' H HS IH]; [right; constructor|].
  destruct (keptc_case _ _ H) as [B|S]; [left; now constructor|]. destruct IH as [B|IH]; [left; now apply Exists_cons_tl | right; constructor; auto].
Qed.
Lemma bad_sub : forall a d, badc a -> badc (sub_conj Fl a d).
Proof. intros a d [H|H]; [left | right]; apply Bsub; exact H. Qed.
Lemma below_off : forall f q, below Fl f q -> off Fl f q.
Proof. intros f q H. destruct f; cbn [below off] in *; auto; [destruct H; split | destruct H; [left | right]]; apply Lsign; assumption. Qed.
Lemma below_same : forall f q q', samec q q' -> below Fl f q -> below Fl f q'.
Proof. intros f q q' (S1 & S2) H. destruct f; cbn [below] in *; auto; [destruct H; split | destruct H; [left | right]]; eapply Slt; eassumption. Qed.

Lemma same_refl_all : forall l, Forall2 samec l l.
Proof. induction l as [|a l IH]; [constructor | constructor; [apply samec_refl | exact IH]]. Qed.
Lemma same_trans_all : forall l l' l'', Forall2 samec l l' -> Forall2 samec l' l'' -> Forall2 samec l l''.
Proof. intros l l' l'' H. revert l''. induction H; intros l2 H2; inversion H2; subst; constructor; eauto using samec_trans. Qed.

Lemma same_pre : forall (l l' : dense Fl) i v, inputs Fl l' = inputs Fl l -> Forall2 samec (unit_params Fl l i) (unit_params Fl l' i) -> samec (pre Fl l v i) (pre Fl l' v i).
Proof.
  intros l l' i v EI H. unfold unit_params in H. inversion H as [|? ? ? ? HB HW]; subst. unfold pre. rewrite EI in HW |- *. apply samec_add; [|exact HB].
  apply samec_sum; [apply samec_refl|]. intros j Hj. apply samec_mul; [|apply samec_refl].
  assert (G : forall js, Forall2 samec (map (weight Fl l i) js) (map (weight Fl l' i) js) -> forall j, In j js -> samec (weight Fl l i j) (weight Fl l' i j)).
  { clear. induction js as [|a js IH]; intros H j Hj; [destruct Hj|]. inversion H; subst. destruct Hj as [->|Hj]; auto. }
  apply (G _ HW). apply in_seq. lia.
Qed.

(** A spoilt parameter of a unit stays spoilt. *)
Lemma unit_bad : forall n data f lr n' r k (l : dense Fl) i, nth_error n k = Some (LDense l) -> dense_wf Fl l -> i < units Fl l ->
  Exists badc (unit_params Fl l i) -> net_gradient_opt Fl p n data f lr = Ret (n', Ok r) ->
  exists l', nth_error n' k = Some (LDense l') /\ arch_of Fl (LDense l') = arch_of Fl (LDense l) /\ Exists badc (unit_params Fl l' i).
Proof.
  intros n data f lr n' r k l i K W Hi B E.
  destruct (step_quiet n data f lr n' r k (LDense l) (fun _ => False) (fun _ => False) K eq_refl) as (s & dw & db & l' & K' & U & _); [|exact E|].
  { intros. split; intros q []. }
  assert (AR : arch_of Fl l' = arch_of Fl (LDense l)) by (eapply update_arch; exact U).
  destruct l' as [l'|l'|l'|l']; try discriminate. exists l'. split; [exact K'|]. split; [exact AR|].
  destruct (update_dense_inv Fl s dw db l l' U) as (L1 & L2 & V1 & V2).
  destruct (arch_dense Fl l' l AR W) as (W' & EU & EI & _). destruct W as (W1 & W2 & W3).
  unfold unit_params in *. rewrite EI. apply Exists_cons in B as [B|B].
  - constructor. rewrite V2, (zip_nth _ _ _ _ _ z) by (rewrite ?map_length; unfold units in *; lia). now apply bad_sub.
  - apply Exists_cons_tl. apply Exists_exists in B as (c & Hc & B). apply in_map_iff in Hc as (j & <- & Hj). apply Exists_exists.
    exists (weight Fl l' i j). split; [now apply in_map|]. apply in_seq in Hj. unfold weight, entry in *.
    assert (ES : sh1 (d_weights l') = inputs Fl l) by exact EI. rewrite ES. change (sh1 (d_weights l)) with (inputs Fl l) in B.
    assert (B0 : i * inputs Fl l + j < length (body (d_weights l))) by (rewrite W1; unfold units, inputs in *; nia).
    rewrite V1, (zip_nth _ _ _ _ _ z) by (rewrite ?map_length; lia). now apply bad_sub.
Qed.

Theorem dead_unit_forever : forall steps n n' (l : dense Fl) i, nth_error n 0 = Some (LDense l) -> dense_wf Fl l -> i < units Fl l ->
  (forall d f lr v, In (d, f, lr) steps -> In (IOScalar v) (ds_inputs d) -> below Fl (d_func l) (pre Fl l v i)) ->
  train_steps Fl p n steps = Ret n' ->
  exists l', nth_error n' 0 = Some (LDense l') /\ arch_of Fl (LDense l') = arch_of Fl (LDense l) /\
    (Exists badc (unit_params Fl l' i) \/
     Forall2 samec (unit_params Fl l i) (unit_params Fl l' i) /\ forall v, below Fl (d_func l) (pre Fl l v i) -> below Fl (d_func l') (pre Fl l' v i)).
Proof.
  intros steps n n' l i K W Hi H E.
  assert (G : forall steps n m, nth_error n 0 = Some (LDense m) -> arch_of Fl (LDense m) = arch_of Fl (LDense l) ->
    (forall d f lr v, In (d, f, lr) steps -> In (IOScalar v) (ds_inputs d) -> below Fl (d_func l) (pre Fl l v i)) ->
    (Exists badc (unit_params Fl m i) \/ Forall2 samec (unit_params Fl l i) (unit_params Fl m i)) -> train_steps Fl p n steps = Ret n' ->
    exists l', nth_error n' 0 = Some (LDense l') /\ arch_of Fl (LDense l') = arch_of Fl (LDense l) /\
      (Exists badc (unit_params Fl l' i) \/ Forall2 samec (unit_params Fl l i) (unit_params Fl l' i))).
  { clear K H E n steps. induction steps as [|[[d f] lr] steps IH]; intros n m K A H S E; cbn [train_steps] in E.
    - injection E as ->. eauto.
    - apply obind_inv in E as ((n1 & r) & E1 & E). cbn [fst snd] in E. destruct r as [[]|]; [|discriminate].
      destruct (arch_dense Fl m l A W) as (W' & EU & EI & EF).
      assert (N : exists l1, nth_error n1 0 = Some (LDense l1) /\ arch_of Fl (LDense l1) = arch_of Fl (LDense m) /\
        (Exists badc (unit_params Fl l1 i) \/ Forall2 samec (unit_params Fl l i) (unit_params Fl l1 i))).
      { destruct S as [S|S].
        - destruct (unit_bad n d f lr n1 tt 0 m i K W' ltac:(lia) S E1) as (l1 & K1 & A1 & B1). eauto.
        - destruct (dead_unit_step n d f lr n1 tt 0 m i K W' ltac:(lia)) as (l1 & K1 & A1 & B1); [|exact E1|].
          + intros x v Hx (vs & T & LS). cbn [firstn] in T. inversion T; subst. cbn [last] in LS. subst x.
            apply below_off. rewrite EF. apply (below_same _ (pre Fl l v i)); [now apply same_pre|]. apply (H d f lr v); [now left | exact Hx].
          + exists l1. split; [exact K1|]. split; [exact A1|]. destruct (kept_all _ _ B1) as [B|B]; [now left | right; eapply same_trans_all; eauto]. }
      destruct N as (l1 & K1 & A1 & B1). apply (IH n1 l1 K1); auto; [congruence|]. intros d' f' lr' v Hs. apply (H d' f' lr' v). now right. }
  destruct (G steps n l K eq_refl H) as (l' & K' & A' & S); [right; apply same_refl_all | exact E|].
  exists l'. split; [exact K'|]. split; [exact A'|]. destruct S as [S|S]; [now left | right]. split; [exact S|].
  destruct (arch_dense Fl l' l A' W) as (_ & _ & EI & EF). intros v B. rewrite EF. apply (below_same _ (pre Fl l v i)); [apply same_pre; assumption | exact B].
Qed.

(** The same for a filter of a first convolutional layer. *)
Lemma same_cpre : forall a b (l l' : conv Fl) o ms i j, channels Fl l' = channels Fl l -> Forall2 samec (filter_params Fl a b l o) (filter_params Fl a b l' o) ->
  samec (cpre Fl a b l ms o i j) (cpre Fl a b l' ms o i j).
Proof.
  intros a b l l' o ms i j EC H. unfold filter_params in H. inversion H as [|? ? ? ? HB HW]; subst. unfold cpre. rewrite EC in HW |- *.
  apply samec_add; [|exact HB]. apply samec_sum; [apply samec_refl|]. intros ch Hc. unfold corr.
  change (add_assign (cops Fl)) with (c_add Fl). change (add (cops Fl)) with (c_add Fl). change (mul (cops Fl)) with (c_mul Fl).
  apply samec_sum; [apply samec_refl|]. intros u Hu. apply samec_sum; [apply samec_refl|]. intros v Hv. apply samec_mul; [apply samec_refl|].
  assert (G : forall (x y : list C) k, Forall2 samec x y -> samec (nth k x z) (nth k y z)).
  { clear - Srefl. intros x y k H. revert k. induction H; intros [|k]; cbn [nth]; auto using samec_refl. }
  rewrite <- (at3_tab3 z (channels Fl l) a b (kval Fl l o) ch u v Hc Hu Hv). rewrite <- (at3_tab3 z (channels Fl l) a b (kval Fl l' o) ch u v Hc Hu Hv).
  apply G, HW.
Qed.

Lemma filter_bad : forall n data f lr n' r k a b (l : conv Fl) o, nth_error n k = Some (LConv l) -> conv_wf Fl a b l -> o < filters Fl l ->
  Exists badc (filter_params Fl a b l o) -> net_gradient_opt Fl p n data f lr = Ret (n', Ok r) ->
  exists l', nth_error n' k = Some (LConv l') /\ arch_of Fl (LConv l') = arch_of Fl (LConv l) /\ Exists badc (filter_params Fl a b l' o).
Proof.
  intros n data f lr n' r k a b l o K W Ho B E.
  destruct (step_quiet n data f lr n' r k (LConv l) (fun _ => False) (fun _ => False) K eq_refl) as (s & dw & db & l' & K' & U & _); [|exact E|].
  { intros. split; intros q []. }
  assert (AR : arch_of Fl l' = arch_of Fl (LConv l)) by (eapply update_arch; exact U).
  destruct l' as [l'|l'|l'|l']; try discriminate. exists l'. split; [exact K'|]. split; [exact AR|].
  destruct (arch_conv Fl a b l' l AR W) as (W' & EF & EC & _).
  pose proof (conv_update_inv l l' a b s dw db W U) as (L1 & L2 & V1 & V2).
  unfold filter_params in *. rewrite EC. apply Exists_cons in B as [B|B].
  - constructor. pose proof W as (_ & _ & _ & _ & _ & WB & _). rewrite V2, (zip_nth _ _ _ _ _ z) by (rewrite ?map_length; lia). now apply bad_sub.
  - apply Exists_cons_tl. rewrite tab3_rows in B |- *. apply Exists_exists in B as (c & Hc & B).
    apply in_concat_tab in Hc as (q & v & Hq & Hv & ->). assert (A0 : a <> 0) by (intros ->; lia).
    assert (Hch : q / a < channels Fl l) by (apply Nat.div_lt_upper_bound; lia). assert (Hu : q mod a < a) by now apply Nat.mod_upper_bound.
    apply Exists_exists. exists (kval Fl l' o (q / a) (q mod a) v). split; [apply in_concat_tab; eauto 6|].
    destruct (kval_values a b l o _ _ v W Ho Hch Hu Hv) as (B1 & E1). rewrite <- E1 in B.
    destruct (kval_values a b l' o (q / a) (q mod a) v W' ltac:(lia) ltac:(lia) Hu Hv) as (B2 & E2). rewrite <- E2, EC.
    rewrite V1, (zip_nth _ _ _ _ _ z) by (rewrite ?map_length; lia). now apply bad_sub.
Qed.

Theorem dead_filter_forever : forall steps n n' g g' a b (l : conv Fl) o, fit_all Fl n g g' -> Forall (trainable Fl) n ->
  nth_error n 0 = Some (LConv l) -> conv_wf Fl a b l -> o < filters Fl l ->
  (forall d f lr, In (d, f, lr) steps -> batch_for Fl g g' d) ->
  (forall d f lr ms, In (d, f, lr) steps -> In (IOMatrix ms) (ds_inputs d) -> filter_below Fl a b l o ms) ->
  train_steps Fl p n steps = Ret n' ->
  exists l', nth_error n' 0 = Some (LConv l') /\ arch_of Fl (LConv l') = arch_of Fl (LConv l) /\
    (Exists badc (filter_params Fl a b l' o) \/
     Forall2 samec (filter_params Fl a b l o) (filter_params Fl a b l' o) /\ forall ms, filter_below Fl a b l o ms -> filter_below Fl a b l' o ms).
Proof.
  intros steps n n' g g' a b l o FA TR K W Ho HB H E.
  assert (G : forall steps n m, fit_all Fl n g g' -> Forall (trainable Fl) n -> nth_error n 0 = Some (LConv m) -> arch_of Fl (LConv m) = arch_of Fl (LConv l) ->
    (forall d f lr, In (d, f, lr) steps -> batch_for Fl g g' d) ->
    (forall d f lr ms, In (d, f, lr) steps -> In (IOMatrix ms) (ds_inputs d) -> filter_below Fl a b l o ms) ->
    (Exists badc (filter_params Fl a b m o) \/ Forall2 samec (filter_params Fl a b l o) (filter_params Fl a b m o)) -> train_steps Fl p n steps = Ret n' ->
    exists l', nth_error n' 0 = Some (LConv l') /\ arch_of Fl (LConv l') = arch_of Fl (LConv l) /\
      (Exists badc (filter_params Fl a b l' o) \/ Forall2 samec (filter_params Fl a b l o) (filter_params Fl a b l' o))).
  { clear FA TR K H HB E n steps. induction steps as [|[[d f] lr] steps IH]; intros n m FA TR K A HB H S E; cbn [train_steps] in E.
    - injection E as ->. eauto.
    - apply obind_inv in E as ((n1 & r) & E1 & E). cbn [fst snd] in E. destruct r as [[]|]; [|discriminate].
      destruct (arch_conv Fl a b m l A W) as (W' & EU & EC & EF).
      assert (AN : map (arch_of Fl) n1 = map (arch_of Fl) n).
      { clear - E1. unfold net_gradient_opt in E1. destruct (length n <=? 1); [discriminate|].
        apply obind_inv in E1 as ((W & B) & EG & E). apply obind_inv in E as (s & ES & E). apply obind_inv in E as (m & EM & E). injection E as ->. cbn [fst snd] in EM.
        destruct (gradient_lengths Fl p n d f W B EG) as (L1 & L2). destruct (grad_zero_length Fl n) as (G1 & G2).
        apply (f_equal (@length nat)) in L1. apply (f_equal (@length nat)) in L2. rewrite !map_length in L1, L2. rewrite G1 in L1. rewrite G2 in L2.
        clear EG ES G1 G2. revert W B n1 L1 L2 EM. induction n as [|l n IH]; intros [|w W] [|b0 B] n1 L1 L2 EM; try discriminate.
        - injection EM as <-. reflexivity.
        - cbn [combine mapM] in EM. apply obind_inv in EM as (l' & U & EM). apply obind_inv in EM as (r & E2 & EM). injection EM as <-.
          cbn [map]. f_equal; [eapply update_arch; exact U | apply (IH W B r); cbn in *; auto]. }
      assert (N : exists l1, nth_error n1 0 = Some (LConv l1) /\ arch_of Fl (LConv l1) = arch_of Fl (LConv m) /\
        (Exists badc (filter_params Fl a b l1 o) \/ Forall2 samec (filter_params Fl a b l o) (filter_params Fl a b l1 o))).
      { destruct S as [S|S].
        - destruct (filter_bad n d f lr n1 tt 0 a b m o K W' ltac:(lia) S E1) as (l1 & K1 & A1 & B1). eauto.
        - destruct (dead_filter_step n g g' d f lr n1 tt 0 a b m o FA TR (HB d f lr (or_introl eq_refl)) K W' ltac:(lia)) as (l1 & K1 & A1 & B1); [|exact E1|].
          + intros x ms i j Hx (vs & T & LS) Hi Hj. cbn [firstn] in T. inversion T; subst. cbn [last] in LS. subst x.
            apply below_off. rewrite EF. apply (below_same _ (cpre Fl a b l ms o i j)); [now apply same_cpre|]. apply (H d f lr ms); auto. now left.
          + exists l1. split; [exact K1|]. split; [exact A1|]. destruct (kept_all _ _ B1) as [B|B]; [now left | right; eapply same_trans_all; eauto]. }
      destruct N as (l1 & K1 & A1 & B1). apply (IH n1 l1); auto; [eapply fit_all_arch; eauto | eapply trainable_all_arch; eauto | congruence | |].
      + intros d' f' lr' Hs. apply (HB d' f' lr'). now right.
      + intros d' f' lr' ms Hs. apply (H d' f' lr' ms). now right. }
  destruct (G steps n l FA TR K eq_refl HB H) as (l' & K' & A' & S); [right; apply same_refl_all | exact E|].
  exists l'. split; [exact K'|]. split; [exact A'|]. destruct S as [S|S]; [now left | right]. split; [exact S|].
  destruct (arch_conv Fl a b l' l A' W) as (_ & _ & EC & EF). intros ms B i j Hi Hj. rewrite EF. apply (below_same _ (cpre Fl a b l ms o i j)); [apply same_cpre; assumption | apply B; auto].
Qed.
End Dead.
