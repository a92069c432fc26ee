(** * Rounding errors of layers and networks *)
From Coq Require Import ZArith Reals Lra Psatz.
From Flocq Require Import Core BinarySingleNaN.
From Verif Require Import Base BaseFacts Float Matrix Cplx Random Act Input Loss Dense Conv Layer Dataset Network Examples RFloat BFloat BFacts CFacts
  SpecMatrix MatrixFacts MatrixFacts2 SpecLayer SpecConv SpecNet SpecGeom DenseFacts LayerFacts ConvFacts PoolFacts NetFacts TrainFacts TrainDense
  GeomFacts SpecRound RoundFacts RoundAct PropAct PropMatrix PropDense PropConv PropPool.
Local Notation re := Cplx.re. Local Notation im := Cplx.im.
Local Notation P32 := Float.P32. Local Notation P64 := Float.P64.
Local Open Scope nat_scope.

(** ** Values of feature maps *)
Lemma maps_at : forall {T} (d : T) n r c (ms : list (matrix T)) o i j, maps_wf n r c ms -> o < n -> i < r -> j < c ->
  nth ((o * r + i) * c + j) (map_values ms) d = px d ms o i j.
Proof.
  intros T d n r c ms o i j (L & H) Ho Hi Hj.
  assert (E : map_values ms = tab3 n r c (px d ms)).
  { unfold map_values, tab3. rewrite (list_eq_map_nth m_new ms) at 1. rewrite L, map_map. f_equal. apply map_seq_ext. intros q Hq.
    destruct (H (nth q ms m_new)) as (W & E0 & E1); [apply nth_In; lia|]. rewrite (wf_body d _ W), E0, E1. reflexivity. }
  rewrite E. exact (at3_tab3 d n r c (px d ms) o i j Ho Hi Hj).
Qed.

Lemma index3 : forall n r c k, k < n * (r * c) -> exists o i j, o < n /\ i < r /\ j < c /\ k = (o * r + i) * c + j.
Proof.
  intros n r c k H. assert (c <> 0) by (intros ->; lia). assert (r <> 0) by (intros ->; lia).
  pose proof (Nat.div_mod k c ltac:(auto)) as Q1. pose proof (Nat.mod_upper_bound k c ltac:(auto)).
  pose proof (Nat.div_mod (k / c) r ltac:(auto)) as Q2. pose proof (Nat.mod_upper_bound (k / c) r ltac:(auto)).
  exists (k / c / r), ((k / c) mod r), (k mod c). assert (k / c / r < n).
  { apply Nat.div_lt_upper_bound; auto. apply Nat.div_lt_upper_bound; auto. lia. }
  repeat split; auto. rewrite (Nat.mul_comm (k / c / r) r), <- Q2, (Nat.mul_comm (k / c) c). exact Q1.
Qed.

Lemma index3_lt : forall n r c o i j, o < n -> i < r -> j < c -> (o * r + i) * c + j < n * (r * c).
Proof. intros n r c o i j Ho Hi Hj. assert (o * r + i < n * r) by nia. rewrite Nat.mul_assoc. generalize dependent (o * r + i). generalize (n * r). intros. nia. Qed.

Lemma nth_map_lt : forall {A B} (f : A -> B) l i d d', i < length l -> nth i (map f l) d' = f (nth i l d).
Proof. intros A B f l i d d' H. rewrite (nth_indep _ d' (f d)) by now rewrite map_length. apply map_nth. Qed.

Lemma nth_map_seq : forall {A} (f : nat -> A) n i d, i < n -> nth i (map f (seq 0 n)) d = f i.
Proof. intros A f n i d H. rewrite (nth_map_lt f _ i 0) by now rewrite seq_length. now rewrite seq_nth. Qed.

Section RoundNet.
Context (prec emax : Z) (Hp : Prec_gt_0 prec) (He : Prec_lt_emax prec emax) (L : libm (binary_float prec emax)) (p : Float.prec) (et ee : R).
Local Notation B := (binary_float prec emax).
Local Notation Fl := (BOps prec emax Hp He L).
Local Notation z := (c_default Fl).
Local Notation uu := (SpecRound.uu prec).
Local Notation eta := (SpecRound.eta prec emax).
Local Notation omega := (SpecRound.omega emax).
Local Notation cclose := (RoundFacts.cclose prec emax).
Local Notation fit := (RoundFacts.fit prec emax).
Context (HC : literals prec emax Hp He L p).

Local Notation t3 := (both (3 * eta)%R).

Lemma cval_zero : cval (z : cplx B) = 0%RC.
Proof. reflexivity. Qed.

Lemma cval_nth : forall (l : list (cplx B)) i, nth i (map cval l) 0%RC = cval (nth i l z).
Proof. intros l i. rewrite <- cval_zero. apply (map_nth cval). Qed.

Lemma add_zero : forall w : RC, (w + 0)%RC = w.
Proof. intros [a b]. apply c_ext; cbn; ring. Qed.
Lemma both_nneg : forall t, (0 <= t)%R -> cle 0%RC (both t).
Proof. intros t H. split; cbn; exact H. Qed.
Lemma t3_nneg : cle 0%RC t3.
Proof. apply both_nneg. pose proof (eta_pos prec emax). lra. Qed.
Lemma cabs_nneg : forall w, cle 0%RC (cabs w).
Proof. intros [a b]. split; cbn; apply Rabs_pos. Qed.
Lemma cle_plus_l : forall a b, cle 0%RC b -> cle a (a + b)%RC.
Proof. intros [] [] []. split; cbn in *; lra. Qed.
Lemma cle_plus_nneg : forall a b, cle 0%RC a -> cle 0%RC b -> cle 0%RC (a + b)%RC.
Proof. intros [] [] [] []. split; cbn in *; lra. Qed.
Lemma amul_nneg : forall w m, cle 0%RC m -> cle 0%RC (amul w m).
Proof.
  intros [w1 w2] [m1 m2] [A C]. cbn in A, C. pose proof (Rabs_pos w1). pose proof (Rabs_pos w2).
  split; cbn; apply Rplus_le_le_0_compat; now apply Rmult_le_pos.
Qed.

(** A product, fitting because what it is added into fits. *)
Lemma cclose_mul_le : forall k K M c A S w x r, cfinite w -> cclose k M c x r -> fit K A S -> k + 2 <= K ->
  cle (amul (cval w) M) A -> cle (amul (cval w) c + t3)%RC S ->
  cclose (k + 2) (amul (cval w) M) (amul (cval w) c + t3)%RC (c_mul Fl w x) (cval w * r)%RC /\
  cclose (k + 2) (amul (cval w) M) (amul (cval w) c + t3)%RC (c_mul Fl x w) (r * cval w)%RC.
Proof.
  intros k K M c A S w x r W X F LE LA LS. apply cclose_mul; auto. pose proof (cclose_nneg _ _ _ _ _ _ _ X) as (N1 & N2).
  eapply fit_weaken; eauto; [now apply amul_nneg | apply cle_plus_nneg; [now apply amul_nneg | apply t3_nneg]].
Qed.

(** A sum of terms plus an exact number. *)
Lemma cclose_affine : forall k n f g M c bw, (forall i, i < n -> cclose k (M i) (c i) (f i) (g i)) -> cfinite bw ->
  fit (k + n + 1) (csum M n + cabs (cval bw))%RC (csum c n + 0)%RC ->
  cclose (k + n + 1) (csum M n + cabs (cval bw))%RC (csum c n + 0)%RC (c_add Fl (sum_from (c_add Fl) z f n) bw) (csum g n + cval bw)%RC.
Proof.
  intros k n f g M c bw H W F.
  assert (NM : cle 0%RC (csum M n)) by (apply csum_nneg; intros i I; exact (proj1 (cclose_nneg _ _ _ _ _ _ _ (H i I)))).
  assert (NC : cle 0%RC (csum c n)) by (apply csum_nneg; intros i I; exact (proj2 (cclose_nneg _ _ _ _ _ _ _ (H i I)))).
  replace (k + n + 1) with (S (k + n)) in * by lia. apply cclose_add; [| |exact F].
  - apply cclose_sum; [exact H|]. eapply fit_weaken; [exact F|lia| | |exact NM|exact NC]; apply cle_plus_l; [apply cabs_nneg | apply cle_refl].
  - eapply cclose_weaken; [apply cclose_exact; exact W|lia|apply cle_refl|apply cle_refl].
Qed.

(** ** Relation between the two computations *)
Definition near (g : geometry) (b : budget) (x : IOType (cplx B)) (r : IOType RC) : Prop :=
  has_geom g x /\ has_geom g r /\
  forall i, i < gsize g -> cclose (order b) (nth i (mag b) 0%RC) (nth i (slack b) 0%RC) (nth i (vals x) z) (nth i (vals r) 0%RC).

Lemma near_maps : forall n r c b x x', near (Maps n r c) b (IOMatrix x) (IOMatrix x') -> forall o i j, o < n -> i < r -> j < c ->
  cclose (order b) (at3 0%RC r c (mag b) o i j) (at3 0%RC r c (slack b) o i j) (px z x o i j) (px 0%RC x' o i j).
Proof.
  intros n r c b x x' (GX & GR & H) o i j Ho Hi Hj. cbn [has_geom vals] in *.
  specialize (H _ (index3_lt n r c o i j Ho Hi Hj)). rewrite (maps_at z n r c x), (maps_at 0%RC n r c x') in H by auto. exact H.
Qed.

Lemma maps_near : forall n r c b x x', maps_wf n r c x -> maps_wf n r c x' -> (forall o i j, o < n -> i < r -> j < c ->
  cclose (order b) (at3 0%RC r c (mag b) o i j) (at3 0%RC r c (slack b) o i j) (px z x o i j) (px 0%RC x' o i j)) ->
  near (Maps n r c) b (IOMatrix x) (IOMatrix x').
Proof.
  intros n r c b x x' W W' H. split; [exact W|]. split; [exact W'|]. intros k K. cbn [gsize vals] in *.
  destruct (index3 n r c k K) as (o & i & j & Ho & Hi & Hj & ->). rewrite (maps_at z n r c x), (maps_at 0%RC n r c x') by auto. now apply H.
Qed.

Lemma px_tab : forall {T} (d : T) n r c (f : nat -> nat -> nat -> T) o i j, o < n -> i < r -> j < c ->
  px d (map (fun o => mat r c (f o)) (seq 0 n)) o i j = f o i j.
Proof. intros T d n r c f o i j Ho Hi Hj. unfold px. rewrite nth_map_seq by auto. now apply entry_mat. Qed.

(** ** Dense layers *)
Lemma exact_weight : forall (l : dense Fl) i j,
  weight ROps (mkDense ROps (mval (d_weights l)) (map cval (d_biases l)) (d_func l)) i j = cval (weight Fl l i j).
Proof. intros l i j. unfold weight, entry. cbn [d_weights mval body sh1]. exact (cval_nth (body (d_weights l)) _). Qed.

Lemma finite_nth : forall (l : list (cplx B)) i, Forall cfinite l -> cfinite (nth i l z).
Proof.
  intros l i H. destruct (Nat.lt_ge_cases i (length l)) as [I|I]; [apply (proj1 (Forall_forall _ _) H); now apply nth_In|].
  rewrite nth_overflow by lia. split; reflexivity.
Qed.

Lemma dense_near : forall (l : dense Fl) b x x', dense_wf Fl l -> covered prec emax Hp He L (LDense l) -> (uses_libm prec emax Hp He L (LDense l) -> libm_within prec emax L et ee) ->
  near (Vec (inputs Fl l)) b (IOScalar x) (IOScalar x') -> headroom prec emax Hp He L (LDense l) (Vec (inputs Fl l)) b ->
  exists y y', layer_forward Fl p (LDense l) (IOScalar x) = Ret (Ok y) /\
    layer_forward ROps p (exact_layer prec emax Hp He L (LDense l)) (IOScalar x') = Ret (Ok y') /\
    near (Vec (units Fl l)) (layer_budget prec emax Hp He L p et ee (LDense l) (Vec (inputs Fl l)) b) y y'.
Proof.
  intros l b x x' W (PL & FW & FB) HL (GX & GR & H) HR. cbn [has_geom vals gsize exact_layer layer_forward] in *.
  set (l' := mkDense ROps (mval (d_weights l)) (map cval (d_biases l)) (d_func l)).
  assert (W' : dense_wf ROps l') by (destruct W as (W1 & W2 & W3); repeat split; cbn; [unfold wf in *; cbn; now rewrite map_length | now rewrite map_length | exact W3]).
  set (K := order b). set (n := inputs Fl l) in *.
  set (MM := fun i j => amul (cval (weight Fl l i j)) (nth j (mag b) 0%RC)). set (CC := fun i j => (amul (cval (weight Fl l i j)) (nth j (slack b) 0%RC) + t3)%RC).
  assert (Z0 : forall i j, (MM i j + 0)%RC = MM i j) by (intros i j; apply c_ext; cbn; ring).
  assert (PM : forall i, i < units Fl l -> nth i (pre_mag prec emax Hp He L (LDense l) (Vec n) b) 0%RC = (csum (MM i) n + cabs (cval (nth i (d_biases l) z)))%RC).
  { intros i I. unfold pre_mag, through. rewrite nth_map_seq by auto. f_equal. apply csum_ext. intros j J. apply Z0. }
  assert (PS : forall i, i < units Fl l -> nth i (pre_slack prec emax Hp He L (LDense l) (Vec n) b) 0%RC = (csum (CC i) n + 0)%RC).
  { intros i I. unfold pre_slack, through. rewrite nth_map_seq by auto. reflexivity. }
  assert (PRE : forall i, i < units Fl l -> cclose (K + n + 3) (csum (MM i) n + cabs (cval (nth i (d_biases l) z)))%RC (csum (CC i) n + 0)%RC (pre Fl l x i) (pre ROps l' x' i)).
  { intros i I. specialize (HR i I). cbn [layer_peak layer_order] in HR. rewrite PM, PS, !Rmult_1_l in HR by auto. fold K n in HR.
    replace (K + (n + 3)) with (K + n + 3) in HR by lia. change (fit (K + n + 3) (csum (MM i) n + cabs (cval (nth i (d_biases l) z)))%RC (csum (CC i) n + 0)%RC) in HR.
    assert (NM : forall j, j < n -> cle 0%RC (MM i j)) by (intros j J; apply amul_nneg; exact (proj1 (cclose_nneg _ _ _ _ _ _ _ (H j J)))).
    assert (NC : forall j, j < n -> cle 0%RC (CC i j)) by (intros j J; apply cle_plus_nneg; [apply amul_nneg; exact (proj2 (cclose_nneg _ _ _ _ _ _ _ (H j J))) | apply t3_nneg]).
    unfold pre. change (inputs ROps l') with n. replace (nth i (d_biases l') (c_default ROps)) with (cval (nth i (d_biases l) z)) by (symmetry; apply cval_nth).
    replace (K + n + 3) with (K + 2 + n + 1) in * by lia.
    change (sum_from (c_add ROps) (c_default ROps) (fun j => c_mul ROps (weight ROps l' i j) (nth j x' (c_default ROps))) n) with
      (csum (fun j => weight ROps l' i j * nth j x' 0)%RC n).
    rewrite (csum_ext (fun j => weight ROps l' i j * nth j x' 0)%RC (fun j => cval (weight Fl l i j) * nth j x' 0)%RC) by (intros j J; unfold l'; now rewrite exact_weight).
    apply cclose_affine; [|now apply finite_nth|exact HR]. intros j J.
    refine (proj1 (cclose_mul_le K (K + 2 + n + 1) _ _ _ _ (weight Fl l i j) _ _ _ (H j J) HR _ _ _)); [now apply finite_nth | lia | |].
    - eapply cle_trans; [apply (csum_term (MM i) n j NM J) | apply cle_plus_l; apply cabs_nneg].
    - eapply cle_trans; [apply (csum_term (CC i) n j NC J) | apply cle_plus_l; apply cle_refl]. }
  destruct (pick (fun i q => activate Fl p (d_func l) (pre Fl l x i) = Ret (fst q) /\ activate ROps p (d_func l) (pre ROps l' x' i) = Ret (snd q) /\
     cclose (K + n + 3) (csum (MM i) n + cabs (cval (nth i (d_biases l) z)) + both (act_gain (d_func l)))%RC (csum (CC i) n + 0 + both (act_slack prec emax p et ee (d_func l)))%RC (fst q) (snd q))
     (units Fl l) (z, 0%RC)) as (q & Q).
  { intros i I. destruct (close_act prec emax Hp He L p et ee HC (d_func l) _ _ _ _ _ PL HL (PRE i I)) as (y & y' & E1 & E2 & E3). exists (y, y'). auto. }
  exists (IOScalar (map (fun i => fst (q i)) (seq 0 (units Fl l)))), (IOScalar (map (fun i => snd (q i)) (seq 0 (units Fl l)))).
  split; [|split].
  - apply (C40_forward Fl p l x W GX). rewrite map_length, seq_length. split; [reflexivity|]. intros i I. rewrite nth_map_seq by auto. now apply Q.
  - apply (C40_forward ROps p l' x' W' GR). rewrite map_length, seq_length. split; [reflexivity|]. intros i I. rewrite nth_map_seq by auto. now apply Q.
  - split; [cbn; now rewrite map_length, seq_length|]. split; [cbn; now rewrite map_length, seq_length|]. intros i I. cbn [gsize vals order mag slack layer_budget layer_order layer_func] in *.
    rewrite !nth_map_seq by auto. unfold pre_mag, pre_slack.
    rewrite (nth_map_lt _ (through _ _ _ _ _ _ _ _ _ (mag b)) i 0%RC) by (cbn; now rewrite map_length, seq_length).
    rewrite (nth_map_lt _ (through _ _ _ _ _ _ _ _ _ (slack b)) i 0%RC) by (cbn; now rewrite map_length, seq_length).
    change (through prec emax Hp He L 0%RC cabs (LDense l) (Vec n) (mag b)) with (pre_mag prec emax Hp He L (LDense l) (Vec n) b).
    change (through prec emax Hp He L t3 (fun _ => 0%RC) (LDense l) (Vec n) (slack b)) with (pre_slack prec emax Hp He L (LDense l) (Vec n) b).
    rewrite PM, PS by auto. fold K n. replace (K + (n + 3)) with (K + n + 3) by lia. now apply Q.
Qed.

(** ** Convolutional layers *)
Lemma exact_kernel : forall (l : conv Fl) o ch u v,
  kval ROps (mkConv ROps (k_in l) (mkM (map mval (body (k_kernels l))) (sh0 (k_kernels l)) (sh1 (k_kernels l)) (cap0 (k_kernels l)) (cap1 (k_kernels l)))
    (map cval (k_biases l)) (k_func l)) o ch u v = cval (kval Fl l o ch u v).
Proof.
  intros l o ch u v. unfold kval. cbn [k_kernels]. unfold entry at 2. cbn [body sh1]. change (@m_new RC) with (mval (prec := prec) (emax := emax) m_new). rewrite (map_nth mval).
  change (nth (o * sh1 (k_kernels l) + ch) (body (k_kernels l)) m_new) with (entry m_new (k_kernels l) o ch).
  unfold entry at 1 2. exact (cval_nth _ _).
Qed.

Lemma exact_conv_wf : forall a b (l : conv Fl), conv_wf Fl a b l ->
  conv_wf ROps a b (mkConv ROps (k_in l) (mkM (map mval (body (k_kernels l))) (sh0 (k_kernels l)) (sh1 (k_kernels l)) (cap0 (k_kernels l)) (cap1 (k_kernels l)))
    (map cval (k_biases l)) (k_func l)).
Proof.
  intros a b l (W1 & W2 & W3 & W4 & W5 & W6 & W7 & W8).
  split; [unfold wf in *; cbn; now rewrite map_length|]. do 4 (split; [assumption|]). split; [cbn; now rewrite map_length|]. split; [exact W7|].
  intros k K. apply in_map_iff in K as (m & <- & M). destruct (W8 m M) as (X1 & X2 & X3). split; [unfold wf in *; cbn; now rewrite map_length | now split].
Qed.

Lemma kernel_size : forall a b (l : conv Fl), conv_wf Fl a b l -> kh prec emax Hp He L l = a /\ kw prec emax Hp He L l = b.
Proof.
  intros a b l (W1 & W2 & W3 & W4 & W5 & W6 & W7 & W8). unfold kh, kw.
  destruct (W8 (entry m_new (k_kernels l) 0 0)) as (_ & E0 & E1); [|auto].
  unfold entry. apply nth_In. rewrite W1. unfold filters, channels in *. nia.
Qed.

Lemma kernel_finite : forall (l : conv Fl) o ch u v, Forall (fun m => Forall cfinite (body m)) (body (k_kernels l)) -> cfinite (kval Fl l o ch u v).
Proof.
  intros l o ch u v H. unfold kval. unfold entry at 1. apply finite_nth. unfold entry.
  destruct (Nat.lt_ge_cases (o * sh1 (k_kernels l) + ch) (length (body (k_kernels l)))) as [I|I]; [apply (proj1 (Forall_forall _ _) H); now apply nth_In|].
  rewrite nth_overflow by lia. constructor.
Qed.

Definition csum3 (f : nat -> nat -> nat -> RC) (nc a b : nat) : RC := csum (fun ch => csum (fun u => csum (fun v => f ch u v) b) a) nc.

Lemma csum3_ext : forall f g nc a b, (forall ch u v, ch < nc -> u < a -> v < b -> f ch u v = g ch u v) -> csum3 f nc a b = csum3 g nc a b.
Proof. intros f g nc a b H. apply csum_ext. intros ch Hc. apply csum_ext. intros u Hu. apply csum_ext. intros v Hv. auto. Qed.

Lemma csum3_parts : forall f nc a b, (forall ch u v, ch < nc -> u < a -> v < b -> cle 0%RC (f ch u v)) ->
  cle 0%RC (csum3 f nc a b) /\ (forall ch, ch < nc -> cle 0%RC (csum (fun u => csum (fun v => f ch u v) b) a) /\ cle (csum (fun u => csum (fun v => f ch u v) b) a) (csum3 f nc a b)) /\
  (forall ch u, ch < nc -> u < a -> cle 0%RC (csum (fun v => f ch u v) b) /\ cle (csum (fun v => f ch u v) b) (csum3 f nc a b)) /\
  (forall ch u v, ch < nc -> u < a -> v < b -> cle (f ch u v) (csum3 f nc a b)).
Proof.
  intros f nc a b H.
  assert (N1 : forall ch u, ch < nc -> u < a -> cle 0%RC (csum (fun v => f ch u v) b)) by (intros; apply csum_nneg; auto).
  assert (N2 : forall ch, ch < nc -> cle 0%RC (csum (fun u => csum (fun v => f ch u v) b) a)) by (intros; apply csum_nneg; auto).
  assert (L2 : forall ch, ch < nc -> cle (csum (fun u => csum (fun v => f ch u v) b) a) (csum3 f nc a b)).
  { intros ch Hc. exact (csum_term (fun ch => csum (fun u => csum (fun v => f ch u v) b) a) nc ch N2 Hc). }
  assert (L1 : forall ch u, ch < nc -> u < a -> cle (csum (fun v => f ch u v) b) (csum3 f nc a b)).
  { intros ch u Hc Hu. eapply cle_trans; [|apply (L2 ch Hc)]. apply (csum_term (fun u => csum (fun v => f ch u v) b) a u); auto. }
  split; [apply csum_nneg; auto|]. split; [auto|]. split; [auto|].
  intros ch u v Hc Hu Hv. eapply cle_trans; [|apply (L1 ch u Hc Hu)]. apply (csum_term (fun v => f ch u v) b v); auto.
Qed.

Lemma cclose_sum3 : forall k nc a b (f : nat -> nat -> nat -> cplx B) (g M c : nat -> nat -> nat -> RC) bw,
  (forall ch u v, ch < nc -> u < a -> v < b -> cclose k (M ch u v) (c ch u v) (f ch u v) (g ch u v)) -> cfinite bw ->
  fit (k + b + a + nc + 1) (csum3 M nc a b + cabs (cval bw))%RC (csum3 c nc a b + 0)%RC ->
  cclose (k + b + a + nc + 1) (csum3 M nc a b + cabs (cval bw))%RC (csum3 c nc a b + 0)%RC
    (c_add Fl (sum_from (c_add Fl) z (fun ch => sum_from (c_add Fl) z (fun u => sum_from (c_add Fl) z (fun v => f ch u v) b) a) nc) bw)
    (csum3 g nc a b + cval bw)%RC.
Proof.
  intros k nc a b f g M c bw H W F.
  destruct (csum3_parts M nc a b) as (M0 & M1 & M2 & M3); [intros ch u v I1 I2 I3; exact (proj1 (cclose_nneg _ _ _ _ _ _ _ (H ch u v I1 I2 I3)))|].
  destruct (csum3_parts c nc a b) as (C0 & C1 & C2 & C3); [intros ch u v I1 I2 I3; exact (proj2 (cclose_nneg _ _ _ _ _ _ _ (H ch u v I1 I2 I3)))|].
  assert (LM : cle (csum3 M nc a b) (csum3 M nc a b + cabs (cval bw))%RC) by (apply cle_plus_l, cabs_nneg).
  assert (LC : cle (csum3 c nc a b) (csum3 c nc a b + 0)%RC) by (apply cle_plus_l, cle_refl).
  pose (S3 := fun (q : nat -> nat -> nat -> RC) ch => csum (fun u => csum (fun v => q ch u v) b) a).
  refine (cclose_affine (k + b + a) nc (fun ch => sum_from (c_add Fl) z (fun u => sum_from (c_add Fl) z (fun v => f ch u v) b) a) (S3 g) (S3 M) (S3 c) bw _ W F). intros ch Hc. unfold S3.
  apply cclose_sum.
  - intros u Hu. apply cclose_sum.
    + intros v Hv. now apply H.
    + destruct (M2 ch u Hc Hu) as (X1 & X2), (C2 ch u Hc Hu) as (Y1 & Y2). eapply fit_weaken; [exact F|lia| | |exact X1|exact Y1]; eapply cle_trans; eauto.
  - destruct (M1 ch Hc) as (X1 & X2), (C1 ch Hc) as (Y1 & Y2). eapply fit_weaken; [exact F|lia| | |exact X1|exact Y1]; eapply cle_trans; eauto.
Qed.

Lemma conv_near : forall (l : conv Fl) a b r c bd x x', conv_wf Fl a b l -> a <= r -> b <= c -> covered prec emax Hp He L (LConv l) -> (uses_libm prec emax Hp He L (LConv l) -> libm_within prec emax L et ee) ->
  let g := Maps (channels Fl l) r c in
  near g bd (IOMatrix x) (IOMatrix x') -> headroom prec emax Hp He L (LConv l) g bd ->
  exists y y', layer_forward Fl p (LConv l) (IOMatrix x) = Ret (Ok y) /\
    layer_forward ROps p (exact_layer prec emax Hp He L (LConv l)) (IOMatrix x') = Ret (Ok y') /\
    near (Maps (filters Fl l) (r - a + 1) (c - b + 1)) (layer_budget prec emax Hp He L p et ee (LConv l) g bd) y y'.
Proof.
  intros l a b r c bd x x' W Ar Bc (PL & FW & FB) HL g NR HR. pose proof NR as (GX & GR & _). pose proof (near_maps _ _ _ _ _ _ NR) as H.
  cbn [has_geom g exact_layer layer_forward] in *.
  set (l' := mkConv ROps (k_in l) (mkM (map mval (body (k_kernels l))) (sh0 (k_kernels l)) (sh1 (k_kernels l)) (cap0 (k_kernels l)) (cap1 (k_kernels l))) (map cval (k_biases l)) (k_func l)).
  pose proof (exact_conv_wf a b l W) as W'. fold l' in W'. destruct (kernel_size a b l W) as (KH & KW).
  set (K := order bd). set (nc := channels Fl l) in *. set (nf := filters Fl l) in *. set (R0 := r - a + 1) in *. set (C0 := c - b + 1) in *.
  set (MM := fun o i j ch u v => amul (cval (kval Fl l o ch u v)) (at3 0%RC r c (mag bd) ch (i + u) (j + v))).
  set (CC := fun o i j ch u v => (amul (cval (kval Fl l o ch u v)) (at3 0%RC r c (slack bd) ch (i + u) (j + v)) + t3)%RC).
  set (PMf := fun o i j => (csum3 (MM o i j) nc a b + cabs (cval (nth o (k_biases l) z)))%RC).
  set (PSf := fun o i j => (csum3 (CC o i j) nc a b + 0)%RC).
  assert (PM : pre_mag prec emax Hp He L (LConv l) g bd = tab3 nf R0 C0 PMf).
  { unfold pre_mag, through, g. rewrite KH, KW. apply tab3_ext. intros o i j Ho Hi Hj. unfold PMf, csum3, MM. f_equal. apply csum_ext. intros ch _. apply csum_ext. intros u _. apply csum_ext. intros v _. apply add_zero. }
  assert (PS : pre_slack prec emax Hp He L (LConv l) g bd = tab3 nf R0 C0 PSf).
  { unfold pre_slack, through, g. rewrite KH, KW. reflexivity. }
  assert (OG : out_geom prec emax Hp He L (LConv l) g = Maps nf R0 C0) by (unfold out_geom, g; now rewrite KH, KW).
  unfold headroom in HR. rewrite OG, PM, PS in HR. cbn [layer_peak layer_order gsize] in HR. rewrite KH, KW in HR. fold nc K in HR.
  assert (PRE : forall o i j, o < nf -> i < R0 -> j < C0 ->
    cclose (K + (a + b + nc + 3)) (PMf o i j) (PSf o i j) (cpre Fl a b l x o i j) (cpre ROps a b l' x' o i j)).
  { intros o i j Ho Hi Hj. specialize (HR _ (index3_lt nf R0 C0 o i j Ho Hi Hj)).
    change (nth ((o * R0 + i) * C0 + j) (tab3 nf R0 C0 PMf) 0%RC) with (at3 0%RC R0 C0 (tab3 nf R0 C0 PMf) o i j) in HR.
    change (nth ((o * R0 + i) * C0 + j) (tab3 nf R0 C0 PSf) 0%RC) with (at3 0%RC R0 C0 (tab3 nf R0 C0 PSf) o i j) in HR.
    rewrite !at3_tab3, !Rmult_1_l in HR by auto. change (fit (K + (a + b + nc + 3)) (PMf o i j) (PSf o i j)) in HR.
    assert (HH : forall ch u v, ch < nc -> u < a -> v < b ->
      cclose K (at3 0%RC r c (mag bd) ch (i + u) (j + v)) (at3 0%RC r c (slack bd) ch (i + u) (j + v)) (px z x ch (i + u) (j + v)) (px 0%RC x' ch (i + u) (j + v))).
    { intros ch u v Hc Hu Hv. apply H; unfold R0, C0 in *; lia. }
    destruct (csum3_parts (MM o i j) nc a b) as (_ & _ & _ & M3); [intros ch u v I1 I2 I3; apply amul_nneg; exact (proj1 (cclose_nneg _ _ _ _ _ _ _ (HH ch u v I1 I2 I3)))|].
    destruct (csum3_parts (CC o i j) nc a b) as (_ & _ & _ & C3); [intros ch u v I1 I2 I3; apply cle_plus_nneg; [apply amul_nneg; exact (proj2 (cclose_nneg _ _ _ _ _ _ _ (HH ch u v I1 I2 I3))) | apply t3_nneg]|].
    replace (K + (a + b + nc + 3)) with (K + 2 + b + a + nc + 1) in * by lia.
    assert (E : cpre ROps a b l' x' o i j = (csum3 (fun ch u v => px 0 x' ch (i + u) (j + v) * cval (kval Fl l o ch u v)) nc a b + cval (nth o (k_biases l) z))%RC).
    { unfold cpre. change (channels ROps l') with nc. replace (nth o (k_biases l') (c_default ROps)) with (cval (nth o (k_biases l) z)) by (symmetry; apply cval_nth).
      f_equal. unfold csum3, corr. apply csum_ext. intros ch _. apply csum_ext. intros u _. apply csum_ext. intros v _. unfold l'. now rewrite exact_kernel. }
    rewrite E.
    refine (cclose_sum3 (K + 2) nc a b (fun ch u v => c_mul Fl (px z x ch (i + u) (j + v)) (kval Fl l o ch u v)) _ (MM o i j) (CC o i j) (nth o (k_biases l) z) _ _ HR).
    - intros ch u v Hc Hu Hv. refine (proj2 (cclose_mul_le K (K + 2 + b + a + nc + 1) _ _ _ _ (kval Fl l o ch u v) _ _ _ (HH ch u v Hc Hu Hv) HR _ _ _)); [now apply kernel_finite | lia | |].
      + eapply cle_trans; [apply (M3 ch u v Hc Hu Hv) | apply cle_plus_l, cabs_nneg].
      + eapply cle_trans; [apply (C3 ch u v Hc Hu Hv) | apply cle_plus_l, cle_refl].
    - now apply finite_nth. }
  destruct (pick3 (fun o i j q => o < nf -> i < R0 -> j < C0 -> activate Fl p (k_func l) (cpre Fl a b l x o i j) = Ret (fst q) /\ activate ROps p (k_func l) (cpre ROps a b l' x' o i j) = Ret (snd q) /\
     cclose (K + (a + b + nc + 3)) (PMf o i j + both (act_gain (k_func l)))%RC (PSf o i j + both (act_slack prec emax p et ee (k_func l)))%RC (fst q) (snd q)) (z, 0%RC)) with (n := nf) (r := R0) (c := C0) as (q & Q).
  { intros o i j. destruct (le_lt_dec nf o); [exists (z, 0%RC); intros; lia|]. destruct (le_lt_dec R0 i); [exists (z, 0%RC); intros; lia|]. destruct (le_lt_dec C0 j); [exists (z, 0%RC); intros; lia|].
    destruct (close_act prec emax Hp He L p et ee HC (k_func l) _ _ _ _ _ PL HL (PRE o i j ltac:(auto) ltac:(auto) ltac:(auto))) as (y & y' & E1 & E2 & E3). exists (y, y'). auto. }
  exists (IOMatrix (map (fun o => mat R0 C0 (fun i j => fst (q o i j))) (seq 0 nf))), (IOMatrix (map (fun o => mat R0 C0 (fun i j => snd (q o i j))) (seq 0 nf))).
  split; [|split].
  - apply (C44_forward Fl p a b r c l x (fun o i j => fst (q o i j)) W GX Ar Bc). intros o i j Ho Hi Hj. now apply (Q o i j).
  - apply (C44_forward ROps p a b r c l' x' (fun o i j => snd (q o i j)) W' GR Ar Bc). intros o i j Ho Hi Hj. now apply (Q o i j).
  - apply maps_near.
    + exact (maps_tab Fl nf R0 C0 (fun o i j => fst (q o i j))).
    + exact (maps_tab ROps nf R0 C0 (fun o i j => snd (q o i j))).
    + intros o i j Ho Hi Hj. rewrite (px_tab z nf R0 C0 (fun o i j => fst (q o i j))), (px_tab 0%RC nf R0 C0 (fun o i j => snd (q o i j))) by auto.
      unfold at3. cbn [order mag slack layer_budget layer_order layer_func]. rewrite KH, KW, PM, PS. fold K nc.
      rewrite !(nth_map_lt _ (tab3 _ _ _ _) _ 0%RC) by (rewrite tab3_length; now apply index3_lt).
      change (nth ((o * R0 + i) * C0 + j) (tab3 nf R0 C0 PMf) 0%RC) with (at3 0%RC R0 C0 (tab3 nf R0 C0 PMf) o i j).
      change (nth ((o * R0 + i) * C0 + j) (tab3 nf R0 C0 PSf) 0%RC) with (at3 0%RC R0 C0 (tab3 nf R0 C0 PSf) o i j).
      rewrite !at3_tab3 by auto. now apply Q.
Qed.

(** ** Means of blocks *)
Lemma block_nth : forall {T} (d : T) a b f i j q, q < a * b -> nth q (block a b f i j) d = f (i * a + q / b) (j * b + q mod b).
Proof.
  intros T d a b f i j q Q. assert (b <> 0) by (intros ->; lia). pose proof (Nat.mod_upper_bound q b ltac:(auto)).
  assert (q / b < a) by (apply Nat.div_lt_upper_bound; auto; lia).
  unfold block. replace q with (q / b * b + q mod b) at 1 by (rewrite (Nat.mul_comm (q / b)); symmetry; now apply Nat.div_mod).
  now rewrite nth_concat_tab.
Qed.

Lemma csum_block : forall (f : nat -> nat -> RC) a b, csum (fun q => f (q / b) (q mod b)) (a * b) = csum (fun u => csum (fun v => f u v) b) a.
Proof.
  intros f a b. rewrite csum_flat. apply csum_ext. intros u Hu. apply csum_ext. intros v Hv.
  now rewrite Nat.div_add_l, Nat.div_small, Nat.add_0_r, Nat.add_comm, Nat.mod_add, Nat.mod_small by lia.
Qed.

Definition got (f : list RC -> outcome RC) (b : list RC) : RC := match f b with Ret v => v | Panic => 0%RC end.

Lemma reduce_near : forall (l : red Fl) n r c bd x x', 1 <= r_b0 l <= r -> 1 <= r_b1 l <= c -> r mod r_b0 l = 0 -> c mod r_b1 l = 0 ->
  covered prec emax Hp He L (LReduce l) -> let g := Maps n r c in
  near g bd (IOMatrix x) (IOMatrix x') -> headroom prec emax Hp He L (LReduce l) g bd ->
  exists y y', layer_forward Fl p (LReduce l) (IOMatrix x) = Ret (Ok y) /\
    layer_forward ROps p (exact_layer prec emax Hp He L (LReduce l)) (IOMatrix x') = Ret (Ok y') /\
    near (Maps n (r / r_b0 l) (c / r_b1 l)) (layer_budget prec emax Hp He L p et ee (LReduce l) g bd) y y'.
Proof.
  intros l n r c bd x x' (A1 & A2) (B1 & B2) MA MB (RF & SQ) g NR HR. pose proof NR as (GX & GR & _). pose proof (near_maps _ _ _ _ _ _ NR) as H.
  cbn [has_geom g exact_layer layer_forward] in *.
  set (l' := mkRed ROps (r_in l) (r_b0 l) (r_b1 l) (avg_block ROps) (mval (r_kernel l))).
  set (a := r_b0 l) in *. set (b := r_b1 l) in *. set (K := order bd). set (R0 := r / a) in *. set (C0 := c / b) in *.
  assert (RA : R0 * a = r) by (unfold R0; pose proof (Nat.div_mod r a ltac:(lia)); lia).
  assert (CB : C0 * b = c) by (unfold C0; pose proof (Nat.div_mod c b ltac:(lia)); lia).
  set (q := mkC (/ INR (a * b))%R 0%R : RC).
  set (MM := fun o i j u v => at3 0%RC r c (mag bd) o (i * a + u) (j * b + v)). set (CC := fun o i j u v => at3 0%RC r c (slack bd) o (i * a + u) (j * b + v)).
  set (PMf := fun o i j => (q * csum (fun u => csum (MM o i j u) b) a + 0)%RC). set (PSf := fun o i j => (q * csum (fun u => csum (CC o i j u) b) a + t3)%RC).
  assert (PM : pre_mag prec emax Hp He L (LReduce l) g bd = tab3 n R0 C0 PMf) by reflexivity.
  assert (PS : pre_slack prec emax Hp He L (LReduce l) g bd = tab3 n R0 C0 PSf) by reflexivity.
  assert (OG : out_geom prec emax Hp He L (LReduce l) g = Maps n R0 C0) by reflexivity.
  unfold headroom in HR. rewrite OG, PM, PS in HR. cbn [layer_peak layer_order gsize] in HR. fold a b K in HR.
  assert (AV : forall o i j, o < n -> i < R0 -> j < C0 -> exists y y',
    avg_block Fl (block a b (px z x o) i j) = Ret y /\ avg_block ROps (block a b (px 0%RC x' o) i j) = Ret y' /\ cclose (K + (a * b + 3)) (PMf o i j) (PSf o i j) y y').
  { intros o i j Ho Hi Hj. specialize (HR _ (index3_lt n R0 C0 o i j Ho Hi Hj)).
    change (nth ((o * R0 + i) * C0 + j) (tab3 n R0 C0 PMf) 0%RC) with (at3 0%RC R0 C0 (tab3 n R0 C0 PMf) o i j) in HR.
    change (nth ((o * R0 + i) * C0 + j) (tab3 n R0 C0 PSf) 0%RC) with (at3 0%RC R0 C0 (tab3 n R0 C0 PSf) o i j) in HR.
    rewrite !at3_tab3 in HR by auto.
    assert (LN : forall {T} (f : nat -> nat -> T), length (block a b f i j) = a * b) by (intros; unfold block; apply concat_tab_length).
    pose proof (close_avg prec emax Hp He L K (block a b (px z x o) i j) (block a b (px 0%RC x' o) i j)
      (fun t => MM o i j (t / b) (t mod b)) (fun t => CC o i j (t / b) (t mod b))) as CA. rewrite !LN in CA. cbv zeta in CA.
    rewrite !csum_block in CA. fold q in CA.
    replace (K + (a * b + 3)) with (K + a * b + 3) in * by lia. unfold PMf in *. rewrite !add_zero in *. apply CA; auto.
    - nia.
    - intros t T. rewrite !block_nth by auto. assert (t / b < a) by (apply Nat.div_lt_upper_bound; lia). pose proof (Nat.mod_upper_bound t b ltac:(lia)).
      apply H; auto; nia. }
  destruct (pick3 (fun o i j w => o < n -> i < R0 -> j < C0 -> avg_block Fl (block a b (px z x o) i j) = Ret (fst w) /\ avg_block ROps (block a b (px 0%RC x' o) i j) = Ret (snd w) /\
     cclose (K + (a * b + 3)) (PMf o i j) (PSf o i j) (fst w) (snd w)) (z, 0%RC)) with (n := n) (r := R0) (c := C0) as (w & Q).
  { intros o i j. destruct (le_lt_dec n o); [exists (z, 0%RC); intros; lia|]. destruct (le_lt_dec R0 i); [exists (z, 0%RC); intros; lia|]. destruct (le_lt_dec C0 j); [exists (z, 0%RC); intros; lia|].
    destruct (AV o i j ltac:(auto) ltac:(auto) ltac:(auto)) as (y & y' & E). exists (y, y'). auto. }
  assert (FW : forall Gl (m : red Gl) (f : nat -> nat -> nat -> cplx (F Gl)) (v : list (matrix (cplx (F Gl)))), r_b0 m = a -> r_b1 m = b -> maps_wf n r c v ->
    (forall o i j, o < n -> i < R0 -> j < C0 -> r_func m (block a b (px (c_default Gl) v o) i j) = Ret (f o i j)) ->
    red_forward Gl m (IOMatrix v) = Ret (Ok (IOMatrix (map (fun o => mat R0 C0 (f o)) (seq 0 n))))).
  { intros Gl m f v EA EB (LV & WV) HF. unfold red_forward. rewrite EA, EB. pose proof (list_eq_map_nth m_new v) as EV. rewrite LV in EV. rewrite EV at 1. rewrite mapM_map. clear EV.
    rewrite (mapM_ret _ (fun o => mat R0 C0 (f o))); [reflexivity|].
    intros o Ho. apply in_seq in Ho. destruct (WV (nth o v m_new)) as (W & E0 & E1); [apply nth_In; lia|].
    rewrite (C25_blocks (c_default Gl)) by (rewrite ?E0, ?E1; auto). rewrite E0, E1. fold R0 C0.
    rewrite (mapM_ret _ (tab_row (f o) C0)); [reflexivity|]. intros i Hi. apply in_seq in Hi.
    rewrite (mapM_ret _ (f o i)); [reflexivity|]. intros j Hj. apply in_seq in Hj. apply HF; lia. }
  exists (IOMatrix (map (fun o => mat R0 C0 (fun i j => fst (w o i j))) (seq 0 n))), (IOMatrix (map (fun o => mat R0 C0 (fun i j => snd (w o i j))) (seq 0 n))).
  split; [|split].
  - apply (FW Fl l (fun o i j => fst (w o i j)) x eq_refl eq_refl GX). intros o i j Ho Hi Hj. rewrite RF. now apply (Q o i j).
  - apply (FW ROps l' (fun o i j => snd (w o i j)) x' eq_refl eq_refl GR). intros o i j Ho Hi Hj. now apply (Q o i j).
  - apply maps_near.
    + exact (maps_tab Fl n R0 C0 (fun o i j => fst (w o i j))).
    + exact (maps_tab ROps n R0 C0 (fun o i j => snd (w o i j))).
    + intros o i j Ho Hi Hj. rewrite (px_tab z n R0 C0 (fun o i j => fst (w o i j))), (px_tab 0%RC n R0 C0 (fun o i j => snd (w o i j))) by auto.
      unfold at3. cbn [order mag slack layer_budget layer_order layer_func act_gain act_slack]. rewrite PM, PS. fold K a b.
      rewrite !(nth_map_lt _ (tab3 _ _ _ _) _ 0%RC) by (rewrite tab3_length; now apply index3_lt).
      change (nth ((o * R0 + i) * C0 + j) (tab3 n R0 C0 PMf) 0%RC) with (at3 0%RC R0 C0 (tab3 n R0 C0 PMf) o i j).
      change (nth ((o * R0 + i) * C0 + j) (tab3 n R0 C0 PSf) 0%RC) with (at3 0%RC R0 C0 (tab3 n R0 C0 PSf) o i j).
      rewrite !at3_tab3 by auto. change (both 0) with 0%RC. rewrite !add_zero. now apply Q.
Qed.

Lemma flatten_near : forall (l : flat) n r c bd x x', let g := Maps n r c in near g bd (IOMatrix x) (IOMatrix x') ->
  exists y y', layer_forward Fl p (LFlatten l) (IOMatrix x) = Ret (Ok y) /\
    layer_forward ROps p (exact_layer prec emax Hp He L (LFlatten l)) (IOMatrix x') = Ret (Ok y') /\
    near (Vec (n * (r * c))) (layer_budget prec emax Hp He L p et ee (LFlatten l) g bd) y y'.
Proof.
  intros l n r c bd x x' g (GX & GR & H). exists (IOScalar (flat_map body x)), (IOScalar (flat_map body x')).
  split; [reflexivity|]. split; [reflexivity|]. cbn [has_geom gsize g vals] in *. rewrite !flat_map_concat_map.
  change (concat (map body x)) with (map_values x). change (concat (map body x')) with (map_values x').
  split; [exact (map_values_length Fl n r c x GX)|]. split; [exact (map_values_length ROps n r c x' GR)|].
  intros i I. cbn [gsize order mag slack layer_budget layer_order layer_func act_gain act_slack vals]. unfold pre_mag, pre_slack. cbn [through]. change (both 0) with 0%RC.
  rewrite Nat.add_0_r. specialize (H i I).
  assert (MZ : forall (m : list RC), nth i (map (fun w => w + 0)%RC m) 0%RC = nth i m 0%RC).
  { intros m. rewrite (map_ext _ (fun w => w)) by (intros; apply add_zero). now rewrite map_id. }
  rewrite !MZ. exact H.
Qed.

(** ** Networks *)
Lemma layer_near : forall l g g' b x x', fits Fl l g g' -> covered prec emax Hp He L l -> (uses_libm prec emax Hp He L l -> libm_within prec emax L et ee) -> near g b x x' -> headroom prec emax Hp He L l g b ->
  out_geom prec emax Hp He L l g = g' /\
  exists y y', layer_forward Fl p l x = Ret (Ok y) /\ layer_forward ROps p (exact_layer prec emax Hp He L l) x' = Ret (Ok y') /\
    near g' (layer_budget prec emax Hp He L p et ee l g b) y y'.
Proof.
  intros l g g' b x x' HF CV HL NR HR. pose proof NR as (GX & GR & _).
  destruct HF as [l W NM | l a q r c W NM A Q | l n r c N A Q MA MB HF | l n r c];
    destruct x as [x|x]; try contradiction; destruct x' as [x'|x']; try contradiction.
  - split; [reflexivity|]. now apply dense_near.
  - destruct (kernel_size a q l W) as (KH & KW). split; [cbn [out_geom]; now rewrite KH, KW|]. now apply conv_near.
  - split; [reflexivity|]. now apply reduce_near.
  - split; [reflexivity|]. now apply flatten_near.
Qed.

Lemma net_near : forall n g g' b x x', fit_all Fl n g g' -> Forall (covered prec emax Hp He L) n -> (Exists (uses_libm prec emax Hp He L) n -> libm_within prec emax L et ee) -> near g b x x' -> net_headroom prec emax Hp He L p et ee n g b ->
  exists y y', foldM (fun acc l => fwd Fl p l acc) n x = Ret y /\
    foldM (fun acc l => fwd ROps p l acc) (map (exact_layer prec emax Hp He L) n) x' = Ret y' /\
    near g' (net_budget prec emax Hp He L p et ee n g b) y y'.
Proof.
  intros n g g' b x x' HF. revert b x x'. induction HF as [g | l n g g1 g2 Hl HF IH]; intros b x x' CV HL NR HR.
  - exists x, x'. auto.
  - inversion CV; subst. destruct HR as (HR & HR'). destruct (layer_near l g g1 b x x') as (OG & y & y' & E & E' & N); auto.
    cbn [net_budget]. rewrite OG in *. destruct (IH _ y y' ltac:(auto) ltac:(auto) N HR') as (w & w' & F & F' & NW).
    exists w, w'. cbn [foldM map]. rewrite (fwd_ok Fl p _ _ _ E), (fwd_ok ROps p _ _ _ E'). cbn [obind]. auto.
Qed.

Lemma input_near : forall g x, has_geom g x -> Forall cfinite (vals x) -> near g (input_budget prec emax x) x (ioval x).
Proof.
  intros g x G FX. assert (LV : length (vals x) = gsize g).
  { destruct g as [n|n r c], x as [v|ms]; try contradiction; cbn [gsize vals has_geom] in *; [exact G | exact (map_values_length Fl n r c ms G)]. }
  assert (VV : vals (ioval x) = map cval (vals x)).
  { destruct x as [v|ms]; [reflexivity|]. cbn [vals ioval]. unfold map_values. rewrite concat_map, !map_map. reflexivity. }
  split; [exact G|]. split.
  - destruct g as [n|n r c], x as [v|ms]; try contradiction; cbn [ioval has_geom] in *; [now rewrite map_length|].
    destruct G as (L1 & W). split; [now rewrite map_length|]. intros m M. apply in_map_iff in M as (m0 & <- & M0). destruct (W m0 M0) as (W1 & W2 & W3).
    split; [unfold wf in *; cbn; now rewrite map_length | now split].
  - intros i I. rewrite VV, cval_nth. cbn [order mag slack input_budget].
    rewrite (nth_map_lt (fun v => cabs (cval v)) (vals x) i z), (nth_map_lt (fun _ => 0%RC) (vals x) i z) by lia.
    apply cclose_exact. now apply finite_nth.
Qed.

Theorem network_round : forall n g g' x, n <> [] -> fit_all Fl n g g' -> Forall (covered prec emax Hp He L) n -> (Exists (uses_libm prec emax Hp He L) n -> libm_within prec emax L et ee) ->
  has_geom g x -> Forall cfinite (vals x) -> net_headroom prec emax Hp He L p et ee n g (input_budget prec emax x) ->
  exists y r, net_forward Fl p n x = Ret (Ok y) /\
    net_forward ROps p (map (exact_layer prec emax Hp He L) n) (ioval x) = Ret (Ok r) /\
    near g' (net_budget prec emax Hp He L p et ee n g (input_budget prec emax x)) y r.
Proof.
  intros n g g' x NE HF CV HL G FX HR.
  destruct (net_near n g g' _ x (ioval x) HF CV HL (input_near g x G FX) HR) as (y & r & E & E' & N).
  exists y, r. rewrite !forward_fold by (destruct n; [congruence | discriminate]). rewrite E, E'. auto.
Qed.

(** One dense layer without activation, spelt out. *)
Lemma csum_const : forall (w : RC) n, csum (fun _ => w) n = mkC (INR n * re w)%R (INR n * im w)%R.
Proof.
  intros [a b] n. induction n as [|n IH]; [apply c_ext; cbn; ring|]. rewrite csum_S, IH, S_INR. apply c_ext; cbn; ring.
Qed.

Lemma dense_explicit : forall (l : dense Fl) x, dense_wf Fl l -> d_func l = ActNone -> length x = inputs Fl l ->
  Forall cfinite (body (d_weights l)) -> Forall cfinite (d_biases l) -> Forall cfinite x ->
  let n := inputs Fl l in let w := ((1 + uu) ^ (n + 3))%R in let e := (INR n * (3 * eta))%R in
  let size i := (csum (fun j => amul (cval (weight Fl l i j)) (cabs (cval (nth j x z)))) n + cabs (cval (nth i (d_biases l) z)))%RC in
  let exact i := (csum (fun j => cval (weight Fl l i j) * cval (nth j x z)) n + cval (nth i (d_biases l) z))%RC in
  (forall i, i < units Fl l -> (w * (re (size i) + e) < omega)%R /\ (w * (im (size i) + e) < omega)%R) ->
  exists y, dense_forward Fl p l (IOScalar x) = Ret (Ok (IOScalar y)) /\ length y = units Fl l /\
    forall i, i < units Fl l -> cfinite (nth i y z) /\
      (Rabs (B2R (re (nth i y z)) - re (exact i)) <= (w - 1) * re (size i) + w * e)%R /\
      (Rabs (B2R (im (nth i y z)) - im (exact i)) <= (w - 1) * im (size i) + w * e)%R.
Proof.
  intros l x W AN LX FW FB FX n w e size exact HR.
  set (bd := input_budget prec emax (IOScalar x)).
  assert (MG : forall j, nth j (mag bd) 0%RC = cabs (cval (nth j x z)) \/ n <= j).
  { intros j. destruct (Nat.lt_ge_cases j n) as [J|J]; [left|now right]. cbn [bd input_budget mag vals]. rewrite (nth_map_lt (fun v => cabs (cval v)) x j z); [reflexivity | unfold n in *; lia]. }
  assert (SL : forall j, nth j (slack bd) 0%RC = 0%RC).
  { intros j. cbn [bd input_budget slack vals]. destruct (Nat.lt_ge_cases j (length x)) as [J|J]; [now rewrite (nth_map_lt (fun _ => 0%RC) x j z) | rewrite nth_overflow by (rewrite map_length; lia); reflexivity]. }
  assert (PM : forall i, i < units Fl l -> nth i (pre_mag prec emax Hp He L (LDense l) (Vec n) bd) 0%RC = size i).
  { intros i I. unfold pre_mag, through. rewrite nth_map_seq by auto. unfold size. f_equal. apply csum_ext. intros j J. rewrite add_zero. destruct (MG j) as [-> | ?]; [reflexivity | unfold n in *; lia]. }
  assert (PS : forall i, i < units Fl l -> nth i (pre_slack prec emax Hp He L (LDense l) (Vec n) bd) 0%RC = both e).
  { intros i I. unfold pre_slack, through. rewrite nth_map_seq by auto. rewrite (csum_ext _ (fun _ => t3)).
    - rewrite csum_const, add_zero. reflexivity.
    - intros j J. rewrite SL. unfold amul, both. apply c_ext; cbn; ring. }
  assert (NR : near (Vec n) bd (IOScalar x) (IOScalar (map cval x))) by (apply (input_near (Vec n) (IOScalar x)); [exact LX | exact FX]).
  destruct (dense_near l bd x (map cval x)) as (y & y' & E & E' & (GY & GY' & N)); auto.
  { unfold covered. rewrite AN. split; [left; reflexivity | auto]. }
  { unfold uses_libm. cbn [layer_func]. rewrite AN. intros [? | ?]; discriminate. }
  { intros i I. cbn [out_geom gsize layer_peak layer_order] in *. fold n. rewrite PM, PS, !Rmult_1_l by auto. exact (HR i I). }
  destruct y as [y|]; [|contradiction]. destruct y' as [y'|]; [|contradiction].
  exists y. split; [exact E|]. split; [exact GY|]. intros i I.
  assert (Y : nth i y' 0%RC = exact i).
  { cbn [exact_layer layer_forward] in E'. apply C40_forward in E' as (_ & E').
    - specialize (E' i I). cbn [d_func] in E'. rewrite AN in E'. cbn [activate] in E'. assert (E2 : forall q q' : RC, Ret q = Ret q' -> q' = q) by congruence. etransitivity; [exact (E2 _ _ E')|]. unfold exact, pre. cbn [d_biases].
      rewrite <- cval_nth. f_equal. change (inputs ROps (mkDense ROps (mval (d_weights l)) (map cval (d_biases l)) ActNone)) with n. apply csum_ext. intros j J. rewrite <- cval_nth. f_equal. rewrite <- AN. apply exact_weight.
    - destruct W as (W1 & W2 & W3). repeat split; cbn; [unfold wf in *; cbn; now rewrite map_length | now rewrite map_length | exact W3].
    - rewrite map_length. exact LX. }
  specialize (N i I). cbn [vals order mag slack layer_budget layer_order layer_func] in N. rewrite Y in N.
  rewrite (nth_map_lt _ (pre_mag _ _ _ _ _ _ _ bd) i 0%RC) in N by (cbn; now rewrite map_length, seq_length).
  rewrite (nth_map_lt _ (pre_slack _ _ _ _ _ _ _ bd) i 0%RC) in N by (cbn; now rewrite map_length, seq_length).
  fold n in N. rewrite PM, PS, AN in N by auto. cbn [act_gain act_slack] in N. change (both 0) with 0%RC in N. rewrite !add_zero in N.
  destruct N as [(F1 & _ & _ & E1) (F2 & _ & _ & E2)]. split; [split; assumption|].
  change (re (both e)) with e in E1. change (im (both e)) with e in E2. fold w in E1, E2. rewrite (Rmult_comm w e). split; assumption.
Qed.
End RoundNet.

(** ** The two formats *)
Lemma sf_val : forall prec emax (x : binary_float prec emax) m e, B2SF x = SpecFloat.S754_finite false m e ->
  is_finite x = true /\ B2R x = (IZR (Zpos m) * bpow radix2 e)%R.
Proof. intros prec emax [| | |s m e H] m' e' E; cbn in E; try discriminate. injection E as -> -> ->. split; reflexivity. Qed.

Ltac literal := match goal with |- is_finite ?x = true /\ _ => let s := eval vm_compute in (B2SF x) in
  match s with SpecFloat.S754_finite false ?m ?e => let F := fresh in let V := fresh in
    destruct (sf_val _ _ x m e ltac:(vm_compute; reflexivity)) as (F & V); split; [exact F|];
    first [rewrite V | change (B2R x) with (B2R x); setoid_rewrite V]; unfold SpecRound.uu, ActFacts.thr, ActFacts.hi, ActFacts.lo; cbn; try apply Rabs_le; lra end end.

Lemma literals32 : forall L, literals 24 128 prec24 emax128 L P32.
Proof.
  intros L. split; [literal|]. split; [literal|]. split; [literal|]. split; [literal|]. split; [unfold SpecRound.uu; cbn; lra|].
  unfold SpecRound.omega. apply (Rle_trans _ (bpow radix2 60)); [cbn; lra|]. apply bpow_le. lia.
Qed.

Lemma literals64 : forall L, literals 53 1024 prec53 emax1024 L P64.
Proof.
  intros L. split; [literal|]. split; [literal|]. split; [literal|]. split; [literal|]. split; [unfold SpecRound.uu; cbn; lra|].
  unfold SpecRound.omega. apply (Rle_trans _ (bpow radix2 60)); [cbn; lra|]. apply bpow_le. lia.
Qed.

(** ** Correctly rounded libraries *)
Lemma exp_bounds : forall x, (Rabs x <= 30 -> / 205891132094649 <= exp x <= 205891132094649)%R.
Proof.
  intros x H. apply Rabs_le_inv in H.
  assert (E : forall n, exp (INR n) = (exp 1 ^ n)%R).
  { intros n. induction n as [|n IH]; [apply exp_0|]. rewrite S_INR, exp_plus, IH. cbn. ring. }
  assert (U : (exp 30 <= 205891132094649)%R).
  { replace 30%R with (INR 30) by (rewrite INR_IZR_INZ; reflexivity). rewrite E. pose proof exp_le_3. pose proof (exp_pos 1).
    apply (Rle_trans _ (3 ^ 30)%R); [apply pow_incr; lra|]. lra. }
  assert (M : forall a b, (a <= b -> exp a <= exp b)%R) by (intros a b [K| ->]; [left; now apply exp_increasing | apply Rle_refl]).
  pose proof (M x 30%R ltac:(lra)). pose proof (M (- x)%R 30%R ltac:(lra)) as N. rewrite exp_Ropp in N. pose proof (exp_pos x).
  split; [|lra]. rewrite <- (Rinv_inv (exp x)). apply Rinv_le; [now apply Rinv_0_lt_compat | lra].
Qed.

Lemma round_within : forall prec emax (Hp : Prec_gt_0 prec) (He : Prec_lt_emax prec emax) L, (SpecRound.eta prec emax * 205891132094649 <= uu prec)%R -> (uu prec <= / 8)%R ->
  correctly_rounded prec emax L -> libm_within prec emax L (2 * uu prec) (2 * uu prec).
Proof.
  intros prec emax Hp He L HE HU (T & X). pose proof (uu_pos prec) as UP. pose proof (eta_pos prec emax) as EP.
  split; [|split; [|split; [lra|lra]]].
  - intros x FX. destruct (T x FX) as (F & V). split; [exact F|]. rewrite V.
    destruct (round_any prec emax Hp (tanh (B2R x))) as (e & h & E & H & R). rewrite R.
    replace (tanh (B2R x) * (1 + e) + h - tanh (B2R x))%R with (tanh (B2R x) * e + h)%R by ring.
    assert (TB : (Rabs (tanh (B2R x)) <= 1)%R).
    { unfold tanh, sinh, cosh. pose proof (exp_pos (B2R x)). pose proof (exp_pos (- B2R x)).
      apply Rabs_le. split; apply (Rmult_le_reg_r ((exp (B2R x) + exp (- B2R x)) / 2)); try lra; rewrite ?Rmult_assoc; field_simplify; lra. }
    eapply Rle_trans; [apply Rabs_triang|]. rewrite Rabs_mult. assert (Rabs (tanh (B2R x)) * Rabs e <= 1 * uu prec)%R by (apply Rmult_le_compat; auto using Rabs_pos). lra.
  - intros x FX BX. destruct (X x FX BX) as (F & V). split; [exact F|]. rewrite V.
    destruct (round_any prec emax Hp (exp (B2R x))) as (e & h & E & H & R). rewrite R.
    replace (exp (B2R x) * (1 + e) + h - exp (B2R x))%R with (exp (B2R x) * e + h)%R by ring.
    destruct (exp_bounds _ BX) as (LB & UB). eapply Rle_trans; [apply Rabs_triang|]. rewrite Rabs_mult, (Rabs_pos_eq (exp (B2R x))) by lra.
    assert (exp (B2R x) * Rabs e <= exp (B2R x) * uu prec)%R by (apply Rmult_le_compat_l; lra).
    assert (eta prec emax <= exp (B2R x) * uu prec)%R; [|lra].
    apply (Rle_trans _ (/ 205891132094649 * uu prec)%R); [lra|]. apply Rmult_le_compat_r; lra.
Qed.

(** Rounding a real number to a float. *)
Definition Bnear prec emax (Hp : Prec_gt_0 prec) (He : Prec_lt_emax prec emax) (t : R) : binary_float prec emax :=
  let s := round radix2 (SpecFloat.fexp prec emax) ZnearestE t in
  binary_normalize prec emax Hp He mode_NE (Ztrunc (scaled_mantissa radix2 (SpecFloat.fexp prec emax) s)) (cexp radix2 (SpecFloat.fexp prec emax) s) false.

Lemma Bnear_ok : forall prec emax (Hp : Prec_gt_0 prec) (He : Prec_lt_emax prec emax) t,
  (Rabs (round radix2 (SpecFloat.fexp prec emax) ZnearestE t) < bpow radix2 emax)%R ->
  is_finite (Bnear prec emax Hp He t) = true /\ B2R (Bnear prec emax Hp He t) = round radix2 (SpecFloat.fexp prec emax) ZnearestE t.
Proof.
  intros prec emax Hp He t H. unfold Bnear. set (s := round radix2 (SpecFloat.fexp prec emax) ZnearestE t) in *.
  pose proof (vexp prec emax Hp) as VE.
  assert (G : generic_format radix2 (SpecFloat.fexp prec emax) s) by (apply generic_format_round; [exact VE | apply valid_rnd_N]).
  pose proof (binary_normalize_correct prec emax Hp He mode_NE (Ztrunc (scaled_mantissa radix2 (SpecFloat.fexp prec emax) s)) (cexp radix2 (SpecFloat.fexp prec emax) s) false) as N.
  cbn zeta in N. rewrite <- G in N. cbn [round_mode] in N. rewrite (round_generic radix2 (SpecFloat.fexp prec emax) ZnearestE s G) in N.
  rewrite Rlt_bool_true in N by exact H. destruct N as (V & F & _). auto.
Qed.

Definition libm_near prec emax (Hp : Prec_gt_0 prec) (He : Prec_lt_emax prec emax) : libm (binary_float prec emax) :=
  let N f x := Bnear prec emax Hp He (f (B2R x)) in
  mkLibm _ (N exp) (N ln) (N sin) (N cos) (N tanh) (N cosh) (N atan) (fun x _ => x) (fun _ => false).

Lemma near_rounded : forall prec emax (Hp : Prec_gt_0 prec) (He : Prec_lt_emax prec emax), (50 < emax)%Z -> correctly_rounded prec emax (libm_near prec emax Hp He).
Proof.
  intros prec emax Hp He H. pose proof (vexp prec emax Hp) as VE.
  assert (R50 : forall t, (Rabs t <= bpow radix2 50)%R -> (Rabs (round radix2 (SpecFloat.fexp prec emax) ZnearestE t) < bpow radix2 emax)%R).
  { intros t T. apply (Rle_lt_trans _ (bpow radix2 50)); [|now apply bpow_lt].
    apply abs_round_le_generic; [exact VE | apply valid_rnd_N | | exact T].
    apply generic_format_bpow. unfold SpecFloat.fexp, SpecFloat.emin. unfold Prec_gt_0, Prec_lt_emax in *. lia. }
  split.
  - intros x FX. apply Bnear_ok. apply R50. apply (Rle_trans _ 1%R); [|apply (bpow_le radix2 0 50); lia].
    unfold tanh, sinh, cosh. pose proof (exp_pos (B2R x)). pose proof (exp_pos (- B2R x)).
    apply Rabs_le. split; apply (Rmult_le_reg_r ((exp (B2R x) + exp (- B2R x)) / 2)); try lra; rewrite ?Rmult_assoc; field_simplify; lra.
  - intros x FX BX. apply Bnear_ok. apply R50. destruct (exp_bounds _ BX). pose proof (exp_pos (B2R x)). rewrite Rabs_pos_eq by lra.
    eapply Rle_trans; [eassumption|]. cbn. lra.
Qed.

(** (1 + u)^k - 1 <= k u / (1 - k u) *)
Lemma gamma_bound : forall (u : R) k, (0 <= u -> INR k * u < 1 -> (1 + u) ^ k - 1 <= INR k * u / (1 - INR k * u))%R.
Proof.
  intros u k U H. assert (G : ((1 + u) ^ k * (1 - INR k * u) <= 1)%R).
  { clear H. induction k as [|k IH]; [cbn; lra|]. rewrite S_INR. cbn [pow]. assert (0 <= (1 + u) ^ k)%R by (apply pow_le; lra).
    replace ((1 + u) * (1 + u) ^ k * (1 - (INR k + 1) * u))%R with ((1 + u) ^ k * (1 - INR k * u) - (1 + u) ^ k * (u * u * (INR k + 1)))%R by ring.
    pose proof (pos_INR k). assert (0 <= (1 + u) ^ k * (u * u * (INR k + 1)))%R; [|lra]. apply Rmult_le_pos; [lra|]. apply Rmult_le_pos; [nra|lra]. }
  apply (Rmult_le_reg_r (1 - INR k * u)%R); [lra|]. unfold Rdiv. rewrite Rmult_assoc, Rinv_l by lra. lra.
Qed.

Lemma near_within : forall prec emax b i y r, RoundFacts.cclose prec emax (order b) (nth i (mag b) 0%RC) (nth i (slack b) 0%RC) y r -> within prec emax b i y r.
Proof.
  intros prec emax b i [y1 y2] [r1 r2] [(F1 & _ & _ & E1) (F2 & _ & _ & E2)]. split; [split; assumption|].
  split; cbn [Cplx.re Cplx.im] in *; eapply Rle_trans; [exact E1 | right; ring | exact E2 | right; ring].
Qed.

Lemma units_values :
  (uu 24 = / 2 ^ 24 /\ SpecRound.eta 24 128 = / 2 ^ 150 /\ SpecRound.omega 128 = 2 ^ 128)%R /\
  (uu 53 = / 2 ^ 53 /\ SpecRound.eta 53 1024 = / 2 ^ 1075 /\ SpecRound.omega 1024 = 2 ^ 1024)%R.
Proof.
  assert (P : forall k, bpow radix2 (Z.of_nat k) = (2 ^ k)%R) by (intros k; rewrite bpow_powerRZ, <- pow_powerRZ; reflexivity).
  assert (Q : forall k, bpow radix2 (- Z.of_nat k) = (/ 2 ^ k)%R) by (intros k; rewrite bpow_opp, P; reflexivity).
  assert (H : forall k, (/ 2 * bpow radix2 (- Z.of_nat k) = / 2 ^ S k)%R) by (intros k; rewrite Q; cbn [pow]; rewrite Rinv_mult; reflexivity).
  unfold uu, SpecRound.eta, SpecRound.omega. repeat split.
  - exact (H 23).
  - exact (H 149).
  - exact (P 128).
  - exact (H 52).
  - exact (H 1074).
  - exact (P 1024).
Qed.

Lemma platform : forall L32 L64,
  (correctly_rounded 24 128 L32 -> libm_within 24 128 L32 (2 * uu 24) (2 * uu 24)) /\
  (correctly_rounded 53 1024 L64 -> libm_within 53 1024 L64 (2 * uu 53) (2 * uu 53)) /\
  (exists L, correctly_rounded 24 128 L) /\ (exists L, correctly_rounded 53 1024 L).
Proof.
  intros L32 L64. destruct units_values as ((U1 & E1 & _) & (U2 & E2 & _)).
  assert (S1 : (/ 2 ^ 1075 <= / 2 ^ 150)%R).
  { apply Rinv_le; [apply pow_lt; lra|]. apply Rle_pow; [lra|lia]. }
  split; [|split; [|split]].
  - apply (round_within 24 128 prec24 emax128); rewrite ?U1, ?E1; lra.
  - apply (round_within 53 1024 prec53 emax1024); rewrite ?U2, ?E2; [|lra].
    apply (Rle_trans _ (/ 2 ^ 150 * 205891132094649)%R); [apply Rmult_le_compat_r; lra|lra].
  - exists (libm_near 24 128 prec24 emax128). now apply near_rounded.
  - exists (libm_near 53 1024 prec53 emax1024). now apply near_rounded.
Qed.
