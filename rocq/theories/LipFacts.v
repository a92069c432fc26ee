(** * How far outputs move when inputs move: proofs *)
From Coq Require Import ZArith Reals Lra Psatz.
From Coquelicot Require Import Coquelicot.
From Verif Require Import Base BaseFacts Float Matrix Cplx Random Act Input Loss Dense Conv Layer Dataset Network Examples RFloat CFacts
  SpecMatrix MatrixFacts MatrixFacts2 SpecLayer SpecConv SpecNet SpecGeom SpecGrad DenseFacts LayerFacts ConvFacts PoolFacts NetFacts TrainFacts TrainDense
  GeomFacts ActFacts SpecRound RoundAct RoundNet PropAct PropMatrix PropDense PropConv PropPool SpecLoss LossFacts FitFacts SpecLip.
Local Notation re := Cplx.re. Local Notation im := Cplx.im.
Local Notation P32 := Float.P32. Local Notation P64 := Float.P64.
Local Open Scope R_scope.

(** ** Moduli *)
Lemma modulus_Cmod : forall z : RC, modulus z = Cmod (re z, im z).
Proof. intros z. unfold modulus, Cmod. cbn [fst snd]. f_equal. change (F ROps) with R in *. ring. Qed.
Lemma modulus_pos : forall z, 0 <= modulus z.
Proof. intros z. apply sqrt_pos. Qed.
Lemma modulus_zero : modulus 0%RC = 0.
Proof. unfold modulus. cbn. replace (0 * 0 + 0 * 0) with 0 by ring. apply sqrt_0. Qed.
Lemma modulus_plus : forall a b : RC, modulus (a + b)%RC <= modulus a + modulus b.
Proof. intros a b. rewrite !modulus_Cmod. exact (Cmod_triangle (re a, im a) (re b, im b)). Qed.
Lemma modulus_mul : forall a b : RC, modulus (a * b)%RC = modulus a * modulus b.
Proof.
  intros a b. rewrite !modulus_Cmod, <- Cmod_mult. f_equal.
Qed.
Lemma modulus_sym : forall a b : RC, modulus (a - b)%RC = modulus (b - a)%RC.
Proof. intros a b. unfold modulus. cbn. f_equal. ring. Qed.
Lemma modulus_diff : forall a b : RC, modulus a - modulus (a - b)%RC <= modulus b.
Proof.
  intros a b. pose proof (modulus_plus b (a - b)%RC) as H. replace (b + (a - b))%RC with a in H by ring. lra.
Qed.
Lemma modulus_le : forall (z w : RC), Rabs (re z) <= Rabs (re w) -> Rabs (im z) <= Rabs (im w) -> modulus z <= modulus w.
Proof.
  intros z w H1 H2. unfold modulus. apply sqrt_le_1_alt. apply Rplus_le_compat; apply Rsqr_le_abs_1; assumption.
Qed.

Lemma csum_minus : forall f g n, (csum f n - csum g n)%RC = csum (fun i => f i - g i)%RC n.
Proof.
  intros f g n. induction n as [|n IH]; [cbn; apply c_ext; cbn; ring|]. rewrite !csum_S, <- IH. ring.
Qed.
Lemma csum_modulus : forall f n, modulus (csum f n) <= rsum (fun i => modulus (f i)) n.
Proof.
  intros f n. induction n as [|n IH]; [rewrite csum_0, modulus_zero; apply Rle_refl|]. rewrite csum_S, rsum_S.
  eapply Rle_trans; [apply modulus_plus|]. lra.
Qed.

Lemma largest_le : forall f n i, (i < n)%nat -> f i <= largest f n.
Proof.
  intros f n i H. unfold largest. assert (I : In i (seq 0 n)) by (apply in_seq; lia). revert I. generalize (seq 0 n). clear.
  intros l. induction l as [|j l IH]; intros I; [contradiction|]. cbn [fold_right]. destruct I as [->|I].
  - apply Rmax_l.
  - eapply Rle_trans; [exact (IH I) | apply Rmax_r].
Qed.
Lemma largest_pos : forall f n, 0 <= largest f n.
Proof.
  intros f n. unfold largest. generalize (seq 0 n). intros l. induction l as [|j l IH]; cbn [fold_right]; [lra|].
  eapply Rle_trans; [exact IH | apply Rmax_r].
Qed.

(** ** Activations *)
Lemma quarter_lip : forall a b, Rabs (logistic a - logistic b) <= Rabs (a - b) / 4.
Proof.
  intros a b. pose proof (lipschitz (fun x => 4 * logistic x) (fun x => 4 * (logistic x * (1 - logistic x)))) as H.
  specialize (H (fun x => is_derive_scal logistic x 4 _ (logistic_derive x))).
  assert (Q : Rabs (4 * logistic a - 4 * logistic b) <= Rabs (a - b)).
  { apply H. intros x. pose proof (logistic_range x) as (X0 & X1). pose proof (Rle_0_sqr (2 * logistic x - 1)) as X2. unfold Rsqr in X2. apply Rabs_le. generalize dependent (logistic x). clear. intros y; intros; split; nra. }
  replace (4 * logistic a - 4 * logistic b) with (4 * (logistic a - logistic b)) in Q by ring.
  rewrite Rabs_mult, (Rabs_right 4) in Q by lra. lra.
Qed.

Lemma sigmoid_spread : forall p a b, Rabs (sigmoid ROps p a - sigmoid ROps p b) <= Rabs (a - b) / 4 + 2 * jump p.
Proof.
  intros p a b. pose proof (saturation p a) as H1. pose proof (saturation p b) as H2. pose proof (quarter_lip a b) as H3.
  change (F ROps) with R in *. set (x := sigmoid ROps p a) in *. set (y := sigmoid ROps p b) in *. clearbody x y. change (F ROps) with R in *.
  replace (x - y) with ((x - logistic a) + (logistic a - logistic b) - (y - logistic b)) by ring.
  eapply Rle_trans; [apply Rabs_triang|]. rewrite Rabs_Ropp. eapply Rle_trans; [apply Rplus_le_compat_r, Rabs_triang|]. lra.
Qed.

Lemma act_near : forall p f (z w : RC) e, steady_act f -> modulus (z - w)%RC <= e ->
  exists z' w', activate ROps p f z = Ret z' /\ activate ROps p f w = Ret w' /\ modulus (z' - w')%RC <= act_spread p f e.
Proof.
  intros p f z w e S H. destruct S as [->|[->|[->| ->]]]; do 2 eexists; (split; [reflexivity|]; split; [reflexivity|]); cbn [act_spread].
  - exact H.
  - set (j := match p with P32 => 1 / 1000000 | P64 => 1 / 10000000000000 end). assert (J : jump p = j) by reflexivity.
    assert (J0 : 0 <= j) by (unfold j; destruct p; lra).
    pose proof (sigmoid_spread p (re z) (re w)) as H1. pose proof (sigmoid_spread p (im z) (im w)) as H2. rewrite J in *. clearbody j.
    set (d := (z - w)%RC) in *.
    assert (E1 : re d = re z - re w) by reflexivity. assert (E2 : im d = im z - im w) by reflexivity.
    set (v := (ritsigmoid ROps p z - ritsigmoid ROps p w)%RC).
    assert (V : modulus v <= modulus (c_add ROps (mkC (Rabs (re d) / 4) (Rabs (im d) / 4)) (mkC (2 * j) (2 * j)))).
    { apply modulus_le; cbn [re im c_add]; change (fadd ROps) with Rplus.
      - rewrite (Rabs_right (Rabs (re d) / 4 + 2 * j)); [|pose proof (Rabs_pos (re d)); lra]. rewrite E1. exact H1.
      - rewrite (Rabs_right (Rabs (im d) / 4 + 2 * j)); [|pose proof (Rabs_pos (im d)); lra]. rewrite E2. exact H2. }
    eapply Rle_trans; [exact V|]. eapply Rle_trans; [apply modulus_plus|]. apply Rplus_le_compat.
    + apply Rle_trans with (modulus d / 4); [|lra]. apply Req_le. unfold modulus. cbn [re im].
      replace (Rabs (re d) / 4 * (Rabs (re d) / 4) + Rabs (im d) / 4 * (Rabs (im d) / 4)) with ((re d * re d + im d * im d) * (/ 4 * / 4)).
      * rewrite sqrt_mult_alt, sqrt_square; [reflexivity | lra | pose proof (Rle_0_sqr (re d)); pose proof (Rle_0_sqr (im d)); unfold Rsqr in *; lra].
      * assert (forall x, x * x = Rabs x * Rabs x) as A by (intros x; rewrite <- Rabs_mult, Rabs_right; [reflexivity | pose proof (Rle_0_sqr x); unfold Rsqr in *; lra]).
        rewrite (A (re d)), (A (im d)). field.
    + unfold modulus. cbn [re im]. apply Rle_trans with (sqrt (3 * j * (3 * j))); [apply sqrt_le_1_alt; nra | rewrite sqrt_square; lra].
  - eapply Rle_trans; [|exact H]. apply modulus_le; apply tanh_lip.
  - eapply Rle_trans; [|exact H]. apply modulus_le; apply relu_lip.
Qed.

Lemma act_spread_mono : forall p f a b, a <= b -> act_spread p f a <= act_spread p f b.
Proof. intros p f a b H. destruct f; cbn [act_spread]; lra. Qed.

(** ** Layers *)
Section Layers.
Context (p : Float.prec).
Local Open Scope nat_scope.

Lemma nearby_maps : forall n r c e x x', nearby (Maps n r c) e (IOMatrix x) (IOMatrix x') -> forall o i j, o < n -> i < r -> j < c ->
  (modulus (px 0%RC x o i j - px 0%RC x' o i j)%RC <= e)%R.
Proof.
  intros n r c e x x' (GX & GR & H) o i j Ho Hi Hj. cbn [has_geom vals] in *.
  specialize (H _ (index3_lt n r c o i j Ho Hi Hj)). rewrite (maps_at 0%RC n r c x), (maps_at 0%RC n r c x') in H by auto. exact H.
Qed.

Lemma maps_nearby : forall n r c e x x', maps_wf n r c x -> maps_wf n r c x' -> (forall o i j, o < n -> i < r -> j < c ->
  (modulus (px 0%RC x o i j - px 0%RC x' o i j)%RC <= e)%R) -> nearby (Maps n r c) e (IOMatrix x) (IOMatrix x').
Proof.
  intros n r c b x x' W W' H. split; [exact W|]. split; [exact W'|]. intros k K. cbn [gsize vals] in *.
  destruct (index3 n r c k K) as (o & i & j & Ho & Hi & Hj & ->). rewrite (maps_at 0%RC n r c x), (maps_at 0%RC n r c x') by auto. now apply H.
Qed.

Lemma dense_nearby : forall (l : dense ROps) e x x', dense_wf ROps l -> steady_act (d_func l) -> (0 <= e)%R ->
  nearby (Vec (inputs ROps l)) e (IOScalar x) (IOScalar x') ->
  exists y y', layer_forward ROps p (LDense l) (IOScalar x) = Ret (Ok y) /\ layer_forward ROps p (LDense l) (IOScalar x') = Ret (Ok y') /\
    nearby (Vec (units ROps l)) (layer_spread p (LDense l) e) y y'.
Proof.
  intros l e x x' W S E0 (GX & GR & H). cbn [has_geom vals gsize layer_forward layer_spread] in *. set (n := inputs ROps l) in *.
  assert (PRE : forall i, i < units ROps l -> (modulus (pre ROps l x i - pre ROps l x' i)%RC <= gain (LDense l) * e)%R).
  { intros i I. unfold pre. fold n.
    change (sum_from (c_add ROps) (c_default ROps)) with csum.
    replace (csum (fun j => weight ROps l i j * nth j x 0)%RC n + nth i (d_biases l) 0 - (csum (fun j => weight ROps l i j * nth j x' 0)%RC n + nth i (d_biases l) 0))%RC
      with (csum (fun j => weight ROps l i j * nth j x 0)%RC n - csum (fun j => weight ROps l i j * nth j x' 0)%RC n)%RC by ring.
    rewrite csum_minus. eapply Rle_trans; [apply csum_modulus|].
    apply Rle_trans with (e * rsum (fun j => modulus (weight ROps l i j)) n)%R.
    - rewrite <- rsum_scal. apply rsum_le. intros j J.
      replace (weight ROps l i j * nth j x 0 - weight ROps l i j * nth j x' 0)%RC with (weight ROps l i j * (nth j x 0 - nth j x' 0))%RC by ring.
      rewrite modulus_mul, Rmult_comm. apply Rmult_le_compat_r; [apply modulus_pos | now apply H].
    - rewrite Rmult_comm. apply Rmult_le_compat_r; [exact E0|]. cbn [gain].
      exact (largest_le (fun i => rsum (fun j => modulus (weight ROps l i j)) n) (units ROps l) i I). }
  destruct (pick (fun i q => activate ROps p (d_func l) (pre ROps l x i) = Ret (fst q) /\ activate ROps p (d_func l) (pre ROps l x' i) = Ret (snd q) /\
     (modulus (fst q - snd q)%RC <= act_spread p (d_func l) (gain (LDense l) * e))%R) (units ROps l) (0%RC, 0%RC)) as (q & Q).
  { intros i I. destruct (act_near p (d_func l) _ _ _ S (PRE i I)) as (y & y' & E1 & E2 & E3). exists (y, y'). auto. }
  exists (IOScalar (map (fun i => fst (q i)) (seq 0 (units ROps l)))), (IOScalar (map (fun i => snd (q i)) (seq 0 (units ROps l)))).
  split; [|split].
  - apply (C40_forward ROps p l x W GX). rewrite map_length, seq_length. split; [reflexivity|]. intros i I. rewrite nth_map_seq by auto. now apply Q.
  - apply (C40_forward ROps p l x' W GR). rewrite map_length, seq_length. split; [reflexivity|]. intros i I. rewrite nth_map_seq by auto. now apply Q.
  - split; [cbn; now rewrite map_length, seq_length|]. split; [cbn; now rewrite map_length, seq_length|]. intros i I. cbn [gsize vals] in *.
    rewrite !nth_map_seq by auto. now apply Q.
Qed.

Lemma ksize : forall a b (l : conv ROps), conv_wf ROps a b l -> krows l = a /\ kcols l = b.
Proof.
  intros a b l (W1 & W2 & W3 & W4 & W5 & W6 & W7 & W8). unfold krows, kcols.
  destruct (W8 (entry m_new (k_kernels l) 0 0)) as (_ & E0 & E1); [|auto].
  unfold entry. apply nth_In. rewrite W1. unfold filters, channels in *. nia.
Qed.

Lemma rsum_bound : forall f g n e, (0 <= e)%R -> (forall i, i < n -> (f i <= e * g i)%R) -> (rsum f n <= e * rsum g n)%R.
Proof. intros f g n e E H. rewrite <- rsum_scal. now apply rsum_le. Qed.

Lemma conv_nearby : forall (l : conv ROps) a b r c e x x', conv_wf ROps a b l -> a <= r -> b <= c -> steady_act (k_func l) -> (0 <= e)%R ->
  nearby (Maps (channels ROps l) r c) e (IOMatrix x) (IOMatrix x') ->
  exists y y', layer_forward ROps p (LConv l) (IOMatrix x) = Ret (Ok y) /\ layer_forward ROps p (LConv l) (IOMatrix x') = Ret (Ok y') /\
    nearby (Maps (filters ROps l) (r - a + 1) (c - b + 1)) (layer_spread p (LConv l) e) y y'.
Proof.
  intros l a b r c e x x' W Ar Bc S E0 NR. pose proof NR as (GX & GR & _). pose proof (nearby_maps _ _ _ _ _ _ NR) as H.
  cbn [has_geom layer_forward layer_spread] in *. destruct (ksize a b l W) as (KH & KW).
  set (nc := channels ROps l) in *. set (nf := filters ROps l) in *. set (R0 := r - a + 1) in *. set (C0 := c - b + 1) in *.
  assert (PRE : forall o i j, o < nf -> i < R0 -> j < C0 ->
    (modulus (cpre ROps a b l x o i j - cpre ROps a b l x' o i j)%RC <= gain (LConv l) * e)%R).
  { intros o i j Ho Hi Hj. unfold cpre. fold nc.
    change (sum_from (c_add ROps) (c_default ROps)) with csum. set (bi := nth o (k_biases l) (c_default ROps)).
    set (fx := fun ch => corr (cops ROps) a b (px (c_default ROps) x ch) (kval ROps l o ch) i j).
    set (fy := fun ch => corr (cops ROps) a b (px (c_default ROps) x' ch) (kval ROps l o ch) i j).
    replace (csum fx nc + bi - (csum fy nc + bi))%RC with (csum fx nc - csum fy nc)%RC by ring.
    rewrite csum_minus. eapply Rle_trans; [apply csum_modulus|].
    apply Rle_trans with (e * rsum (fun ch => rsum (fun u => rsum (fun v => modulus (kval ROps l o ch u v)) b) a) nc)%R.
    - apply rsum_bound; auto. intros ch Hc. unfold fx, fy, corr.
      cbn [add add_assign dflt mul cops]. change (c_add_assign ROps) with (c_add ROps). change (sum_from (c_add ROps) (c_default ROps)) with csum.
      rewrite csum_minus. eapply Rle_trans; [apply csum_modulus|]. apply rsum_bound; auto. intros u Hu.
      rewrite csum_minus. eapply Rle_trans; [apply csum_modulus|]. apply rsum_bound; auto. intros v Hv.
      replace (px 0 x ch (i + u) (j + v) * kval ROps l o ch u v - px 0 x' ch (i + u) (j + v) * kval ROps l o ch u v)%RC
        with ((px 0 x ch (i + u) (j + v) - px 0 x' ch (i + u) (j + v)) * kval ROps l o ch u v)%RC by ring.
      rewrite modulus_mul. apply Rmult_le_compat_r; [apply modulus_pos|]. apply H; unfold R0, C0 in *; lia.
    - rewrite Rmult_comm. apply Rmult_le_compat_r; [exact E0|]. cbn [gain]. rewrite KH, KW.
      exact (largest_le (fun o => rsum (fun ch => rsum (fun u => rsum (fun v => modulus (kval ROps l o ch u v)) b) a) nc) nf o Ho). }
  destruct (pick3 (fun o i j q => o < nf -> i < R0 -> j < C0 -> activate ROps p (k_func l) (cpre ROps a b l x o i j) = Ret (fst q) /\ activate ROps p (k_func l) (cpre ROps a b l x' o i j) = Ret (snd q) /\
     (modulus (fst q - snd q)%RC <= act_spread p (k_func l) (gain (LConv l) * e))%R) (0%RC, 0%RC)) with (n := nf) (r := R0) (c := C0) as (q & Q).
  { intros o i j. destruct (le_lt_dec nf o); [exists (0%RC, 0%RC); intros; lia|]. destruct (le_lt_dec R0 i); [exists (0%RC, 0%RC); intros; lia|]. destruct (le_lt_dec C0 j); [exists (0%RC, 0%RC); intros; lia|].
    destruct (act_near p (k_func l) _ _ _ S (PRE o i j ltac:(auto) ltac:(auto) ltac:(auto))) as (y & y' & E1 & E2 & E3). exists (y, y'). auto. }
  exists (IOMatrix (map (fun o => mat R0 C0 (fun i j => fst (q o i j))) (seq 0 nf))), (IOMatrix (map (fun o => mat R0 C0 (fun i j => snd (q o i j))) (seq 0 nf))).
  split; [|split].
  - apply (C44_forward ROps p a b r c l x (fun o i j => fst (q o i j)) W GX Ar Bc). intros o i j Ho Hi Hj. now apply (Q o i j).
  - apply (C44_forward ROps p a b r c l x' (fun o i j => snd (q o i j)) W GR Ar Bc). intros o i j Ho Hi Hj. now apply (Q o i j).
  - apply maps_nearby.
    + exact (maps_tab ROps nf R0 C0 (fun o i j => fst (q o i j))).
    + exact (maps_tab ROps nf R0 C0 (fun o i j => snd (q o i j))).
    + intros o i j Ho Hi Hj. rewrite (px_tab 0%RC nf R0 C0 (fun o i j => fst (q o i j))), (px_tab 0%RC nf R0 C0 (fun o i j => snd (q o i j))) by auto.
      now apply Q.
Qed.

Lemma reduce_nearby : forall (l : red ROps) n r c e x x', 1 <= r_b0 l <= r -> 1 <= r_b1 l <= c -> r mod r_b0 l = 0 -> c mod r_b1 l = 0 ->
  (forall b, length b = r_b0 l * r_b1 l -> exists v, r_func l b = Ret v) -> steady (LReduce l) ->
  nearby (Maps n r c) e (IOMatrix x) (IOMatrix x') ->
  exists y y', layer_forward ROps p (LReduce l) (IOMatrix x) = Ret (Ok y) /\ layer_forward ROps p (LReduce l) (IOMatrix x') = Ret (Ok y') /\
    nearby (Maps n (r / r_b0 l) (c / r_b1 l)) e y y'.
Proof.
  intros l n r c e x x' (A1 & A2) (B1 & B2) MA MB TF S NR. pose proof NR as (GX & GR & _). pose proof (nearby_maps _ _ _ _ _ _ NR) as H.
  cbn [has_geom layer_forward] in *.
  set (a := r_b0 l) in *. set (b := r_b1 l) in *. set (R0 := r / a) in *. set (C0 := c / b) in *.
  assert (RA : R0 * a = r) by (unfold R0; pose proof (Nat.div_mod r a ltac:(lia)); lia).
  assert (CB : C0 * b = c) by (unfold C0; pose proof (Nat.div_mod c b ltac:(lia)); lia).
  assert (LN : forall {T} (f : nat -> nat -> T) i j, length (block a b f i j) = a * b) by (intros; unfold block; apply concat_tab_length).
  assert (AV : forall o i j, o < n -> i < R0 -> j < C0 -> exists y y',
    r_func l (block a b (px 0%RC x o) i j) = Ret y /\ r_func l (block a b (px 0%RC x' o) i j) = Ret y' /\ (modulus (y - y')%RC <= e)%R).
  { intros o i j Ho Hi Hj. destruct (TF (block a b (px 0%RC x o) i j) (LN _ _ i j)) as (y & Y). destruct (TF (block a b (px 0%RC x' o) i j) (LN _ _ i j)) as (y' & Y').
    exists y, y'. split; [exact Y|]. split; [exact Y'|]. refine (S _ _ _ _ e (LN _ _ i j) _ _ Y Y'); [now rewrite !LN|].
    rewrite LN. intros t T. rewrite !block_nth by auto. assert (t / b < a) by (apply Nat.div_lt_upper_bound; lia). pose proof (Nat.mod_upper_bound t b ltac:(lia)).
    apply H; auto; nia. }
  destruct (pick3 (fun o i j w => o < n -> i < R0 -> j < C0 -> r_func l (block a b (px 0%RC x o) i j) = Ret (fst w) /\ r_func l (block a b (px 0%RC x' o) i j) = Ret (snd w) /\
     (modulus (fst w - snd w)%RC <= e)%R) (0%RC, 0%RC)) with (n := n) (r := R0) (c := C0) as (w & Q).
  { intros o i j. destruct (le_lt_dec n o); [exists (0%RC, 0%RC); intros; lia|]. destruct (le_lt_dec R0 i); [exists (0%RC, 0%RC); intros; lia|]. destruct (le_lt_dec C0 j); [exists (0%RC, 0%RC); intros; lia|].
    destruct (AV o i j ltac:(auto) ltac:(auto) ltac:(auto)) as (y & y' & E). exists (y, y'). auto. }
  assert (FW : forall (f : nat -> nat -> nat -> RC) (v : list (matrix RC)), maps_wf n r c v ->
    (forall o i j, o < n -> i < R0 -> j < C0 -> r_func l (block a b (px 0%RC v o) i j) = Ret (f o i j)) ->
    red_forward ROps l (IOMatrix v) = Ret (Ok (IOMatrix (map (fun o => mat R0 C0 (f o)) (seq 0 n))))).
  { intros f v (LV & WV) HF. unfold red_forward. fold a b. pose proof (list_eq_map_nth m_new v) as EV. rewrite LV in EV. rewrite EV at 1. rewrite mapM_map. clear EV.
    rewrite (mapM_ret _ (fun o => mat R0 C0 (f o))); [reflexivity|].
    intros o Ho. apply in_seq in Ho. destruct (WV (nth o v m_new)) as (W & E0 & E1); [apply nth_In; lia|].
    rewrite (C25_blocks 0%RC) by (rewrite ?E0, ?E1; auto). rewrite E0, E1. fold R0 C0.
    rewrite (mapM_ret _ (tab_row (f o) C0)); [reflexivity|]. intros i Hi. apply in_seq in Hi.
    rewrite (mapM_ret _ (f o i)); [reflexivity|]. intros j Hj. apply in_seq in Hj. apply HF; lia. }
  exists (IOMatrix (map (fun o => mat R0 C0 (fun i j => fst (w o i j))) (seq 0 n))), (IOMatrix (map (fun o => mat R0 C0 (fun i j => snd (w o i j))) (seq 0 n))).
  split; [|split].
  - apply (FW (fun o i j => fst (w o i j)) x GX). intros o i j Ho Hi Hj. now apply (Q o i j).
  - apply (FW (fun o i j => snd (w o i j)) x' GR). intros o i j Ho Hi Hj. now apply (Q o i j).
  - apply maps_nearby.
    + exact (maps_tab ROps n R0 C0 (fun o i j => fst (w o i j))).
    + exact (maps_tab ROps n R0 C0 (fun o i j => snd (w o i j))).
    + intros o i j Ho Hi Hj. rewrite (px_tab 0%RC n R0 C0 (fun o i j => fst (w o i j))), (px_tab 0%RC n R0 C0 (fun o i j => snd (w o i j))) by auto.
      now apply Q.
Qed.

Lemma flatten_nearby : forall (l : flat) n r c e x x', nearby (Maps n r c) e (IOMatrix x) (IOMatrix x') ->
  exists y y', layer_forward ROps p (LFlatten l) (IOMatrix x) = Ret (Ok y) /\ layer_forward ROps p (LFlatten l) (IOMatrix x') = Ret (Ok y') /\
    nearby (Vec (n * (r * c))) e y y'.
Proof.
  intros l n r c e x x' (GX & GR & H). exists (IOScalar (flat_map body x)), (IOScalar (flat_map body x')).
  split; [reflexivity|]. split; [reflexivity|]. cbn [has_geom gsize vals] in *. rewrite !flat_map_concat_map.
  change (concat (map body x)) with (map_values x). change (concat (map body x')) with (map_values x').
  split; [exact (map_values_length ROps n r c x GX)|]. split; [exact (map_values_length ROps n r c x' GR)|]. exact H.
Qed.

Lemma spread_pos : forall l e, (0 <= e)%R -> (0 <= layer_spread p l e)%R.
Proof.
  assert (A : forall f e, (0 <= e -> 0 <= act_spread p f e)%R) by (intros f e E; destruct f; cbn [act_spread]; destruct p; lra).
  intros [l|l|l|l] e E; cbn [layer_spread]; auto; apply A; cbn [gain]; (apply Rmult_le_pos; [apply largest_pos | exact E]).
Qed.

Lemma layer_nearby : forall l g g' e x x', fits ROps l g g' -> steady l -> (0 <= e)%R -> nearby g e x x' ->
  exists y y', layer_forward ROps p l x = Ret (Ok y) /\ layer_forward ROps p l x' = Ret (Ok y') /\ nearby g' (layer_spread p l e) y y'.
Proof.
  intros l g g' e x x' HF S E0 NR. pose proof NR as (GX & GR & _).
  destruct HF as [l W NM | l a q r c W NM A Q | l n r c N A Q MA MB HF | l n r c];
    destruct x as [x|x]; try contradiction; destruct x' as [x'|x']; try contradiction.
  - now apply dense_nearby.
  - now apply conv_nearby.
  - now apply reduce_nearby.
  - now apply flatten_nearby.
Qed.

Lemma net_nearby : forall n g g' e x x', fit_all ROps n g g' -> Forall steady n -> (0 <= e)%R -> nearby g e x x' ->
  exists y y', foldM (fun acc l => fwd ROps p l acc) n x = Ret y /\ foldM (fun acc l => fwd ROps p l acc) n x' = Ret y' /\
    nearby g' (net_spread p n e) y y'.
Proof.
  intros n g g' e x x' HF. revert e x x'. induction HF as [g | l n g g1 g2 Hl HF IH]; intros e x x' CV E0 NR.
  - exists x, x'. auto.
  - inversion CV; subst. destruct (layer_nearby l g g1 e x x') as (y & y' & E & E' & N); auto.
    destruct (IH _ y y' ltac:(auto) (spread_pos l e E0) N) as (w & w' & F & F' & NW).
    exists w, w'. cbn [foldM]. rewrite (fwd_ok ROps p _ _ _ E), (fwd_ok ROps p _ _ _ E'). cbn [obind]. auto.
Qed.

Lemma forward_nearby : forall n g g' e x x', n <> [] -> fit_all ROps n g g' -> Forall steady n -> (0 <= e)%R -> nearby g e x x' ->
  exists y y', net_forward ROps p n x = Ret (Ok y) /\ net_forward ROps p n x' = Ret (Ok y') /\ nearby g' (net_spread p n e) y y'.
Proof.
  intros n g g' e x x' NE HF CV E0 NR. destruct (net_nearby n g g' e x x' HF CV E0 NR) as (y & y' & E & E' & N).
  exists y, y'. rewrite !forward_fold by auto. rewrite E, E'. auto.
Qed.
End Layers.
