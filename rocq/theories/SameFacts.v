(** * Facts about different layers that compute the same *)
From Coq Require Import Reals Lra.
From Verif Require Import Base BaseFacts Float Matrix Cplx Act Input Loss Dense Conv Layer Dataset Network RFloat SpecMatrix MatrixFacts
  SpecLayer SpecConv SpecNet DenseFacts ConvFacts LayerFacts NetFacts CFacts ConvCalc ActFacts PropDense PropConv PropPool SpecSame.
Local Open Scope nat_scope.

Section Same.
Context (p : prec).
Local Notation z := (c_default ROps).

Lemma same_by_fold : forall A B : network ROps, A <> [] -> B <> [] ->
  (forall v, foldM (fun acc l => fwd ROps p l acc) A v = foldM (fun acc l => fwd ROps p l acc) B v) -> interchangeable p A B.
Proof.
  intros A B NA NB H be af x.
  assert (NE : forall L : network ROps, L <> [] -> be ++ L ++ af <> []).
  { intros L N Q. apply app_eq_nil in Q as (_ & Q). apply app_eq_nil in Q as (Q & _). auto. }
  rewrite !forward_fold by auto. rewrite !foldM_app. f_equal.
  destruct (foldM (fun acc l => fwd ROps p l acc) be x) as [v|]; cbn [obind]; [|reflexivity]. rewrite !foldM_app, H. reflexivity.
Qed.

Lemma fwd_matrix : forall (l : dense ROps) ms, fwd ROps p (LDense l) (IOMatrix ms) = Panic.
Proof. reflexivity. Qed.
Lemma fwd_short : forall (l : dense ROps) v, length v <> inputs ROps l -> fwd ROps p (LDense l) (IOScalar v) = Panic.
Proof. intros l v N. unfold fwd. cbn [layer_forward]. rewrite (proj2 (C40_rejects ROps p l) v N). reflexivity. Qed.
Lemma fwd_vec : forall (l : dense ROps) v, dense_wf ROps l -> length v = inputs ROps l ->
  fwd ROps p (LDense l) (IOScalar v) = (ys <- mapM (fun i => activate ROps p (d_func l) (pre ROps l v i)) (seq 0 (units ROps l)) ;; Ret (IOScalar ys)).
Proof. intros l v W L. unfold fwd. cbn [layer_forward]. rewrite dense_forward_ok by auto. destruct (mapM _ _); reflexivity. Qed.
Lemma fwd_total : forall (l : dense ROps) v f, dense_wf ROps l -> length v = inputs ROps l ->
  (forall i, i < units ROps l -> activate ROps p (d_func l) (pre ROps l v i) = Ret (f i)) ->
  fwd ROps p (LDense l) (IOScalar v) = Ret (IOScalar (map f (seq 0 (units ROps l)))).
Proof.
  intros l v f W L H. rewrite fwd_vec by auto. rewrite (mapM_ret _ f); [reflexivity|]. intros i Hi. apply in_seq in Hi. apply H. lia.
Qed.

(** ** Merging *)
Definition merged (l m : dense ROps) : dense ROps :=
  mkDense ROps (mat (units ROps m) (inputs ROps l) (fun o j => csum (fun i => (weight ROps m o i * weight ROps l i j)%RC) (units ROps l)))
    (map (fun o => (csum (fun i => weight ROps m o i * nth i (d_biases l) 0%RC) (units ROps l) + nth o (d_biases m) 0%RC)%RC) (seq 0 (units ROps m)))
    (d_func m).

Lemma merged_merges : forall l m, dense_wf ROps l -> dense_wf ROps m -> merges l m (merged l m).
Proof.
  intros l m (W1 & B1 & N1) (W2 & B2 & N2). unfold merges, merged, dense_wf, inputs, units, weight. cbn [d_weights d_biases d_func mat sh0 sh1].
  split; [split; [apply wf_mat|]; split; [now rewrite map_length, seq_length | exact N1]|]. do 3 (split; [reflexivity|]). split.
  - intros o j Ho Hj. rewrite entry_mat by auto. reflexivity.
  - intros o Ho. rewrite nth_map_seq by auto. reflexivity.
Qed.

Lemma pre_merged : forall l m q v, dense_wf ROps l -> inputs ROps m = units ROps l -> merges l m q -> length v = inputs ROps l ->
  forall o, o < units ROps m -> pre ROps q v o = pre ROps m (map (pre ROps l v) (seq 0 (units ROps l))) o.
Proof.
  intros l m q v W IM (_ & IQ & _ & _ & HW & HB) L o Ho. unfold pre at 1 2. rewrite IQ, IM.
  refine (eq_ind_r (fun X => c_add ROps _ X = _) _ (HB o Ho)).
  transitivity (csum (fun j => csum (fun i => weight ROps m o i * weight ROps l i j * nth j v z)%RC (units ROps l)) (inputs ROps l) +
     (csum (fun i => weight ROps m o i * nth i (d_biases l) 0%RC) (units ROps l) + nth o (d_biases m) 0%RC))%RC.
  { f_equal. apply csum_ext. intros j Hj. rewrite HW by auto. rewrite csum_mul_r. reflexivity. }
  rewrite csum_swap.
  transitivity (csum (fun i => weight ROps m o i * pre ROps l v i)%RC (units ROps l) + nth o (d_biases m) 0%RC)%RC.
  - transitivity ((csum (fun i => csum (fun j => weight ROps m o i * weight ROps l i j * nth j v z)%RC (inputs ROps l)) (units ROps l) +
       csum (fun i => weight ROps m o i * nth i (d_biases l) 0%RC) (units ROps l)) + nth o (d_biases m) 0%RC)%RC; [ring|].
    f_equal. rewrite <- csum_add. apply csum_ext. intros i Hi.
    transitivity (weight ROps m o i * csum (fun j => weight ROps l i j * nth j v z)%RC (inputs ROps l) + weight ROps m o i * nth i (d_biases l) 0%RC)%RC.
    + f_equal. rewrite <- csum_mul_l. apply csum_ext. intros j Hj. ring.
    + transitivity (weight ROps m o i * (csum (fun j => weight ROps l i j * nth j v z)%RC (inputs ROps l) + nth i (d_biases l) 0%RC))%RC; [ring | reflexivity].
  - f_equal. apply csum_ext. intros i Hi. rewrite nth_map_seq by auto. reflexivity.
Qed.

Lemma merge_fold : forall l m q, dense_wf ROps l -> dense_wf ROps m -> d_func l = ActNone -> inputs ROps m = units ROps l -> merges l m q ->
  forall v, (y <- fwd ROps p (LDense l) v ;; fwd ROps p (LDense m) y) = fwd ROps p (LDense q) v.
Proof.
  intros l m q W1 W2 F IM M v. pose proof M as (WQ & IQ & UQ & FQ & _). destruct v as [v|ms]; [|reflexivity].
  destruct (Nat.eq_dec (length v) (inputs ROps l)) as [L|N].
  - rewrite (fwd_total l v (pre ROps l v)) by (auto; intros i _; rewrite F; reflexivity). cbn [obind].
    rewrite (fwd_vec m), (fwd_vec q) by (auto; try congruence; now rewrite map_length, seq_length). rewrite UQ, FQ. f_equal.
    apply mapM_ext. intros o Ho. apply in_seq in Ho. rewrite (pre_merged l m q v) by (auto; lia). reflexivity.
  - rewrite !fwd_short by congruence. reflexivity.
Qed.

Theorem merge_pair : forall l m, dense_wf ROps l -> dense_wf ROps m -> d_func l = ActNone -> inputs ROps m = units ROps l ->
  exists q, merges l m q /\ interchangeable p [LDense l; LDense m] [LDense q].
Proof.
  intros l m W1 W2 F IM. exists (merged l m). pose proof (merged_merges l m W1 W2) as M. split; [exact M|].
  apply same_by_fold; try discriminate. intros v. cbn [foldM]. rewrite <- (merge_fold l m _ W1 W2 F IM M v).
  destruct (fwd ROps p (LDense l) v) as [y|]; cbn [obind]; [|reflexivity]. reflexivity.
Qed.

Theorem merge_run : forall ls N m, linear_run N ls (inputs ROps m) -> dense_wf ROps m ->
  exists q, dense_wf ROps q /\ inputs ROps q = N /\ units ROps q = units ROps m /\ d_func q = d_func m /\
    interchangeable p (map LDense ls ++ [LDense m]) [LDense q].
Proof.
  induction ls as [|l ls IH]; intros N m R W; inversion R as [N0|l0 ls0 M0 H1 H2 H4]; subst.
  - exists m. split; [exact W|]. do 3 (split; [reflexivity|]). intros be af x. reflexivity.
  - destruct (IH _ m H4 W) as (q & WQ & IQ & UQ & FQ & S). destruct (merge_pair l q H1 WQ H2 IQ) as (k & M & T).
    pose proof M as (WK & IK & UK & FK & _). exists k. split; [exact WK|]. split; [exact IK|]. split; [congruence|]. split; [congruence|].
    intros be af x. rewrite <- (T be af x). cbn [map app].
    pose proof (S (be ++ [LDense l]) af x) as E. rewrite <- !app_assoc in E. cbn [app] in E. rewrite <- app_assoc. exact E.
Qed.

(** ** Scaling *)
Lemma relu_scale : forall c x : R, (0 < c)%R -> relu ROps (c * x)%R = (c * relu ROps x)%R.
Proof.
  intros c x H. unfold relu. cbn [fsignneg ROps]. destruct (Rltb x 0) eqn:E.
  - apply Rltb_lt in E. assert (Rltb (c * x) 0 = true) as -> by (apply Rltb_lt; rewrite <- (Rmult_0_r c); apply Rmult_lt_compat_l; lra). cbn. ring.
  - apply Rltb_ge in E. assert (Rltb (c * x) 0 = false) as -> by (apply Rltb_ge; apply Rmult_le_pos; lra). reflexivity.
Qed.
Lemma sign_scale : forall c x : R, (0 < c)%R -> fsignneg ROps (c * x)%R = fsignneg ROps x.
Proof.
  intros c x H. cbn [fsignneg ROps]. destruct (Rltb x 0) eqn:E.
  - apply Rltb_lt in E. apply Rltb_lt. rewrite <- (Rmult_0_r c); apply Rmult_lt_compat_l; lra.
  - apply Rltb_ge in E. apply Rltb_ge. apply Rmult_le_pos; lra.
Qed.
Lemma scale_parts : forall (c : R) (q : RC), (mkC c 0%R * q)%RC = mkC (c * re q)%R (c * im q)%R.
Proof. intros c [x y]. apply c_ext; cbn; ring. Qed.

Lemma act_scale : forall f (c : R), scalable f -> (0 < c)%R -> forall q, exists y, activate ROps p f q = Ret y /\
  activate ROps p f (mkC c 0%R * q)%RC = Ret (mkC c 0%R * y)%RC.
Proof.
  intros f c [-> | [-> | ->]] H q.
  - eexists; split; reflexivity.
  - eexists. split; [reflexivity|]. rewrite !scale_parts. cbn [activate]. f_equal. unfold ritrelu. cbn [re im]. rewrite !relu_scale by auto. reflexivity.
  - eexists. split; [reflexivity|]. rewrite scale_parts. cbn [activate]. f_equal. unfold zrelu. cbn [re im]. rewrite !sign_scale by auto.
    destruct (fsignneg ROps (re q) || fsignneg ROps (im q)); rewrite scale_parts; apply c_ext; cbn; ring.
Qed.

Lemma pre_scaled : forall a l l' v, inputs ROps l' = inputs ROps l ->
  (forall i, i < units ROps l -> nth i (d_biases l') 0%RC = (mkC (a i) 0%R * nth i (d_biases l) 0%RC)%RC) ->
  (forall i j, i < units ROps l -> j < inputs ROps l -> weight ROps l' i j = (mkC (a i) 0%R * weight ROps l i j)%RC) ->
  forall i, i < units ROps l -> pre ROps l' v i = (mkC (a i) 0%R * pre ROps l v i)%RC.
Proof.
  intros a l l' v I HB HW i Hi. unfold pre. rewrite I. refine (eq_ind_r (fun X => c_add ROps _ X = _) _ (HB i Hi)).
  transitivity (mkC (a i) 0%R * csum (fun j => weight ROps l i j * nth j v z)%RC (inputs ROps l) + mkC (a i) 0%R * nth i (d_biases l) 0%RC)%RC.
  - f_equal. rewrite <- csum_mul_l. apply csum_ext. intros j Hj. rewrite HW by auto. ring.
  - transitivity (mkC (a i) 0%R * (csum (fun j => weight ROps l i j * nth j v z)%RC (inputs ROps l) + nth i (d_biases l) 0%RC))%RC; [ring | reflexivity].
Qed.

Theorem scale_pair : forall a l l' m m', scalable (d_func l) -> inputs ROps m = units ROps l -> (forall i, i < units ROps l -> (0 < a i)%R) ->
  units_scaled a l l' -> inputs_unscaled a m m' -> interchangeable p [LDense l'; LDense m'] [LDense l; LDense m].
Proof.
  intros a l l' m m' SC IM PO (W1 & W2 & U & I & F & HB & HW) (W3 & W4 & U' & I' & F' & B' & HW').
  apply same_by_fold; try discriminate. intros v. cbn [foldM].
  assert (E : (y <- fwd ROps p (LDense l') v ;; fwd ROps p (LDense m') y) = (y <- fwd ROps p (LDense l) v ;; fwd ROps p (LDense m) y)).
  2:{ destruct (fwd ROps p (LDense l') v) as [y'|], (fwd ROps p (LDense l) v) as [y|]; cbn [obind] in *; try reflexivity.
      - now rewrite E.
      - now rewrite E.
      - now rewrite <- E. }
  destruct v as [v|ms]; [|reflexivity].
  destruct (Nat.eq_dec (length v) (inputs ROps l)) as [L|N]; [|rewrite !fwd_short by congruence; reflexivity].
  set (h := fun q => match activate ROps p (d_func l) q with Ret y => y | Panic => z end).
  pose proof (pre_scaled a l l' v I HB HW) as PR.
  rewrite (fwd_total l v (fun i => h (pre ROps l v i))); auto.
  2:{ intros i Hi. destruct (act_scale _ (a i) SC (PO i Hi) (pre ROps l v i)) as (y & E & _). unfold h. rewrite E. reflexivity. }
  rewrite (fwd_total l' v (fun i => mkC (a i) 0%R * h (pre ROps l v i))%RC); auto; try congruence.
  2:{ intros i Hi. rewrite U in Hi. rewrite F, PR by auto. destruct (act_scale _ (a i) SC (PO i Hi) (pre ROps l v i)) as (y & E & E').
      unfold h. rewrite E. exact E'. }
  cbn [obind]. rewrite !fwd_vec by (auto; rewrite map_length, seq_length; congruence). rewrite U', F'. f_equal. apply mapM_ext. intros o Ho. apply in_seq in Ho.
  f_equal. unfold pre at 1 3. rewrite I', IM, B'. f_equal. apply csum_ext. intros i Hi. rewrite !nth_map_seq by lia.
  rewrite <- (HW' o i) by lia. ring.
Qed.

(** ** Activations that see the direction only *)
Lemma atan2_scale : forall c x y : R, (0 < c)%R -> Ratan2 (c * y) (c * x) = Ratan2 y x.
Proof.
  intros c x y H. unfold Ratan2.
  assert (P : forall t, (0 < c * t <-> 0 < t)%R).
  { intros t. split; intros K; [|now apply Rmult_lt_0_compat]. apply Rmult_lt_reg_l with c; [exact H|]. lra. }
  assert (N : forall t, (c * t < 0 <-> t < 0)%R).
  { intros t. pose proof (P (- t)%R) as Q. replace (c * - t)%R with (- (c * t))%R in Q by ring. split; intros K; [assert (0 < - t)%R by (apply Q; lra) | assert (0 < - (c * t))%R by (apply Q; lra)]; lra. }
  assert (D : (x <> 0 -> c * y / (c * x) = y / x)%R) by (intros X; field; lra).
  destruct (Rlt_dec 0 (c * x)) as [A|A], (Rlt_dec 0 x) as [B|B]; try (rewrite P in A; contradiction); [rewrite D by lra; reflexivity|].
  destruct (Rlt_dec (c * x) 0) as [A1|A1], (Rlt_dec x 0) as [B1|B1]; try (rewrite N in A1; contradiction).
  - rewrite D by lra. destruct (Rle_dec 0 (c * y)) as [A2|A2], (Rle_dec 0 y) as [B2|B2]; try reflexivity; exfalso.
    + assert (y < 0)%R by lra. apply (proj2 (N y)) in H0. lra.
    + assert (c * y < 0)%R by lra. apply (proj1 (N y)) in H0. lra.
  - destruct (Rlt_dec 0 (c * y)) as [A2|A2], (Rlt_dec 0 y) as [B2|B2]; try (rewrite P in A2; contradiction); [reflexivity|].
    destruct (Rlt_dec (c * y) 0) as [A3|A3], (Rlt_dec y 0) as [B3|B3]; try (rewrite N in A3; contradiction); reflexivity.
Qed.

Lemma mod_scale : forall c x y : R, (0 < c)%R -> (x <> 0 \/ y <> 0)%R ->
  mkC (c * x / nrm (c * x) (c * y))%R (c * y / nrm (c * x) (c * y))%R = mkC (x / nrm x y)%R (y / nrm x y)%R.
Proof.
  intros c x y H XY. pose proof (nrm_pos x y XY) as N.
  assert (E : nrm (c * x) (c * y) = (c * nrm x y)%R).
  { unfold nrm in *. replace (c * x * (c * x) + c * y * (c * y))%R with ((c * c) * (x * x + y * y))%R by ring.
    rewrite sqrt_mult; [rewrite sqrt_square by lra; reflexivity | nra | nra]. }
  rewrite E. apply c_ext; cbn [re im]; field; lra.
Qed.

Lemma mod_both : forall c x y : R, (0 < c)%R -> (x <> 0 \/ y <> 0)%R -> mod_z ROps (mkC (c * x)%R (c * y)%R) = mod_z ROps (mkC x y).
Proof.
  intros c x y H XY. refine (eq_trans (mod_z_ok (c * x) (c * y) _) (eq_trans (f_equal Ret (mod_scale c x y H XY)) (eq_sym (mod_z_ok x y XY)))).
  destruct XY as [X|Y]; [left | right]; apply Rmult_integral_contrapositive; split; lra.
Qed.

Lemma act_direction : forall f (c : R) q, direction_only p f -> (0 < c)%R -> activate ROps p f (mkC c 0%R * q)%RC = activate ROps p f q.
Proof.
  intros f c [x y] [-> | (-> & ->)] H; rewrite scale_parts; cbn [re im].
  - cbn [activate]. change (F ROps) with R in x, y. destruct (Req_EM_T x 0) as [X|X], (Req_EM_T y 0) as [Y|Y].
    + subst. apply (f_equal (mod_z ROps)). apply c_ext; apply Rmult_0_r.
    + apply mod_both; auto.
    + apply mod_both; auto.
    + apply mod_both; auto.
  - cbn [activate]. f_equal. unfold card, c_phase. cbn [re im fatan2 ROps]. rewrite atan2_scale by auto. reflexivity.
Qed.

Theorem direction_layer : forall a l l', direction_only p (d_func l) -> (forall i, i < units ROps l -> (0 < a i)%R) ->
  units_scaled a l l' -> interchangeable p [LDense l'] [LDense l].
Proof.
  intros a l l' SC PO (W1 & W2 & U & I & F & HB & HW). apply same_by_fold; try discriminate. intros v. cbn [foldM].
  assert (E : fwd ROps p (LDense l') v = fwd ROps p (LDense l) v); [|now rewrite E].
  destruct v as [v|ms]; [|reflexivity].
  destruct (Nat.eq_dec (length v) (inputs ROps l)) as [L|N]; [|rewrite !fwd_short by congruence; reflexivity].
  rewrite !fwd_vec by (auto; congruence). rewrite U, F. f_equal. apply mapM_ext. intros i Hi. apply in_seq in Hi.
  rewrite (pre_scaled a l l' v) by (auto; lia). apply act_direction; auto. apply PO. lia.
Qed.

(** ** Full-size kernels *)
Definition as_dense (a b : nat) (l : conv ROps) : dense ROps :=
  mkDense ROps (mat (filters ROps l) (channels ROps l * (a * b)) (fun o q => kval ROps l o (q / (a * b)) ((q / b) mod a) (q mod b))) (k_biases l) (k_func l).

Lemma as_dense_reads : forall a b l, conv_wf ROps a b l -> reads_like a b l (as_dense a b l).
Proof.
  intros a b l (W & F & C & A & B & LB & KI & K). unfold reads_like, as_dense, dense_wf, units, inputs, weight. cbn [d_weights d_biases d_func mat sh0 sh1].
  split; [split; [apply wf_mat|]; split; [exact LB|]; intros Q; apply Nat.eq_mul_0 in Q as [Q|Q]; [lia|]; apply Nat.eq_mul_0 in Q as [Q|Q]; lia|].
  do 4 (split; [reflexivity|]). intros o ch u v Ho Hc Hu Hv.
  assert (E1 : ((ch * a + u) * b + v) / b = ch * a + u) by (rewrite Nat.div_add_l by lia; rewrite Nat.div_small; lia).
  assert (E2 : ((ch * a + u) * b + v) mod b = v) by (rewrite Nat.add_comm, Nat.mod_add by lia; now apply Nat.mod_small).
  assert (E3 : (ch * a + u) mod a = u) by (rewrite Nat.add_comm, Nat.mod_add by lia; now apply Nat.mod_small).
  assert (E4 : ((ch * a + u) * b + v) / (a * b) = ch).
  { rewrite (Nat.mul_comm a b), <- Nat.div_div by lia. rewrite E1. rewrite Nat.div_add_l by lia. rewrite Nat.div_small by lia. lia. }
  rewrite entry_mat; [|exact Ho|].
  - now rewrite E1, E2, E3, E4.
  - assert ((ch * a + u) < channels ROps l * a) by nia. nia.
Qed.

Lemma pre_reads : forall a b l q ms v o, conv_wf ROps a b l -> reads_like a b l q -> maps_wf (channels ROps l) a b ms ->
  (forall ch i j, ch < channels ROps l -> i < a -> j < b -> at3 z a b v ch i j = px z ms ch i j) -> o < filters ROps l ->
  pre ROps q v o = cpre ROps a b l ms o 0 0.
Proof.
  intros a b l q ms v o W (WQ & UQ & IQ & FQ & BQ & HW) M AT Ho. unfold pre, cpre. rewrite IQ, BQ. f_equal.
  transitivity (csum (fun j => weight ROps q o j * nth j v z)%RC (channels ROps l * (a * b))); [reflexivity|].
  rewrite csum_3. unfold csum3. apply csum_ext. intros ch Hc. unfold corr.
  transitivity (csum (fun u => csum (fun w => px z ms ch (0 + u) (0 + w) * kval ROps l o ch u w)%RC b) a); [|reflexivity].
  apply csum_ext. intros u Hu. apply csum_ext. intros w Hw. rewrite HW by auto. cbn [Nat.add]. rewrite <- (AT ch u w) by auto. unfold at3. ring.
Qed.

Theorem full_kernel : forall a b l f f', conv_wf ROps a b l -> exists q, reads_like a b l q /\
  forall ms after, maps_wf (channels ROps l) a b ms ->
    net_forward ROps p (LConv l :: LFlatten f :: after) (IOMatrix ms) = net_forward ROps p (LFlatten f' :: LDense q :: after) (IOMatrix ms).
Proof.
  intros a b l f f' W. exists (as_dense a b l). pose proof (as_dense_reads a b l W) as RL. split; [exact RL|]. intros ms af M.
  set (q := as_dense a b l) in *. clearbody q. pose proof RL as (WQ & UQ & IQ & FQ & BQ & HW).
  destruct (C48_forward ROps f' _ a b ms M) as (v & EV & LV & AT).
  assert (E : (y <- fwd ROps p (LConv l) (IOMatrix ms) ;; fwd ROps p (LFlatten f) y) =
              (y <- fwd ROps p (LFlatten f') (IOMatrix ms) ;; fwd ROps p (LDense q) y)).
  { unfold fwd at 3. cbn [layer_forward]. rewrite EV. cbn [obind unwrap]. rewrite fwd_vec by (auto; congruence). rewrite UQ, FQ.
    rewrite (mapM_ext _ (fun o => activate ROps p (k_func l) (cpre ROps a b l ms o 0 0))).
    2:{ intros o Ho. apply in_seq in Ho. rewrite (pre_reads a b l q ms v o) by (auto; lia). reflexivity. }
    pose proof W as (_ & HF & _).
    destruct (Classical_Prop.classic (exists o, o < filters ROps l /\ activate ROps p (k_func l) (cpre ROps a b l ms o 0 0) = Panic)) as [(o & Ho & PA)|NP].
    - unfold fwd at 1. cbn [layer_forward]. rewrite (C44_panic ROps p a b a b l ms o 0 0); auto; try lia. cbn [obind unwrap]. symmetry.
      assert (G : forall xs, In o xs -> mapM (fun o => activate ROps p (k_func l) (cpre ROps a b l ms o 0 0)) xs = Panic).
      { induction xs as [|x xs IH]; intros IN; [destruct IN|]. cbn [mapM]. destruct IN as [->|IN]; [rewrite PA; reflexivity|].
        rewrite IH by auto. destruct (activate ROps p (k_func l) (cpre ROps a b l ms x 0 0)); reflexivity. }
      rewrite G by (apply in_seq; lia). reflexivity.
    - set (y := fun o i j => match activate ROps p (k_func l) (cpre ROps a b l ms o i j) with Ret y => y | Panic => z end).
      assert (Y : forall o, o < filters ROps l -> activate ROps p (k_func l) (cpre ROps a b l ms o 0 0) = Ret (y o 0 0)).
      { intros o Ho. unfold y. destruct (activate ROps p (k_func l) (cpre ROps a b l ms o 0 0)) eqn:Q; [reflexivity|]. exfalso. apply NP. eauto. }
      rewrite (mapM_ret _ (fun o => y o 0 0)) by (intros o Ho; apply in_seq in Ho; apply Y; lia). cbn [obind].
      unfold fwd at 1. cbn [layer_forward]. rewrite (C44_forward ROps p a b a b l ms y); auto; try lia.
      2:{ intros o i j Ho Hi Hj. replace i with 0 by lia. replace j with 0 by lia. apply Y, Ho. }
      cbn [obind unwrap]. unfold fwd. cbn [layer_forward flat_forward obind unwrap]. do 2 f_equal.
      replace (a - a + 1) with 1 by lia. replace (b - b + 1) with 1 by lia. rewrite flat_map_concat_map, map_map. cbn [mat body].
      generalize (seq 0 (filters ROps l)). induction l0 as [|o l0 IH]; [reflexivity|]. cbn [map concat]. rewrite IH. reflexivity. }
  rewrite !forward_fold by discriminate. cbn [foldM].
  destruct (fwd ROps p (LConv l) (IOMatrix ms)) as [y|], (fwd ROps p (LFlatten f') (IOMatrix ms)) as [y'|]; cbn [obind] in *; try reflexivity.
  - now rewrite E.
  - now rewrite E.
  - now rewrite <- E.
Qed.
End Same.
