(** * Predictions that cannot change: proofs *)
From Coq Require Import Reals Lra Psatz.
From Verif Require Import Base BaseFacts Float Matrix Cplx Act Input Loss Dense Conv Layer Dataset Network Examples RFloat CFacts
  SpecMatrix MatrixFacts SpecLayer SpecConv SpecNet SpecEval SpecGeom SpecGrad SpecRound SpecLoss LossFacts FitFacts SpecLip LipFacts NetFacts RoundNet RoundAct
  PropSame PropDense PropEval PoolTrain.
Local Open Scope R_scope.

Lemma norm_modulus : forall z : RC, c_norm_sq ROps z = modulus z * modulus z.
Proof.
  intros z. unfold modulus. rewrite sqrt_sqrt.
  - unfold c_norm_sq, fsq. cbn. match goal with |- ?x = ?y => change (@eq R x y) end. ring.
  - pose proof (Rle_0_sqr (re z)). pose proof (Rle_0_sqr (im z)). unfold Rsqr in *. lra.
Qed.

Lemma modulus_near : forall (a b : RC) d, modulus (a - b)%RC <= d -> modulus a - d <= modulus b <= modulus a + d.
Proof.
  intros a b d H. pose proof (modulus_diff a b). pose proof (modulus_diff b a). rewrite (modulus_sym b a) in *. lra.
Qed.

Lemma leader : forall (y : list RC) i, (i < length y)%nat -> (forall j, (j < length y)%nat -> j <> i -> modulus (nth j y 0%RC) < modulus (nth i y 0%RC)) ->
  max_index ROps y = i.
Proof.
  intros y i I H. apply (C56_index_unique y); [apply C56_index_exact; destruct y; [cbn in I; lia | discriminate]|].
  assert (G : forall j a b, nth_error y j = Some a -> nth_error y i = Some b -> j <> i -> c_norm_sq ROps a < c_norm_sq ROps b).
  { intros j a b A B N. assert (J : (j < length y)%nat) by (apply nth_error_Some; congruence). specialize (H j J N).
    rewrite (nth_error_nth y j 0%RC A), (nth_error_nth y i 0%RC B) in H. rewrite !norm_modulus. pose proof (modulus_pos a). pose proof (modulus_pos b). nra. }
  split; [exact I|]. split.
  - intros j a b A B. apply Rltb_ge. destruct (Nat.eq_dec j i) as [->|N]; [|left; now apply (G j)].
    right. congruence.
  - intros j a b L A B. apply Rltb_lt. apply (G j); auto. lia.
Qed.

Lemma certified : forall p (n : network ROps) g k e x y i, n <> [] -> fit_all ROps n g (Vec k) -> Forall steady n -> (0 <= e)%R ->
  has_geom g x -> predicts ROps p n x y -> (i < k)%nat -> (forall j, (j < k)%nat -> j <> i -> modulus (nth j y 0%RC) + 2 * net_spread p n e < modulus (nth i y 0%RC)) ->
  max_index ROps y = i /\ forall x', nearby g e x x' -> exists y', predicts ROps p n x' y' /\ max_index ROps y' = i.
Proof.
  intros p n g k e x y i NE HF S E0 GX P I H.
  assert (G : forall x', nearby g e x x' -> exists y', predicts ROps p n x' y' /\ max_index ROps y' = i).
  { intros x' N. destruct (forward_nearby p n g (Vec k) e x x' NE HF S E0 N) as (w & w' & E & E' & GW & GW' & D).
    unfold predicts in P. rewrite P in E. injection E as <-. destruct w' as [y'|]; [|contradiction]. cbn [has_geom vals gsize] in *.
    exists y'. split; [exact E'|]. apply leader; [congruence|]. intros j J N'.
    pose proof (modulus_near _ _ _ (D i I)). pose proof (modulus_near _ _ _ (D j ltac:(congruence))). specialize (H j ltac:(congruence) N'). lra. }
  split; [|exact G].
  destruct (G x) as (y' & P' & M).
  { split; [exact GX|]. split; [exact GX|]. intros q _. replace (nth q (vals x) 0 - nth q (vals x) 0)%RC with 0%RC by ring. now rewrite modulus_zero. }
  unfold predicts in *. rewrite P in P'. injection P' as <-. exact M.
Qed.

Lemma nearby_geom : forall g e x x', nearby g e x x' -> has_geom g x.
Proof. intros g e x x' H. apply H. Qed.

Lemma certified_accuracy : forall p (n : network ROps) g k e (d d' : dataset RC RC) targs, n <> [] -> fit_all ROps n g (Vec k) -> Forall steady n -> (0 <= e)%R ->
  ds_target d = map (@IOScalar _) targs -> ds_target d' = ds_target d -> length targs = length (ds_inputs d) ->
  (forall x, In x (ds_inputs d) -> exists y i, predicts ROps p n x y /\ (i < k)%nat /\
     forall j, (j < k)%nat -> j <> i -> (modulus (nth j y 0%RC) + 2 * net_spread p n e < modulus (nth i y 0%RC))%R) ->
  Forall2 (nearby g e) (ds_inputs d) (ds_inputs d') ->
  exists a, net_max_pred_test ROps p n d = Ret a /\ net_max_pred_test ROps p n d' = Ret a.
Proof.
  intros p n g k e d d' targs NE HF S E0 T T' L H N.
  assert (G : exists ps ps', Forall2 (predicts ROps p n) (ds_inputs d) ps /\ Forall2 (predicts ROps p n) (ds_inputs d') ps' /\
    map (max_index ROps) ps = map (max_index ROps) ps').
  { clear T T' L. induction N as [|x x' xs xs' X N IH]; [exists [], []; repeat split; constructor|].
    destruct IH as (ps & ps' & A & B & M); [intros q Q; apply H; now right|].
    destruct (H x (or_introl eq_refl)) as (y & i & P & I & LD).
    destruct (certified p n g k e x y i NE HF S E0 (nearby_geom _ _ _ _ X) P I LD) as (M1 & C). destruct (C x' X) as (y' & P' & M2).
    exists (y :: ps), (y' :: ps'). split; [now constructor|]. split; [now constructor|]. cbn [map]. congruence. }
  destruct G as (ps & ps' & A & B & M).
  pose proof (Forall2_len _ _ _ A) as LA. pose proof (Forall2_len _ _ _ B) as LB. pose proof (Forall2_len _ _ _ N) as LN.
  eexists. split; [apply (C56_accuracy ROps p n d ps targs A T); congruence|].
  rewrite (C56_accuracy ROps p n d' ps' targs B); [now rewrite M | congruence | congruence].
Qed.

Lemma zrelu_jumps : forall p e, (0 < e)%R -> exists x x',
  nearby (Vec 1) e (IOScalar [x]) (IOScalar [x']) /\
  exists y y', predicts ROps p [LDense (one_one 1%RC 0%RC ZReLU)] (IOScalar [x]) [y] /\
    predicts ROps p [LDense (one_one 1%RC 0%RC ZReLU)] (IOScalar [x']) [y'] /\ (modulus (y - y')%RC = 1)%R.
Proof.
  intros p e E. exists (mkC 0 1), (mkC (- e) 1). split.
  { split; [reflexivity|]. split; [reflexivity|]. intros i I. cbn in I. assert (i = 0%nat) as -> by lia. cbn [nth vals]. unfold modulus. cbn.
    replace ((0 - - e) * (0 - - e) + (1 - 1) * (1 - 1)) with (e * e) by ring. rewrite sqrt_square; lra. }
  exists (mkC 0 1), 0%RC. unfold predicts. rewrite !one_one_net. cbn [activate]. unfold zrelu.
  assert (A : (1 * mkC 0%R 1%R + 0)%RC = mkC 0 1) by (apply c_ext; cbn; ring). assert (B : (1 * mkC (- e)%R 1%R + 0)%RC = mkC (- e) 1) by (apply c_ext; cbn; ring).
  rewrite A, B. cbn [Cplx.re Cplx.im]. change (fsignneg ROps) with (fun x => Rltb x 0). cbv beta.
  assert (S0 : Rltb 0 0 = false) by (apply Rltb_ge; lra). assert (S1 : Rltb 1 0 = false) by (apply Rltb_ge; lra). assert (S2 : Rltb (- e) 0 = true) by (apply Rltb_lt; lra).
  rewrite S0, S1, S2. cbn [orb obind]. split; [reflexivity|]. split; [reflexivity|]. unfold modulus. cbn.
  replace ((0 - 0) * (0 - 0) + (1 - 0) * (1 - 0)) with 1 by ring. apply sqrt_1.
Qed.

(** ** Means of blocks *)
Lemma fold_csum : forall b : list RC, fold_left (c_add ROps) b 0%RC = csum (fun i => nth i b 0%RC) (length b).
Proof. intros b. exact (fold_sum_from (c_add ROps) 0%RC 0%RC b). Qed.

Lemma mean_steady : forall (l : red ROps), (1 <= r_b0 l)%nat -> (1 <= r_b1 l)%nat -> r_func l = avg_block ROps -> steady (LReduce l).
Proof.
  intros l A B RF b b' v v' e L L' H. rewrite RF.
  assert (NB : b <> []) by (intros ->; cbn in L; nia). assert (NB' : b' <> []) by (intros ->; destruct b; [contradiction | discriminate]).
  rewrite !avg_mean by auto. intros V V'. injection V as <-. injection V' as <-. unfold cmean. rewrite !fold_csum, L'.
  assert (P : 0 < INR (length b)) by (apply lt_0_INR; destruct b; [contradiction | cbn; lia]).
  set (q := mkC (/ INR (length b)) 0%R : RC).
  replace (q * csum (fun i => nth i b 0%RC) (length b) - q * csum (fun i => nth i b' 0%RC) (length b))%RC
    with (q * (csum (fun i => nth i b 0%RC) (length b) - csum (fun i => nth i b' 0%RC) (length b)))%RC by ring.
  rewrite csum_minus, modulus_mul. assert (Q : modulus q = / INR (length b)).
  { unfold modulus, q. cbn [Cplx.re Cplx.im]. rewrite Rmult_0_l, Rplus_0_r. apply sqrt_square. left. now apply Rinv_0_lt_compat. }
  rewrite Q. apply (Rmult_le_reg_l (INR (length b))); [exact P|]. rewrite <- Rmult_assoc, Rinv_r, Rmult_1_l by lra.
  eapply Rle_trans; [apply csum_modulus|]. generalize (length b) H. clear. intros n H. induction n as [|n IH]; [rewrite rsum_0; cbn; lra|].
  rewrite rsum_S, S_INR. assert (rsum (fun i => modulus (nth i b 0 - nth i b' 0)%RC) n <= INR n * e) by (apply IH; intros; apply H; lia).
  specialize (H n ltac:(lia)). lra.
Qed.

(** ** The factor is attained *)
Lemma largest_attained : forall f n, (1 <= n)%nat -> (forall i, 0 <= f i) -> exists i, (i < n)%nat /\ f i = largest f n.
Proof.
  intros f n N P. unfold largest. assert (G : forall l, l <> [] -> exists i, In i l /\ f i = fold_right (fun i m => Rmax (f i) m) 0 l).
  { clear N n. induction l as [|j l IH]; [congruence|]. intros _. cbn [fold_right]. destruct l as [|j' l].
    - exists j. split; [now left|]. cbn [fold_right]. rewrite Rmax_left; auto.
    - destruct IH as (i & I & E); [discriminate|]. unfold Rmax. destruct (Rle_dec (f j) _).
      + exists i. split; [now right|exact E].
      + exists j. split; [now left | reflexivity]. }
  destruct (G (seq 0 n)) as (i & I & E); [destruct n; [lia|discriminate]|]. exists i. split; [apply in_seq in I; lia | exact E].
Qed.

(** The direction in which a weight is turned onto the positive real axis. *)
Definition turned (e : R) (w : RC) : RC := if Rlt_dec 0 (modulus w) then (mkC (e / modulus w)%R 0%R * c_conj ROps w)%RC else 0%RC.

Lemma turned_le : forall e w, 0 <= e -> modulus (0 - turned e w)%RC <= e.
Proof.
  intros e w E. rewrite modulus_sym. replace (turned e w - 0)%RC with (turned e w) by ring. unfold turned. destruct (Rlt_dec 0 (modulus w)) as [P|P]; [|now rewrite modulus_zero].
  rewrite modulus_mul. assert (A : modulus (mkC (e / modulus w) 0) = e / modulus w).
  { unfold modulus at 1. cbn [Cplx.re Cplx.im]. rewrite Rmult_0_l, Rplus_0_r. apply sqrt_square. unfold Rdiv. apply Rmult_le_pos; [exact E | left; now apply Rinv_0_lt_compat]. }
  assert (B : modulus (c_conj ROps w) = modulus w) by (unfold modulus; f_equal; cbn; ring).
  rewrite A, B. right. field. lra.
Qed.

Lemma turned_mul : forall e w, (w * turned e w)%RC = mkC (e * modulus w) 0.
Proof.
  intros e w. unfold turned. destruct (Rlt_dec 0 (modulus w)) as [P|P].
  - pose proof (norm_modulus w) as N. unfold c_norm_sq, fsq in N. cbn [fadd fmul ROps] in N.
    apply c_ext; cbn; change (F ROps) with R in *.
    + replace (re w * (e / modulus w * re w - 0 * - im w) - im w * (e / modulus w * - im w + 0 * re w)) with (e / modulus w * (re w * re w + im w * im w)) by ring.
      rewrite N. field. lra.
    + ring.
  - assert (Z : modulus w = 0) by (pose proof (modulus_pos w); lra). rewrite Z. apply c_ext; cbn; ring.
Qed.

Lemma csum_real : forall (f : nat -> R) e n, csum (fun j => mkC (e * f j) 0) n = mkC (e * rsum f n) 0.
Proof.
  intros f e n. induction n as [|n IH]; [apply c_ext; cbn; ring|]. rewrite csum_S, rsum_S, IH. apply c_ext; cbn; ring.
Qed.

Lemma spread_attained : forall p (l : dense ROps) e, dense_wf ROps l -> (1 <= units ROps l)%nat -> d_func l = ActNone -> (0 <= e)%R ->
  exists x x' y y' i, nearby (Vec (inputs ROps l)) e (IOScalar x) (IOScalar x') /\ (i < units ROps l)%nat /\
    net_forward ROps p [LDense l] (IOScalar x) = Ret (Ok (IOScalar y)) /\ net_forward ROps p [LDense l] (IOScalar x') = Ret (Ok (IOScalar y')) /\
    modulus (nth i y 0 - nth i y' 0)%RC = net_spread p [LDense l] e.
Proof.
  intros p l e W U A E. set (n := inputs ROps l).
  destruct (largest_attained (fun i => rsum (fun j => modulus (weight ROps l i j)) n) (units ROps l)) as (i & I & M).
  { exact U. }
  { intros i. apply rsum_nonneg. intros. apply modulus_pos. }
  set (x := map (fun _ => 0%RC) (seq 0 n)). set (x' := map (fun j => turned e (weight ROps l i j)) (seq 0 n)).
  assert (LX : length x = n) by (unfold x; now rewrite map_length, seq_length). assert (LX' : length x' = n) by (unfold x'; now rewrite map_length, seq_length).
  assert (FWD : forall v, length v = n -> net_forward ROps p [LDense l] (IOScalar v) = Ret (Ok (IOScalar (map (pre ROps l v) (seq 0 (units ROps l)))))).
  { intros v V. rewrite NetFacts.forward_fold by discriminate. cbn [foldM]. rewrite (fwd_ok ROps p (LDense l) (IOScalar v) (IOScalar (map (pre ROps l v) (seq 0 (units ROps l))))); [reflexivity|].
    cbn [layer_forward]. apply (C40_forward ROps p l v W V). rewrite map_length, seq_length. split; [reflexivity|]. intros q Q. rewrite nth_map_seq by auto. rewrite A. reflexivity. }
  exists x, x', (map (pre ROps l x) (seq 0 (units ROps l))), (map (pre ROps l x') (seq 0 (units ROps l))), i. split; [|split; [|split; [|split]]].
  - split; [exact LX|]. split; [exact LX'|]. intros j J. cbn [gsize vals] in *. unfold x, x'. rewrite !nth_map_seq by auto. now apply turned_le.
  - exact I.
  - now apply FWD.
  - now apply FWD.
  - rewrite !nth_map_seq by auto. cbn [net_spread fold_left layer_spread]. rewrite A. cbn [act_spread gain]. fold n. unfold pre. fold n. rewrite <- M.
    change (sum_from (c_add ROps) (c_default ROps)) with csum.
    rewrite (csum_ext (fun j => weight ROps l i j * nth j x 0)%RC (fun j => mkC (0 * modulus (weight ROps l i j)) 0)) by
      (intros j J; unfold x; rewrite nth_map_seq by auto; apply c_ext; cbn; ring).
    rewrite (csum_ext (fun j => weight ROps l i j * nth j x' 0)%RC (fun j => mkC (e * modulus (weight ROps l i j)) 0)) by
      (intros j J; unfold x'; rewrite nth_map_seq by auto; apply turned_mul).
    rewrite !(csum_real (fun j => modulus (weight ROps l i j))).
    set (s := rsum (fun j => modulus (weight ROps l i j)) n) in *. assert (S0 : 0 <= s) by (apply rsum_nonneg; intros; apply modulus_pos). clearbody s.
    rewrite modulus_sym. unfold modulus. cbn. set (b := nth i (d_biases l) (mkC 0 0)). change (F ROps) with R in *.
    match goal with |- sqrt ?t = _ => replace t with (s * e * (s * e)) by (change (F ROps) with R in *; ring) end. apply sqrt_square. now apply Rmult_le_pos.
Qed.

(** ** An example *)
Definition certain : network ROps :=
  [LDense (mkDense ROps (from_body [mkC 0 1; mkC 1 0; mkC 1 0; mkC 0 0]%R 2 2) [mkC 0 0; mkC 0 0]%R RITReLU);
   LDense (mkDense ROps (from_body [mkC 1 0; mkC 0 0; mkC 0 0; mkC 1 0]%R 2 2) [mkC 0 0; mkC 3 0]%R ActNone)].

Lemma mod_re : forall a, 0 <= a -> modulus (mkC a 0) = a.
Proof. intros a A. unfold modulus. cbn. replace (a * a + 0 * 0) with (a * a) by ring. now apply sqrt_square. Qed.
Lemma mod_im : forall a, 0 <= a -> modulus (mkC 0 a) = a.
Proof. intros a A. unfold modulus. cbn. replace (0 * 0 + a * a) with (a * a) by ring. now apply sqrt_square. Qed.

Lemma certain_case : fit_all ROps certain (Vec 2) (Vec 2) /\ Forall steady certain /\ predicts ROps P64 certain (IOScalar [mkC 1 0; mkC 0 0]%R) [mkC 0 1; mkC 4 0]%R /\
  (net_spread P64 certain (1 / 100) = 1 / 50)%R /\ forall x', nearby (Vec 2) (1 / 100)%R (IOScalar [mkC 1 0; mkC 0 0]%R) x' ->
    exists y', predicts ROps P64 certain x' y' /\ max_index ROps y' = 1%nat.
Proof.
  assert (F : fit_all ROps certain (Vec 2) (Vec 2)).
  { econstructor; [refine (fits_dense ROps _ _ _); [split; [reflexivity | split; [reflexivity | discriminate]] | discriminate]|].
    econstructor; [refine (fits_dense ROps _ _ _); [split; [reflexivity | split; [reflexivity | discriminate]] | discriminate]|]. constructor. }
  assert (S : Forall steady certain) by (repeat constructor; unfold steady, steady_act; cbn; auto 6).
  assert (S0 : Rltb 0 0 = false) by (apply Rltb_ge; lra). assert (S1 : Rltb 1 0 = false) by (apply Rltb_ge; lra).
  assert (P : predicts ROps P64 certain (IOScalar [mkC 1 0; mkC 0 0]%R) [mkC 0 1; mkC 4 0]%R).
  { unfold predicts, certain. rewrite NetFacts.forward_fold by discriminate. cbn [foldM].
    rewrite (fwd_ok ROps P64 _ (IOScalar [mkC 1 0; mkC 0 0]%R) (IOScalar [mkC 0 1; mkC 1 0]%R)).
    - cbn [obind foldM]. rewrite (fwd_ok ROps P64 _ (IOScalar [mkC 0 1; mkC 1 0]%R) (IOScalar [mkC 0 1; mkC 4 0]%R)); [reflexivity|].
      cbn [layer_forward]. apply (C40_forward ROps P64); [split; [reflexivity | split; [reflexivity | discriminate]] | reflexivity|].
      split; [reflexivity|]. intros [|[|i]] I; [| |cbn in I; lia]; cbn [nth activate d_func]; f_equal; apply c_ext; cbn; ring.
    - cbn [layer_forward]. apply (C40_forward ROps P64); [split; [reflexivity | split; [reflexivity | discriminate]] | reflexivity|].
      split; [reflexivity|]. intros [|[|i]] I; [| |cbn in I; lia]; cbn [nth activate d_func]; f_equal.
      + match goal with |- ritrelu ROps ?t = _ => replace t with (mkC 0 1 : RC) by (apply c_ext; cbn; ring) end. unfold ritrelu, relu. cbn [Cplx.re Cplx.im].
        change (fsignneg ROps) with (fun x => Rltb x 0). cbv beta. now rewrite S0, S1.
      + match goal with |- ritrelu ROps ?t = _ => replace t with (mkC 1 0 : RC) by (apply c_ext; cbn; ring) end. unfold ritrelu, relu. cbn [Cplx.re Cplx.im].
        change (fsignneg ROps) with (fun x => Rltb x 0). cbv beta. now rewrite S0, S1. }
  assert (E : (net_spread P64 certain (1 / 100) = 1 / 50)%R).
  { unfold net_spread, certain. cbn [fold_left layer_spread d_func act_spread gain]. unfold largest, units, inputs, weight, entry. cbn [d_weights from_body sh0 sh1 body seq fold_right].
    unfold sum_from. cbn [seq fold_left nth Nat.mul Nat.add]. pose proof (mod_re 0 ltac:(lra)) as Z0. pose proof (mod_re 1 ltac:(lra)) as Z1. pose proof (mod_im 1 ltac:(lra)) as Z2. rewrite Z0, Z1, Z2. rewrite !Rplus_0_l, !Rplus_0_r.
    rewrite (Rmax_left 1 0), (Rmax_left 1 1), (Rmax_left (1 + 1) 1) by lra. lra. }
  split; [exact F|]. split; [exact S|]. split; [exact P|]. split; [exact E|]. intros x' N.
  refine (proj2 (certified P64 certain (Vec 2) 2 (1 / 100) (IOScalar [mkC 1 0; mkC 0 0]%R) _ 1%nat ltac:(discriminate) F S ltac:(lra) eq_refl P ltac:(lia) _) x' N).
  intros j J NJ. assert (j = 0%nat) as -> by lia. rewrite E. cbn [nth]. rewrite mod_re, mod_im by lra. lra.
Qed.
