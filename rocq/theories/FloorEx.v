(** * Training with the cross entropy drives it to its floor, also from below *)
From Coq Require Import Reals Lra Psatz.
From Verif Require Import Base BaseFacts Float Matrix Cplx Random Act Input Loss Dense Conv Layer Dataset Network SpecMatrix RFloat CFacts SpecLayer SpecConv SpecNet SpecLoss LossFacts SpecEval PropTrain PropEval PropLoss PropLaws
  SpecGeom SpecDead SpecFit FitFacts FitNet PropFit SpecError ErrorFacts SpecFloor FloorFacts.
Local Open Scope nat_scope.

Lemma steps_entropy : forall p (n : network ROps) d lr T,
  train_steps ROps p n (repeat (d, NormCrossEntropy, lr) T) = train_steps ROps p n (repeat (d, MeanSquare, lr) T).
Proof.
  intros p n d lr T. revert n. induction T as [|T IH]; intros n; [reflexivity|]. cbn [repeat train_steps]. rewrite C36_training. destruct (net_gradient_opt ROps p n d MeanSquare lr) as [[n' [[]|e]]|]; cbn [obind snd fst]; [apply IH | reflexivity | reflexivity].
Qed.

Lemma as_labelled : forall m (pts : list (IOType RC * IOType RC)), (forall x t, In (x, t) pts -> exists k, k < m /\ t = IOScalar (one_hot m k)) ->
  exists ks, length ks = length (map fst pts) /\ (forall k, In k ks -> k < m) /\ batch pts = labelled m (map fst pts) ks.
Proof.
  intros m. induction pts as [|[x t] pts IH]; intros H; [exists []; repeat split; intros k []|]. destruct (IH ltac:(intros; eapply H; right; eassumption)) as (ks & L & K & E).
  destruct (H x t (or_introl eq_refl)) as (k & Hk & ->). exists (k :: ks). split; [cbn; now rewrite L|]. split; [intros j [<-|J]; auto|].
  apply (f_equal ds_target) in E. unfold batch, labelled in *. cbn [ds_target map fst snd] in *. f_equal. f_equal. exact E.
Qed.

Section Limit.
Context (p : prec) (feat : network ROps) (g : geometry) (d m : nat) (lo : dense ROps) (pts : list (IOType RC * IOType RC)).
Context (FN : feat <> []) (FP : Forall no_params feat) (FF : fit_all ROps feat g (Vec d)) (FT : Forall (trainable ROps) feat) (M : 2 <= m) (NP : pts <> []).
Context (OK : forall x t, In (x, t) pts -> has_geom g x /\ exists k, k < m /\ t = IOScalar (one_hot m k)).

Let OK' : forall x t, In (x, t) pts -> has_geom g x /\ exists v, t = IOScalar v /\ length v = m.
Proof. intros x t H. destruct (OK x t H) as (G & k & K & ->). split; [exact G|]. exists (one_hot m k). split; [reflexivity | apply one_hot_length]. Qed.

Lemma lin_classifies : forall l, linear d m l -> exists ks, batch pts = labelled m (map fst pts) ks /\ classifies p (feat ++ [LDense l]) m (map fst pts) ks.
Proof.
  intros l L. destruct (as_labelled m pts ltac:(intros x t H; exact (proj2 (OK x t H)))) as (ks & LK & K & E). exists ks. split; [exact E|]. split; [destruct pts; [congruence | discriminate]|].
  split; [exact LK|]. split; [exact K|]. intros x X. apply in_map_iff in X as ([x' t] & <- & I). destruct (OK x' t I) as (G & _). cbn [fst].
  destruct (net_trace p feat g d m FN FP FF FT l x' L G) as (u & _ & TR). assert (NF : feat ++ [LDense l] <> []) by (destruct feat; discriminate). pose proof (fwd_trace p _ x' _ NF TR) as FW.
  exists (map (pre ROps l (fv p feat x')) (seq 0 m)). split; [|now rewrite map_length, seq_length]. unfold predicts. rewrite FW. do 2 f_equal.
  change [IOScalar (fv p feat x'); IOScalar (map (pre ROps l (fv p feat x')) (seq 0 m))] with ([IOScalar (fv p feat x')] ++ [IOScalar (map (pre ROps l (fv p feat x')) (seq 0 m))]). rewrite app_assoc. apply last_last.
Qed.

Theorem floor_limit : forall l (lr e : R), linear d m l -> linear d m lo -> net_loss ROps p (feat ++ [LDense lo]) (batch pts) MeanSquare = Ret (Ok 0%R) ->
  (0 < lr)%R -> (lr * sizes_of p feat pts <= INR (length pts))%R -> (0 < e)%R ->
  exists T0, forall T, T0 <= T -> exists n' c,
    train_steps ROps p (feat ++ [LDense l]) (repeat (batch pts, NormCrossEntropy, mkC lr 0%R) T) = Ret n' /\
    net_loss ROps p n' (batch pts) NormCrossEntropy = Ret (Ok c) /\ (Rabs (c - ce_floor m) <= e)%R.
Proof.
  intros l lr e L LO Z LR SM E0. assert (M1 : (1 < INR m)%R) by (apply (lt_INR 1); lia).
  pose (x := Rmin 1 (e / 6)). assert (X : (0 < x <= 1 /\ 6 * x <= e)%R) by (unfold x; pose proof (Rmin_l 1 (e / 6)); pose proof (Rmin_r 1 (e / 6)); pose proof (Rmin_pos 1 (e / 6) ltac:(lra) ltac:(lra)); lra).
  clearbody x. assert (EP : (0 < x * x / (INR m - 1))%R) by (apply Rdiv_lt_0_compat; nra).
  destruct (C86_limit p feat g d m l lo pts lr (x * x / (INR m - 1)) FN FP FF FT L LO M NP OK' LR SM EP) as (T0 & H). exists T0. intros T HT.
  destruct (C86_converges p feat g d m l pts lr T FN FP FF FT L M NP OK' LR SM) as (l1 & _ & _ & E1 & L1 & _).
  destruct (H T HT) as (l' & b & c & E & EB & EC & BC). pose proof (eq_trans (eq_sym E1) E) as Q. injection Q as Q. apply app_inv_head in Q. injection Q as <-.
  destruct (lin_classifies l1 L1) as (ks & EL & CL). destruct (floor_close p (feat ++ [LDense l1]) m M (map fst pts) ks CL) as (Lm & C & EM & ECE & P & B).
  rewrite <- EL in EM, ECE. exists (feat ++ [LDense l1]), C. split; [rewrite steps_entropy; exact E|]. split; [exact ECE|].
  pose proof (eq_trans (eq_sym EB) EM) as QB. injection QB as QB. pose proof (eq_trans (eq_sym EC) Z) as QC. injection QC as QC. change (F ROps) with R in *. rewrite QC in BC.
  assert (K : ((INR m - 1) * Lm <= x * x)%R).
  { rewrite <- QB. replace (x * x)%R with ((INR m - 1) * (x * x / (INR m - 1)))%R by (field; lra). apply Rmult_le_compat_l; lra. }
  assert (S : (sqrt ((INR m - 1) * Lm) <= x)%R). { rewrite <- (sqrt_square x) by lra. apply sqrt_le_1_alt. exact K. }
  eapply Rle_trans; [exact B|]. nra.
Qed.
End Limit.

(** ** From below *)
Definition hot_pts : list (IOType RC * IOType RC) := [(one_map (mkC 0 0)%R, IOScalar (one_hot 2 0))].
Definition with_bias (c : RC) : dense ROps := mkDense ROps (from_body [mkC 0 0; mkC 0 0]%R 2 1) [c; mkC 0 0]%R ActNone.
Lemma bias_linear : forall c, linear 1 2 (with_bias c). Proof. repeat split; discriminate. Qed.
Lemma hot_ok : forall x t, In (x, t) hot_pts -> has_geom (Maps 1 1 1) x /\ exists k, k < 2 /\ t = IOScalar (one_hot 2 k).
Proof.
  intros x t [E|[]]. injection E as <- <-. split; [|exists 0; split; [lia | reflexivity]]. cbn [has_geom one_map]. split; [reflexivity|]. intros mt [<-|[]]. repeat split.
Qed.
Lemma bias_predicts : forall p c, predicts ROps p (fit_feat ++ [LDense (with_bias c)]) (one_map (mkC 0 0)%R) [c; mkC 0 0]%R.
Proof.
  intros p c. unfold predicts. cbn. change (c_add_assign ROps) with (c_add ROps). assert (E : forall w : RC, (0%RC + 0%RC * 0%RC + w)%RC = w) by (intros; ring).
  exact (f_equal (fun l => Ret (Ok (IOScalar l))) (f_equal2 (fun a b => [a; b]) (E c) (E (mkC 0%R 0%R : RC)))).
Qed.
Lemma bias_loss : forall p c f l, loss ROps (IOScalar (one_hot 2 0)) (IOScalar [c; mkC 0 0]%R) f = Ok l -> net_loss ROps p (fit_feat ++ [LDense (with_bias c)]) (batch hot_pts) f = Ret (Ok l).
Proof.
  intros p c f l E. rewrite (C57_mean ROps p _ (batch hot_pts) f [IOScalar [c; mkC 0 0]%R] l []).
  - do 2 f_equal. cbn [fold_left]. rewrite fofnat_R. cbn [length batch map ds_inputs ds_target hot_pts]. change (l / 1 = l)%R. lra.
  - constructor; [apply bias_predicts | constructor].
  - reflexivity.
  - constructor; [exact E | constructor].
Qed.

Lemma floor2 : (ce_floor 2 > 6 * exp (-4))%R.
Proof.
  assert (E1 : (exp 1 <= 3)%R) by exact exp_le_3. pose proof (exp_pos 1) as P.
  assert (E2 : (9 / 4 <= exp 1)%R).
  { replace 1%R with (/ 2 + / 2)%R by field. rewrite exp_plus. pose proof (exp_ineq1 (/ 2) ltac:(lra)). nra. }
  assert (E4 : (exp (-4) = / (exp 1 * exp 1 * exp 1 * exp 1))%R) by (rewrite <- !exp_plus, <- exp_Ropp; f_equal; ring).
  assert (L : (/ 4 <= ce_floor 2)%R).
  { unfold ce_floor. replace (INR 2 - 1)%R with 1%R by (cbn; ring). unfold Rdiv. rewrite Rmult_1_l. assert (I : (/ 3 <= / exp 1)%R) by (apply Rinv_le_contravar; lra).
    apply Rle_trans with (ln (4 / 3)); [|apply ln_le; lra]. rewrite <- (ln_exp (/ 4)). apply ln_le; [apply exp_pos|].
    pose proof (exp_ineq1 (- / 4) ltac:(lra)) as Q. rewrite exp_Ropp in Q. pose proof (exp_pos (/ 4)) as X. assert (W : (exp (/ 4) * / exp (/ 4) = 1)%R) by (apply Rinv_r; lra). set (y := exp (/ 4)) in *. set (z := (/ y)%R) in *. clearbody z. nra. }
  assert (B : (exp (-4) <= / (81 * 81 / 256))%R).
  { rewrite E4. set (y := exp 1) in *. clearbody y. assert (S2 : (81 / 16 <= y * y)%R) by nra. apply Rinv_le_contravar; [lra|]. replace (y * y * y * y)%R with (y * y * (y * y))%R by ring. nra. }
  lra.
Qed.

Theorem floor_from_below : exists (n : network ROps) pts, forall p,
  net_max_pred_test ROps p n (batch pts) = Ret 1%R /\
  exists c0, net_loss ROps p n (batch pts) NormCrossEntropy = Ret (Ok c0) /\
  forall lr : R, (0 < lr <= 1)%R -> exists T0, forall T, T0 <= T -> exists n' c,
    train_steps ROps p n (repeat (batch pts, NormCrossEntropy, mkC lr 0%R) T) = Ret n' /\
    net_loss ROps p n' (batch pts) NormCrossEntropy = Ret (Ok c) /\ (5 * c0 < c)%R.
Proof.
  exists (fit_feat ++ [LDense (with_bias (mkC 2 0)%R)]), hot_pts. intros p. split.
  - rewrite (C56_accuracy ROps p _ (batch hot_pts) [[mkC 2 0; mkC 0 0]%R] [one_hot 2 0]).
    + cbn [map agreements length]. rewrite max_one_hot by lia. rewrite (max_is [mkC 2 0; mkC 0 0]%R 0); [|cbn; lia|].
      * cbn [Nat.eqb]. rewrite !fofnat_R. cbn. f_equal. change (1 / 1 = 1)%R. lra.
      * intros [|[|j]] Hj N; cbn in Hj; try lia. unfold c_norm_sq, fsq. cbn. lra.
    + constructor; [apply bias_predicts | constructor].
    + reflexivity.
    + reflexivity.
  - destruct (entropy_point 2 0 [mkC 2 0; mkC 0 0]%R ltac:(lia) eq_refl) as (c0 & E & EC & _). exists c0. split; [apply bias_loss; exact E|]. intros lr LR.
    assert (E4 : c0 = ln (1 + exp (-4))).
    { rewrite EC. unfold softmax. cbn [length nth]. rewrite !rsum_S, rsum_0. cbn [nth]. unfold c_norm_sq, fsq. cbn. replace (2 * 2 + 0 * 0)%R with 4%R by ring. replace (0 * 0 + 0 * 0)%R with 0%R by ring. rewrite exp_0.
      pose proof (exp_pos 4). rewrite <- ln_Rinv; [|apply Rdiv_lt_0_compat; lra]. f_equal. replace (exp (-4)) with (/ exp 4)%R by (rewrite <- exp_Ropp; f_equal; ring). field. split; lra. }
    assert (B0 : (c0 <= exp (-4))%R). { rewrite E4. pose proof (exp_pos (-4)) as P. rewrite <- (ln_exp (exp (-4))) at 2. apply ln_le; [lra|]. pose proof (exp_ineq1_le (exp (-4))). lra. }
    assert (F : (ce_floor 2 > 6 * exp (-4))%R) by exact floor2.
    destruct (floor_limit p fit_feat (Maps 1 1 1) 1 2 (with_bias (mkC 1 0)%R) hot_pts ltac:(discriminate) ltac:(repeat constructor) fit_fits ltac:(repeat constructor) ltac:(lia) ltac:(discriminate) hot_ok
      (with_bias (mkC 2 0)%R) lr (exp (-4)) (bias_linear _) (bias_linear _)) as (T0 & H).
    + apply bias_loss. destruct (C33_exact (one_hot 2 0) [mkC 1 0; mkC 0 0]%R) as (l & EM & EL & _); [cbn; lia|]. refine (eq_trans EM _). apply (f_equal (@Ok R LossCalcError)). rewrite EL. unfold sse.
      cbn [length Nat.min one_hot map seq]. rewrite !rsum_S, rsum_0. cbn [nth Nat.eqb]. unfold c_norm_sq, fsq. cbn. field.
    + lra.
    + assert (SZ : sizes_of p fit_feat hot_pts = 1%R) by (unfold sizes_of, size_of; cbn; unfold fsq; cbn; ring). rewrite SZ. cbn. lra.
    + apply exp_pos.
    + exists T0. intros T HT. destruct (H T HT) as (n' & c & E5 & E6 & B). exists n', c. split; [exact E5|]. split; [exact E6|]. unfold Rabs in B. destruct (Rcase_abs (c - ce_floor 2)); lra.
Qed.

Lemma floor_pos : forall m, 2 <= m -> (0 < ce_floor m)%R.
Proof.
  intros m H. apply (lt_INR 1) in H. cbn [INR] in H. unfold ce_floor. rewrite <- ln_1. apply ln_increasing; [lra|]. assert (0 < (INR m - 1) / exp 1)%R by (apply Rdiv_lt_0_compat; [lra | apply exp_pos]). lra.
Qed.

Theorem floor_reached : forall p n m xs ks, 2 <= m -> classifies p n m xs ks ->
  net_loss ROps p n (labelled m xs ks) MeanSquare = Ret (Ok 0%R) -> net_loss ROps p n (labelled m xs ks) NormCrossEntropy = Ret (Ok (ce_floor m)) /\ (0 < ce_floor m)%R.
Proof.
  intros p n m xs ks M C Z. split; [|now apply floor_pos]. destruct (floor_close p n m M xs ks C) as (L & c & E1 & E2 & _ & B). pose proof (eq_trans (eq_sym E1) Z) as Q. injection Q as Q. change (F ROps) with R in *. rewrite Q, Rmult_0_r, sqrt_0 in B.
  rewrite E2. do 2 f_equal. pose proof (Rabs_pos (c - ce_floor m)) as P. assert (A : Rabs (c - ce_floor m) = 0%R) by lra. destruct (Req_dec (c - ce_floor m) 0) as [D|D]; [change (F ROps) with R; lra|]. now apply Rabs_no_R0 in D.
Qed.
