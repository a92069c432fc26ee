(** * Two training runs: the best layer exists, and witnesses *)
From Coq Require Import Reals Lra Psatz.
From Verif Require Import Base BaseFacts Float Matrix Cplx Random Act Input Loss Dense Conv Layer Dataset Network SpecMatrix MatrixFacts RFloat CFacts SpecLayer SpecConv SpecNet SpecLoss LossFacts LayerCalc PropTrain TrainLaws PropLaws PropNet
  SpecGeom SpecDead SpecFit FitFacts FitNet PropFit SpecOnline OnlineFacts SpecGeometric GeometricFacts GeometricEx SpecRuns RunsFacts.
Local Open Scope R_scope.

(** ** A contracting step has a resting place *)
Lemma nsq_tri : forall a b c : RC, nsq (a - c)%RC <= 2 * nsq (a - b)%RC + 2 * nsq (b - c)%RC.
Proof.
  intros [a1 a2] [b1 b2] [c1 c2]. unfold nsq. cbn. change (F ROps) with R in *.
  pose proof (Rle_0_sqr ((a1 - b1) - (b1 - c1))) as U. pose proof (Rle_0_sqr ((a2 - b2) - (b2 - c2))) as V. unfold Rsqr in *. lra.
Qed.
Lemma nsq_sym : forall a b : RC, nsq (a - b)%RC = nsq (b - a)%RC.
Proof. intros [a1 a2] [b1 b2]. unfold nsq. cbn. ring. Qed.
Lemma one_le_sum : forall (h : nat -> R) k, (forall i, 0 <= h i) -> forall i, (i < k)%nat -> h i <= rsum h k.
Proof.
  intros h k P. induction k as [|k IH]; intros i Hi; [lia|]. rewrite rsum_S. pose proof (P k). assert (0 <= rsum h k) by (apply rsum_nonneg; intros; apply P).
  destruct (Nat.eq_dec i k) as [->|]; [lra|]. specialize (IH i ltac:(lia)). lra.
Qed.

Lemma fun_choice : forall {A} (a0 : A) (P : nat -> A -> Prop) n, (forall j, (j < n)%nat -> exists a, P j a) -> exists f, forall j, (j < n)%nat -> P j (f j).
Proof.
  intros A a0 P n. induction n as [|n IH]; intros H; [exists (fun _ => a0); intros; lia|].
  destruct IH as (f & F0); [intros; apply H; lia|]. destruct (H n ltac:(lia)) as (a & HA). exists (fun j => if Nat.eq_dec j n then a else f j). intros j Hj.
  destruct (Nat.eq_dec j n) as [->|]; [exact HA | apply F0; lia].
Qed.

Definition tends (s : nat -> RC) (a : RC) : Prop := forall e, 0 < e -> exists T0, forall T, (T0 <= T)%nat -> nsq (s T - a)%RC < e.

Lemma complete : forall (s : nat -> RC) (k B : R), 0 <= k < 1 -> 0 <= B -> (forall T S, nsq (s (T + S)%nat - s T)%RC <= k ^ T * B) -> exists a, tends s a.
Proof.
  intros s k B K HB H.
  assert (EV : forall e, 0 < e -> exists T0, forall T, (T0 <= T)%nat -> k ^ T * B < e).
  { intros e E. destruct (pow_lt_1_zero k) with (y := e / (B + 1)) as (T0 & HT); [rewrite Rabs_pos_eq; lra | apply Rdiv_lt_0_compat; lra|]. exists T0. intros T LT. specialize (HT T LT).
    rewrite Rabs_pos_eq in HT by (apply pow_le; lra). assert (P : 0 <= k ^ T) by (apply pow_le; lra). apply (Rmult_lt_compat_r (B + 1)) in HT; [|lra]. unfold Rdiv in HT. rewrite Rmult_assoc, Rinv_l, Rmult_1_r in HT by lra. lra. }
  assert (CA : forall (pr : RC -> R), (forall a b : RC, (pr a - pr b) * (pr a - pr b) <= nsq (a - b)%RC) -> Cauchy_crit (fun T => pr (s T))).
  { intros pr PR e E. destruct (EV (e / 2 * (e / 2))) as (T0 & HT); [apply Rmult_lt_0_compat; lra|]. exists T0.
    assert (G : forall T, (T0 <= T)%nat -> Rabs (pr (s T) - pr (s T0)) < e / 2).
    { assert (AB : forall r b, 0 < b -> r * r < b * b -> Rabs r < b).
      { clear. intros r b B H. rewrite <- (Rabs_pos_eq b) by lra. apply Rsqr_lt_abs_0. exact H. }
      intros T LT. specialize (H T0 (T - T0)%nat). replace (T0 + (T - T0))%nat with T in H by lia. specialize (HT T0 (le_n _)). pose proof (PR (s T) (s T0)) as P.
      apply AB; lra. }
    intros a b HA HB'. unfold R_dist. pose proof (G a HA) as GA. pose proof (G b HB') as GB. replace (pr (s a) - pr (s b)) with ((pr (s a) - pr (s T0)) - (pr (s b) - pr (s T0))) by ring.
    eapply Rle_lt_trans; [apply Rabs_triang|]. rewrite Rabs_Ropp. lra. }
  destruct (R_complete _ (CA re ltac:(intros [a1 a2] [b1 b2]; unfold nsq; cbn; change (F ROps) with R in *; pose proof (Rle_0_sqr (a1 - b1)); pose proof (Rle_0_sqr (a2 - b2)); unfold Rsqr in *; lra))) as (u & HU). destruct (R_complete _ (CA im ltac:(intros [a1 a2] [b1 b2]; unfold nsq; cbn; change (F ROps) with R in *; pose proof (Rle_0_sqr (a1 - b1)); pose proof (Rle_0_sqr (a2 - b2)); unfold Rsqr in *; lra))) as (v & HV).
  exists (mkC u v : RC). intros e E. assert (EE : 0 < Rmin 1 (e / 2)) by (apply Rmin_glb_lt; lra). destruct (HU _ EE) as (T1 & H1). destruct (HV _ EE) as (T2 & H2). exists (max T1 T2). intros T LT.
  specialize (H1 T ltac:(lia)). specialize (H2 T ltac:(lia)). unfold R_dist in *. pose proof (Rmin_l 1 (e / 2)). pose proof (Rmin_r 1 (e / 2)). revert H1 H2. generalize (s T). intros [a b] H1 H2. cbn [re im] in *.
  assert (SQ : forall r, Rabs r < Rmin 1 (e / 2) -> r * r < e / 2).
  { intros r HR. pose proof (Rabs_pos r) as P. rewrite <- (Rabs_pos_eq (r * r)) by apply Rle_0_sqr. rewrite Rabs_mult. apply Rle_lt_trans with (Rabs r * 1); [apply Rmult_le_compat_l; lra | lra]. }
  specialize (SQ _ H1) as S1. specialize (SQ _ H2) as S2. unfold nsq. cbn. change (F ROps) with R in *. lra.
Qed.

Section Unit.
Context (d N : nat) (x : nat -> nat -> RC) (t : nat -> RC) (c k : R).
Local Notation er := (er d x t). Local Notation gr := (gr d N x t). Local Notation mv := (mv d N x t). Local Notation sz := (sz d x).
Local Notation dd w v := (rsum (fun j => nsq (w j - v j)%RC) d).
Context (CT : forall w v, dd (mv c w) (mv c v) <= k * dd w v) (K : 0 <= k < 1) (DS : forall w, rsum (fun q => nsq (er (mv c w) q)) N <= rsum (fun q => nsq (er w q)) N).
Context (mu : R) (MU : 0 < mu) (CO : forall w v, mu * dd w v <= rsum (fun q => nsq (er w q - er v q)%RC) N).

Fixpoint iter (T : nat) : nat -> RC := match T with O => fun _ => 0%RC | S T => mv c (iter T) end.

Lemma resting : exists w, forall j, (j < d)%nat -> mv c w j = w j.
Proof.
  pose (E := fun T => rsum (fun q => nsq (er (iter T) q)) N). pose (B := 4 * E 0%nat / mu).
  assert (E0 : forall T, 0 <= E T) by (intros; apply rsum_nonneg; intros; apply nsq_nonneg).
  assert (DE : forall T, E (S T) <= E T) by (intros T; exact (DS (iter T))).
  assert (ET : forall T, E T <= E 0%nat) by (induction T as [|T IH]; [apply Rle_refl | exact (Rle_trans _ _ _ (DE T) IH)]).
  assert (B0 : 0 <= B) by (unfold B; apply Rmult_le_pos; [specialize (E0 0%nat); lra | apply Rlt_le, Rinv_0_lt_compat; exact MU]).
  assert (BD : forall S, dd (iter S) (iter 0) <= B).
  { intros S. pose proof (CO (iter S) (iter 0)) as H. assert (H2 : rsum (fun q => nsq (er (iter S) q - er (iter 0) q)%RC) N <= 2 * E S + 2 * E 0%nat).
    { unfold E. rewrite <- !rsum_scal, <- rsum_plus. apply rsum_le. intros q _. generalize (er (iter S) q) (er (iter 0) q). intros [a1 a2] [b1 b2]. unfold nsq. cbn. change (F ROps) with R in *.
      pose proof (Rle_0_sqr (a1 + b1)) as U. pose proof (Rle_0_sqr (a2 + b2)) as V. unfold Rsqr in *. lra. }
    specialize (ET S). apply (Rmult_le_reg_l mu); [exact MU|]. replace (mu * B) with (4 * E 0%nat) by (unfold B; field; lra). lra. }
  assert (CV : forall T S, dd (iter (T + S)) (iter T) <= k ^ T * B).
  { induction T as [|T IH]; intros S; [cbn [Nat.add pow]; rewrite Rmult_1_l; apply BD|]. cbn [Nat.add iter]. eapply Rle_trans; [apply CT|]. rewrite <- tech_pow_Rmult, Rmult_assoc. apply Rmult_le_compat_l; [lra | apply IH]. }
  destruct (fun_choice 0%RC (fun j a => tends (fun T => iter T j) a) d) as (w & W).
  { intros j Hj. apply (complete _ k B K B0). intros T S. eapply Rle_trans; [|apply (CV T S)]. apply (one_le_sum (fun j => nsq (iter (T + S) j - iter T j)%RC) d (fun i => nsq_nonneg _) j Hj). }
  assert (LIM : forall e, 0 < e -> exists T0, forall T, (T0 <= T)%nat -> dd (iter T) w < e).
  { assert (G : forall n, (n <= d)%nat -> forall e, 0 < e -> exists T0, forall T, (T0 <= T)%nat -> rsum (fun j => nsq (iter T j - w j)%RC) n < e).
    { induction n as [|n IH]; intros Hn e E1; [exists 0%nat; intros; rewrite rsum_0; exact E1|]. destruct (IH ltac:(lia) (e / 2) ltac:(lra)) as (T1 & H1). destruct (W n ltac:(lia) (e / 2) ltac:(lra)) as (T2 & H2).
      exists (max T1 T2). intros T LT. rewrite rsum_S. specialize (H1 T ltac:(lia)). specialize (H2 T ltac:(lia)). cbv beta in H2. lra. }
    exact (G d (le_n _)). }
  exists w. intros j Hj. assert (Z : forall e, 0 < e -> dd (mv c w) w < e).
  { intros e E1. destruct (LIM (e / 4) ltac:(lra)) as (T0 & H). pose proof (H T0 (le_n _)) as H0. pose proof (H (S T0) ltac:(lia)) as H1.
    assert (T : dd (mv c w) w <= 2 * dd (mv c w) (iter (S T0)) + 2 * dd (iter (S T0)) w) by (rewrite <- !rsum_scal, <- rsum_plus; apply rsum_le; intros; apply nsq_tri).
    pose proof (CT w (iter T0)) as C. change (mv c (iter T0)) with (iter (S T0)) in C. rewrite (rsum_ext (fun j => nsq (w j - iter T0 j)%RC) (fun j => nsq (iter T0 j - w j)%RC)) in C by (intros; apply nsq_sym).
    assert (P : 0 <= dd (iter T0) w) by (apply rsum_nonneg; intros; apply nsq_nonneg).
    assert (k * dd (iter T0) w <= 1 * dd (iter T0) w) by (apply Rmult_le_compat_r; lra). lra. }
  assert (ZJ : nsq (mv c w j - w j)%RC <= 0).
  { apply Rnot_lt_le. intros H. specialize (Z _ H). pose proof (one_le_sum (fun j => nsq (mv c w j - w j)%RC) d (fun i => nsq_nonneg _) j Hj) as O. cbv beta in O. lra. }
  revert ZJ. generalize (mv c w j) (w j). intros [a b] [u v] H. unfold nsq in H. cbn in H. change (F ROps) with R in *.
  pose proof (Rle_0_sqr (a - u)) as U. pose proof (Rle_0_sqr (b - v)) as V. unfold Rsqr in *.
  assert (Q1 : a - u = 0) by (apply Rsqr_0_uniq; unfold Rsqr; lra). assert (Q2 : b - v = 0) by (apply Rsqr_0_uniq; unfold Rsqr; lra). apply c_ext; cbn; lra.
Qed.
End Unit.

Section Exist.
Context (p : prec) (feat : network ROps) (g : geometry) (d m : nat).
Context (FN : feat <> []) (FP : Forall no_params feat) (FF : fit_all ROps feat g (Vec d)) (FT : Forall (trainable ROps) feat) (M : (2 <= m)%nat) (D0 : (0 < d)%nat).
Context (pts : list (IOType RC * IOType RC)) (NP : pts <> []) (OK : forall x t, In (x, t) pts -> has_geom g x /\ exists v, t = IOScalar v /\ length v = m).
Context (mu : R) (MU : 0 < mu) (SP : spread p feat d pts mu).
Local Notation D := (IOScalar [], IOScalar []).
Local Notation N := (length pts).
Local Notation X := (xs p feat d pts).

Lemma spread_unit : forall i w v, mu * INR N * rsum (fun j => nsq (w j - v j)%RC) (S d) <= rsum (fun q => nsq (er (S d) X (ts pts i) w q - er (S d) X (ts pts i) v q)%RC) N.
Proof.
  intros i w v. pose proof (SP (w d - v d)%RC (fun j => w j - v j)%RC) as H. rewrite (answers_sum (fun it => answer_sq p feat _ _ (fst it))) in H.
  rewrite rsum_S. eapply Rle_trans; [|eapply Rle_trans; [exact H|]].
  - apply Req_le. change (rsum (fun j => c_norm_sq ROps (w j - v j)%RC) d) with (rsum (fun j => nsq (w j - v j)%RC) d). change (c_norm_sq ROps ?z) with (nsq z). ring.
  - apply Req_le. apply rsum_ext. intros q Hq. assert (IT : In (nth q pts D) pts) by (apply nth_In; exact Hq). destruct (ok_points g m pts OK _ IT) as (G & _).
    destruct (feat_trace p feat g d FN FP FF FT _ G) as (_ & _ & LV & _ & E). unfold answer_sq. rewrite E, LV. rewrite nsq_eq. f_equal.
    unfold er. rewrite !csum_S. unfold xs at 2 4. rewrite !Nat.ltb_irrefl.
    fold (csum (fun j => (w j - v j) * nth j (fv p feat (fst (nth q pts D))) 0)%RC d).
    rewrite (csum_ext (fun j => (w j - v j) * nth j (fv p feat (fst (nth q pts D))) 0)%RC (fun j => w j * X q j - v j * X q j)%RC).
    2: { intros j Hj. unfold xs. rewrite (proj2 (Nat.ltb_lt j d) Hj). ring. }
    rewrite csum_sub. ring.
Qed.

Definition layer_of (w : nat -> nat -> RC) : dense ROps :=
  mkDense ROps (from_body (map (fun k => w (k / d)%nat (k mod d)) (seq 0 (m * d))) m d) (map (fun i => w i d) (seq 0 m)) ActNone.
Lemma layer_of_linear : forall w, linear d m (layer_of w).
Proof.
  intros w. split; [|split; [reflexivity | split; reflexivity]]. split; [|split].
  - unfold wf. cbn. now rewrite map_length, seq_length.
  - cbn. now rewrite map_length, seq_length.
  - cbn. lia.
Qed.
Lemma layer_of_wt : forall w i j, (i < m)%nat -> (j < S d)%nat -> wt d (layer_of w) i j = w i j.
Proof.
  intros w i j Hi Hj. unfold wt. destruct (Nat.ltb_spec j d) as [H|H].
  - unfold weight, entry. cbn [layer_of d_weights from_body body sh1]. assert (i * d + j < m * d)%nat by nia.
    rewrite nth_map_seq by assumption. rewrite Nat.add_comm, Nat.div_add, Nat.div_small, Nat.mod_add, Nat.mod_small by lia. reflexivity.
  - cbn [layer_of d_biases]. rewrite nth_map_seq by exact Hi. f_equal. lia.
Qed.

Lemma best_exists : exists lo, best p feat d m pts lo.
Proof.
  pose proof (ok_points g m pts OK) as OK'. pose proof (N_pos pts NP) as NN. pose proof (sizes_ge p feat g d m FN FP FF FT pts OK') as SG. pose proof (mu_le p feat g d m FN FP FF FT pts NP OK' mu SP) as M1.
  pose (lr := INR N / sizes_of p feat pts). assert (LR : 0 < lr) by (apply Rdiv_lt_0_compat; lra).
  assert (SM : lr * sizes_of p feat pts <= INR N) by (unfold lr; apply Req_le; field; lra).
  assert (L1 : lr <= 1) by (apply (Rmult_le_reg_r (sizes_of p feat pts)); lra).
  pose (c := lr / INR N). assert (C0 : 0 < c) by (apply Rdiv_lt_0_compat; assumption).
  pose proof (sz_rate p feat g d m FN FP FF FT pts NP OK' lr SM) as SR. fold c in SR.
  assert (LM : 0 < lr * mu) by (apply Rmult_lt_0_compat; assumption). assert (LM1 : lr * mu <= 1 * 1) by (apply Rmult_le_compat; lra).
  destruct (fun_choice (fun _ : nat => 0%RC) (fun i w => forall j, (j < S d)%nat -> mv (S d) N X (ts pts i) c w j = w j) m) as (w & W).
  { intros i Hi. apply (resting (S d) N X (ts pts i) c (1 - lr * mu)) with (mu := mu * INR N).
    - intros u v. pose proof (both_move (S d) N X (ts pts i) c u v (Rlt_le _ _ C0) (sz_pos p feat d pts) SR) as H. pose proof (spread_unit i u v) as S0.
      apply (Rmult_le_compat_l c) in S0; [|lra]. replace (c * (mu * INR N * rsum (fun j => nsq (u j - v j)%RC) (S d))) with (lr * mu * rsum (fun j => nsq (u j - v j)%RC) (S d)) in S0 by (unfold c; field; lra). lra.
    - lra.
    - intros u. pose proof (descent (S d) N X (ts pts i) c u (Rlt_le _ _ C0) (sz_pos p feat d pts) SR) as DS.
      assert (0 <= c * rsum (fun j => nsq (gr (S d) N X (ts pts i) u j)) (S d)) by (apply Rmult_le_pos; [lra | apply rsum_nonneg; intros; apply nsq_nonneg]). lra.
    - apply Rmult_lt_0_compat; assumption.
    - intros u v. apply spread_unit. }
  exists (layer_of w). apply (still_iff p feat g d m FN FP FF FT M pts NP OK (layer_of w) (layer_of_linear w)). intros i j Hi Hj.
  assert (E : gr (S d) N X (ts pts i) (wt d (layer_of w) i) j = gr (S d) N X (ts pts i) (w i) j).
  { unfold gr. apply csum_ext. intros q _. f_equal. unfold er. f_equal. apply csum_ext. intros k Hk. f_equal. apply layer_of_wt; assumption. }
  rewrite E. apply (move_zero c (w i j)); [lra|]. exact (W i Hi j Hj).
Qed.
End Exist.

Lemma answers_runs : forall p (feat : network ROps) g d m l k (bs : run) x,
  feat <> [] -> Forall no_params feat -> fit_all ROps feat g (Vec d) -> Forall (trainable ROps) feat ->
  linear d m l -> linear d m k -> has_geom g x ->
  (forall pts lr mu, In (pts, lr, mu) bs -> pts <> [] /\ 0 < lr /\ lr * sizes_of p feat pts <= INR (length pts) /\ 0 <= mu /\ spread p feat d pts mu /\
     (forall x t, In (x, t) pts -> has_geom g x /\ exists v, t = IOScalar v /\ length v = m)) ->
  exists n n' u v, train_steps ROps p (feat ++ [LDense l]) (run_of bs) = Ret n /\ train_steps ROps p (feat ++ [LDense k]) (run_of bs) = Ret n' /\
    net_forward ROps p n x = Ret (Ok (IOScalar u)) /\ net_forward ROps p n' x = Ret (Ok (IOScalar v)) /\ length u = m /\ length v = m /\
    rsum (fun i => c_norm_sq ROps (nth i u 0 - nth i v 0)%RC) m <= size_of p feat x * (shrink bs * dist_sq l k).
Proof.
  intros p feat g d m l k bs x FN FP FF FT L K X H. destruct (two_runs p feat g d m FN FP FF FT bs l k L K H) as (l' & k' & EL & EK & L' & K' & _ & C).
  destruct (answers p feat g d m FN FP FF FT l' k' x L' K' X) as (u & v & U & V & LU & LV & A). exists (feat ++ [LDense l']), (feat ++ [LDense k']), u, v.
  split; [exact EL|]. split; [exact EK|]. split; [exact U|]. split; [exact V|]. split; [exact LU|]. split; [exact LV|]. eapply Rle_trans; [exact A|]. apply Rmult_le_compat_l; [|exact C].
  unfold size_of. destruct (feat_trace p feat g d FN FP FF FT x X) as (_ & _ & _ & _ & E). rewrite E.
  assert (0 <= rsum (fun j => c_norm_sq ROps (nth j (fv p feat x) 0%RC)) (length (fv p feat x))) by (apply rsum_nonneg; intros; rewrite nsq_eq; apply nsq_nonneg). lra.
Qed.

(** Nought always tells units apart. *)
Lemma spread_zero : forall p feat d pts, spread p feat d pts 0.
Proof.
  intros p feat d pts b w. rewrite !Rmult_0_l. induction pts as [|it pts IH]; cbn [fold_right]; [lra|]. assert (0 <= answer_sq p feat b w (fst it)); [|lra].
  unfold answer_sq. destruct (net_forward ROps p feat (fst it)) as [[[v|]|]|]; try lra. rewrite nsq_eq. apply nsq_nonneg.
Qed.

Lemma no_drift : forall p (feat : network ROps) g d m l k (bs : list (list (IOType RC * IOType RC) * R)),
  feat <> [] -> Forall no_params feat -> fit_all ROps feat g (Vec d) -> Forall (trainable ROps) feat ->
  linear d m l -> linear d m k ->
  (forall pts lr, In (pts, lr) bs -> pts <> [] /\ 0 < lr /\ lr * sizes_of p feat pts <= INR (length pts) /\
     (forall x t, In (x, t) pts -> has_geom g x /\ exists v, t = IOScalar v /\ length v = m)) ->
  let steps := map (fun b => (batch (fst b), MeanSquare, mkC (snd b) 0 : RC)) bs in
  exists l' k', train_steps ROps p (feat ++ [LDense l]) steps = Ret (feat ++ [LDense l']) /\ train_steps ROps p (feat ++ [LDense k]) steps = Ret (feat ++ [LDense k']) /\
    linear d m l' /\ linear d m k' /\ dist_sq l' k' <= dist_sq l k.
Proof.
  intros p feat g d m l k bs FN FP FF FT L K H steps. pose (rs := map (fun b => (fst b, snd b, 0)) bs : run).
  destruct (two_runs p feat g d m FN FP FF FT rs l k L K) as (l' & k' & EL & EK & L' & K' & S0 & C).
  { intros pts lr mu I. apply in_map_iff in I as ((q, r) & E & I). injection E as <- <- <-. destruct (H _ _ I) as (A1 & A2 & A3 & A4). cbn [fst snd].
    split; [exact A1|]. split; [exact A2|]. split; [exact A3|]. split; [lra|]. split; [apply spread_zero | exact A4]. }
  assert (ER : run_of rs = steps) by (unfold run_of, rs, steps; rewrite map_map; reflexivity). rewrite ER in EL, EK.
  exists l', k'. split; [exact EL|]. split; [exact EK|]. split; [exact L'|]. split; [exact K'|]. pose proof (dist_nonneg l k) as P. eapply Rle_trans; [exact C|].
  rewrite <- (Rmult_1_l (dist_sq l k)) at 2. apply Rmult_le_compat_r; lra.
Qed.

(** A rate too large for the data pushes two runs apart. *)
Lemma drift : exists (feat : network ROps) l k pts l' k', linear 1 2 l /\ linear 1 2 k /\ pts <> [] /\
  net_gradient_opt ROps P64 (feat ++ [LDense l]) (batch pts) MeanSquare (mkC 2 0) = Ret (feat ++ [LDense l'], Ok tt) /\
  net_gradient_opt ROps P64 (feat ++ [LDense k]) (batch pts) MeanSquare (mkC 2 0) = Ret (feat ++ [LDense k'], Ok tt) /\
  dist_sq l k = 2 /\ dist_sq l' k' = 10.
Proof.
  assert (LB : linear 1 2 fit_best) by (repeat split; discriminate). assert (FP : Forall no_params fit_feat) by repeat constructor. assert (FT : Forall (trainable ROps) fit_feat) by repeat constructor.
  assert (FN : fit_feat <> []) by discriminate. assert (NP : fit_pts <> []) by discriminate. pose proof (ok_points (Maps 1 1 1) 2 fit_pts fit_ok) as OK.
  destruct (lin_step P64 fit_feat (Maps 1 1 1) 1 2 FN FP fit_fits FT fit_layer fit_pts 2 fit_linear NP OK) as (l' & E & L' & VW & VB).
  destruct (lin_step P64 fit_feat (Maps 1 1 1) 1 2 FN FP fit_fits FT fit_best fit_pts 2 LB NP OK) as (k' & E' & K' & VW' & VB').
  exists fit_feat, fit_layer, fit_best, fit_pts, l', k'. split; [exact fit_linear|]. split; [exact LB|]. split; [exact NP|]. split; [exact E|]. split; [exact E'|].
  split; [unfold dist_sq; cbn; unfold fsq; cbn; ring|]. unfold dist_sq. rewrite (proj1 (proj2 L')), (proj1 (proj2 (proj2 L'))).
  rewrite !rsum_S, !rsum_0. rewrite (VW 0%nat 0%nat), (VW 1%nat 0%nat), (VW' 0%nat 0%nat), (VW' 1%nat 0%nat), (VB 0%nat), (VB 1%nat), (VB' 0%nat), (VB' 1%nat) by lia.
  cbn. unfold fsq. cbn. field.
Qed.
