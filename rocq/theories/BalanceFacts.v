(** * Lemmas about what training keeps between two dense layers *)
From Coq Require Import Reals Lra.
From Verif Require Import Base BaseFacts Float Matrix Cplx Random Act Input Loss Dense Conv Layer Dataset Network SpecMatrix MatrixFacts RFloat CFacts SpecLoss LossFacts FitFacts
  SpecLayer SpecConv SpecNet DenseFacts ConvFacts LayerFacts LayerCalc NetFacts TrainFacts TrainDense TrainLaws PropDense GradFacts GradFacts2 SpecGeom GeomFacts
  SpecDead DeadFacts PropTrain SpecTwin TwinFacts SpecSame BasisFacts SpecBalance.
Local Open Scope nat_scope.

(** ** One unit *)
Lemma relu_gate : forall (a u : R), (a * (d_relu ROps a * u) = relu ROps a * u)%R.
Proof. intros a u. unfold d_relu, relu. destruct (fsignneg ROps a); cbn; ring. Qed.

Lemma unit_balance : forall p f (q y d dc h : RC), scalable f -> activate ROps p f q = Ret y -> d_activate ROps p f q = Ret d -> d_conj_activate ROps p f q = Ret dc ->
  let e := (d * h + conj dc * conj h)%RC in re (q * e)%RC = re (y * h)%RC /\ (f <> RITReLU -> (q * e = y * h)%RC).
Proof.
  intros p f [a b] y d dc [u v] SC A D DC e.
  destruct SC as [->|[->| ->]].
  - injection A as <-. injection D as <-. injection DC as <-.
    assert (E : (mkC a b * e = mkC a b * mkC u v)%RC) by (unfold e; apply c_ext; cbn; ring). split; [now rewrite E | intros _; exact E].
  - split; [|congruence]. injection A as <-. injection D as <-. injection DC as <-. unfold e, d_ritrelu, d_conj_ritrelu, ritrelu. cbn [Cplx.re Cplx.im c_mul c_add c_conj].
    pose proof (relu_gate a u) as E1. pose proof (relu_gate b v) as E2. set (da := d_relu ROps a) in *. set (db := d_relu ROps b) in *. set (ra := relu ROps a) in *. set (rb := relu ROps b) in *.
    clearbody da db ra rb. cbn in *. change (F ROps) with R in *. lra.
  - injection A as <-. injection D as <-. injection DC as <-.
    assert (E : (mkC a b * e = zrelu ROps (mkC a b) * mkC u v)%RC).
    { unfold e, zrelu, d_zrelu, d_conj_zrelu. cbn [Cplx.re Cplx.im]. destruct (fsignneg ROps a || fsignneg ROps b)%bool; apply c_ext; cbn; ring. }
    split; [now rewrite E | intros _; exact E].
Qed.

Lemma sum_same : forall f n, sum_from (c_add ROps) (c_default ROps) f n = csum f n.
Proof. reflexivity. Qed.

Lemma nth_add : forall (a b : list RC) q, length b = length a -> nth q (zip_assign (c_add_assign ROps) a b) 0%RC = (nth q a 0 + nth q b 0)%RC.
Proof.
  intros a b q L. destruct (Nat.lt_ge_cases q (length a)) as [H|H]; [rewrite nth_zip by assumption; destruct (nth q a 0%RC), (nth q b 0%RC); reflexivity|].
  rewrite !(nth_overflow _ 0%RC) by (rewrite ?zip_assign_length; lia). apply c_ext; cbn; ring.
Qed.

Section Balance.
Context (p : prec) (n : network ROps) (k : nat) (l m : dense ROps) (AD : adjacent n k l m) (SC : scalable (d_func l)) (i : nat) (Hi : i < units ROps l).

Definition flow (W G : list (list RC)) : RC :=
  (csum (fun j => w_in l i j * gw_in l W k i j) (inputs ROps l) + b_in l i * gb_in G k i - csum (fun o => w_out m i o * gw_out m W k i o) (units ROps m))%RC.
Definition level (c : RC) : Prop := re c = 0%R /\ (d_func l <> RITReLU -> c = 0%RC).

Lemma level_add : forall a b, level a -> level b -> level (a + b)%RC.
Proof.
  intros a b (A1 & A2) (B1 & B2). split; [destruct a as [x x'], b as [y y']; cbn in *; change (F ROps) with R in *; lra|]. intros H. rewrite (A2 H), (B2 H). apply c_ext; cbn; ring.
Qed.

Lemma flow_add : forall W G ws bs W' G', addv ROps W ws = Ret W' -> addv ROps G bs = Ret G' -> length W = length n -> length G = length n -> length ws = length n -> length bs = length n ->
  flow W' G' = (flow W G + flow ws bs)%RC.
Proof.
  intros W G ws bs W' G' A1 A2 L1 L2 L3 L4. destruct AD as (K & K2 & _). assert (k < length n) by (apply nth_error_Some; congruence). assert (S k < length n) by (apply nth_error_Some; congruence).
  destruct (addv_nth ROps _ _ _ k A1 ltac:(lia)) as (E1 & M1). destruct (addv_nth ROps _ _ _ (S k) A1 ltac:(lia)) as (E2 & M2). destruct (addv_nth ROps _ _ _ k A2 ltac:(lia)) as (E3 & M3).
  unfold flow, gw_in, gb_in, gw_out. rewrite E1, E2, E3.
  rewrite nth_add by (apply M3; lia).
  rewrite (csum_ext _ (fun j => w_in l i j * nth (i * inputs ROps l + j) (nth k W []) 0 + w_in l i j * nth (i * inputs ROps l + j) (nth k ws []) 0)%RC) by (intros; rewrite nth_add by (apply M1; lia); ring).
  rewrite (csum_ext (fun o => (w_out m i o * nth (o * inputs ROps m + i) (zip_assign _ _ _) 0)%RC) (fun o => w_out m i o * nth (o * inputs ROps m + i) (nth (S k) W []) 0 + w_out m i o * nth (o * inputs ROps m + i) (nth (S k) ws []) 0)%RC) by (intros; rewrite nth_add by (apply M2; lia); ring).
  rewrite !csum_add. ring.
Qed.

Lemma pair_level : forall v y g2 gc2 dw2 db2 h hc dw db e ec ws bs,
  length v = inputs ROps l -> dense_forward ROps p l (IOScalar v) = Ret (Ok (IOScalar y)) ->
  dense_derivatives ROps p m (IOScalar y) g2 gc2 = Ret (Ok (dw2, db2, h, hc)) -> dense_derivatives ROps p l (IOScalar v) h hc = Ret (Ok (dw, db, e, ec)) ->
  nth k ws [] = dw -> nth k bs [] = db -> nth (S k) ws [] = dw2 -> level (flow ws bs).
Proof.
  intros v y g2 gc2 dw2 db2 h hc dw db e ec ws bs X FW D2 D1 N1 N2 N3. destruct AD as (_ & _ & Wl & Wm & IM).
  destruct (proj1 (C40_forward ROps p l v Wl X y) FW) as (Ly & AY).
  destruct (derivs_lengths ROps p m _ _ _ _ D2) as (G2 & GC2). destruct (derivs_lengths ROps p l _ _ _ _ D1) as (G1 & GC1).
  destruct (derivs_exist ROps p m y g2 gc2 _ Wm ltac:(congruence) G2 GC2 D2) as (dm & dcm & DM).
  destruct (derivs_exist ROps p l v h hc _ Wl X G1 GC1 D1) as (dl & dcl & DL).
  destruct (C41_derivatives ROps p m y g2 gc2 dm dcm Wm ltac:(congruence) G2 GC2 DM) as (dw2' & db2' & dx2 & E2 & L21 & L22 & L23 & B2 & V2 & X2).
  rewrite E2 in D2. injection D2 as -> -> -> <-.
  destruct (C41_derivatives ROps p l v h (map (c_conj ROps) h) dl dcl Wl X G1 GC1 DL) as (dw1' & db1' & dx1 & E1 & L11 & L12 & L13 & B1 & V1 & _).
  pose proof (eq_trans (eq_sym D1) E1) as D3. injection D3 as -> -> _ _. cbv zeta in B1, V1, V2, X2.
  pose (hi := nth i h 0%RC). pose (e0 := (dl i * hi + conj (dcl i) * conj hi)%RC).
  assert (HC : nth i (map (c_conj ROps) h) (c_default ROps) = conj hi).
  { rewrite (nth_indep (map (c_conj ROps) h) (c_default ROps) (c_conj ROps (c_default ROps))) by (rewrite map_length; lia). rewrite map_nth. reflexivity. }
  assert (I1 : csum (fun j => w_in l i j * gw_in l ws k i j)%RC (inputs ROps l) = (csum (fun j => w_in l i j * nth j v 0)%RC (inputs ROps l) * e0)%RC).
  { rewrite <- csum_mul_r. apply csum_ext. intros j Hj. unfold gw_in. rewrite N1. refine (eq_trans (f_equal (fun c => (w_in l i j * c)%RC) (V1 i j Hi Hj)) _). rewrite HC. fold hi. change (c_default ROps) with (0%RC : RC). fold e0. unfold e0, hi. ring. }
  assert (I2 : gb_in bs k i = e0).
  { unfold gb_in. rewrite N2. refine (eq_trans (B1 i Hi) _). rewrite HC. reflexivity. }
  assert (I3 : csum (fun o => w_out m i o * gw_out m ws k i o)%RC (units ROps m) = (nth i y 0 * hi)%RC).
  { assert (HI : hi = csum (fun o => w_out m i o * (dm o * nth o g2 0 + conj (dcm o) * nth o gc2 0))%RC (units ROps m)) by (unfold hi; refine (eq_trans (X2 i ltac:(lia)) _); reflexivity).
    rewrite HI, <- csum_mul_l. apply csum_ext. intros o Ho. unfold gw_out. rewrite N3. refine (eq_trans (f_equal (fun c => (w_out m i o * c)%RC) (V2 o i Ho ltac:(lia))) _).
    change (c_default ROps) with (0%RC : RC). ring. }
  assert (Q : pre ROps l v i = (csum (fun j => w_in l i j * nth j v 0)%RC (inputs ROps l) + b_in l i)%RC) by reflexivity.
  destruct (DL i Hi) as (P1 & P2). destruct (unit_balance p (d_func l) _ _ _ _ hi SC (AY i Hi) P1 P2) as (R1 & R2). cbv zeta in R1, R2. fold e0 in R1, R2.
  assert (FL : flow ws bs = (pre ROps l v i * e0 - nth i y 0 * hi)%RC) by (unfold flow; rewrite I1, I2, I3, Q; ring).
  unfold level. rewrite FL. split.
  - change (re (pre ROps l v i * e0)%RC - re (nth i y 0 * hi)%RC = 0)%R. rewrite R1. change (c_default ROps) with (0%RC : RC). apply Rminus_diag_eq. reflexivity.
  - intros H. rewrite (R2 H). change (c_default ROps) with (0%RC : RC). ring.
Qed.

Lemma point_level : forall f x t ws bs, pgrad ROps p n f (x, t) = Ret (ws, bs) -> level (flow ws bs).
Proof.
  intros f x t ws bs P. destruct AD as (K & K2 & Wl & Wm & IM). destruct (collect_of_pgrad ROps p n f x t ws bs P) as (vs & g & h & hc & T & _ & B).
  pose proof (trace_length ROps p _ _ _ T) as LV. assert (KL : S k < length n) by (apply nth_error_Some; congruence).
  assert (V1 : nth_error vs k = Some (nth k vs x)) by (apply nth_error_nth'; lia). assert (V2 : nth_error vs (S k) = Some (nth (S k) vs x)) by (apply nth_error_nth'; lia).
  destruct (bp_pair ROps p _ _ _ _ _ _ _ k _ (LDense l) _ (LDense m) B (nth_error_combine _ _ _ _ _ V1 K) (nth_error_combine _ _ _ _ _ V2 K2) eq_refl eq_refl)
    as (g2 & gc2 & h2 & hc2 & h1 & hc1 & D2 & D1).
  pose proof (trace_nth ROps p _ _ _ _ _ x T K) as FW. cbn [layer_forward layer_derivatives] in FW, D1, D2.
  destruct (nth k vs x) as [v|ms]; [|cbn in FW; discriminate].
  assert (X : length v = inputs ROps l).
  { destruct (Nat.eq_dec (length v) (inputs ROps l)) as [|NE]; [assumption|]. rewrite (proj2 (C40_rejects ROps p l) v NE) in FW. discriminate. }
  destruct (nth (S k) vs x) as [y|ms]; [|unfold dense_derivatives in D2; destruct (negb _); [discriminate|]; destruct (negb _); discriminate].
  exact (pair_level v y g2 gc2 _ _ h2 hc2 _ _ h1 hc1 ws bs X FW D2 D1 eq_refl eq_refl eq_refl).
Qed.

Lemma batch_level : forall f its W B W' B', slots ROps n W -> slots ROps n B -> level (flow W B) -> foldM (point_step ROps p n f) its (W, B) = Ret (W', B') -> level (flow W' B').
Proof.
  intros f its. induction its as [|it its IH]; intros W B W' B' SW SB Q0 E; cbn [foldM] in E; [injection E as <- <-; exact Q0|].
  apply obind_inv in E as ((W2 & B2) & E1 & E). destruct (point_step_lengths ROps p _ _ _ _ _ _ _ SW SB E1) as (L1 & L2).
  rewrite point_step_eq in E1 by auto. apply obind_inv in E1 as ((ws & bs) & P & E1).
  apply obind_inv in E1 as (W3 & A1 & E1). apply obind_inv in E1 as (B3 & A2 & E1). injection E1 as -> ->.
  apply (IH W2 B2 W' B'); auto; try (eapply slots_lengths; eauto).
  destruct (pgrad_length ROps p _ _ _ _ _ P) as (LW & LB).
  assert (LW0 : length W = length n) by (symmetry; eapply Forall2_len; exact SW).
  assert (LB0 : length B = length n) by (symmetry; eapply Forall2_len; exact SB).
  rewrite (flow_add W B ws bs W2 B2) by congruence. apply level_add; [exact Q0|]. destruct it as [x t]. eapply point_level; exact P.
Qed.

Lemma nth_zeros : forall f q, (forall l0 : clayer ROps, exists c, f l0 = repeat (0%RC : RC) c) -> forall j, nth q (nth j (map f n) []) 0%RC = 0%RC.
Proof.
  intros f q H j. destruct (nth_error n j) as [l0|] eqn:K.
  - rewrite (nth_map_error f n j l0 K). destruct (H l0) as (c & ->). apply nth_repeat.
  - apply nth_error_None in K. rewrite (nth_overflow (map f n)) by (rewrite map_length; exact K). now destruct q.
Qed.

Lemma gradient_level : forall data f W G, net_gradient ROps p n data f = Ret (W, G) -> level (flow W G).
Proof.
  intros data f W G E. unfold net_gradient, ds_points_iter in E. destruct (grad_zero_slots ROps n) as (S1 & S2). rewrite (surjective_pairing (grad_zero ROps n)) in E.
  eapply batch_level; [exact S1 | exact S2 | | exact E].
  assert (Z : flow (fst (grad_zero ROps n)) (snd (grad_zero ROps n)) = 0%RC).
  { unfold flow, gw_in, gb_in, gw_out, grad_zero. cbn [fst snd].
    rewrite (csum_zero (fun j => (w_in l i j * _)%RC)), (csum_zero (fun o => (w_out m i o * _)%RC)).
    - rewrite nth_zeros; [ring|]. intros l0. destruct (layer_propagates ROps l0); [eexists; reflexivity | now exists 0].
    - intros o Ho. rewrite nth_zeros; [ring|]. intros l0. destruct (layer_propagates ROps l0); [eexists; reflexivity | now exists 0].
    - intros o Ho. rewrite nth_zeros; [ring|]. intros l0. destruct (layer_propagates ROps l0); [eexists; reflexivity | now exists 0]. }
  split; [now rewrite Z | intros _; exact Z].
Qed.
End Balance.

(** ** One step *)
Lemma nth_moved : forall s (a e : list RC) q, q < length a -> length e = length a ->
  nth q (zip_assign (sub_conj ROps) a (map (fun c => c_mul_assign ROps c (mkC s 0%R)) e)) 0%RC = (nth q a 0 - conj (mkC s 0%R * nth q e 0))%RC.
Proof.
  intros s a e q Hq L. rewrite nth_zip by (rewrite ?map_length; lia).
  assert (M : nth q (map (fun e => c_mul_assign ROps e (mkC s 0%R)) e) 0%RC = c_mul_assign ROps (nth q e 0%RC) (mkC s 0%R)).
  { apply nth_error_nth. rewrite nth_error_map, (nth_error_nth' e 0%RC) by lia. reflexivity. }
  rewrite M. clear M. destruct (nth q e 0%RC) as [x y], (nth q a 0%RC) as [u v]. unfold sub_conj, c_mul_assign, c_sub_assign. apply c_ext; cbn; ring.
Qed.

Lemma moved_sq : forall s (w g : RC), c_norm_sq ROps (w - conj (mkC s 0%R * g))%RC = (c_norm_sq ROps w - 2 * s * re (w * g)%RC + s ^ 2 * c_norm_sq ROps g)%R.
Proof. intros s [a b] [u v]. unfold c_norm_sq, fsq. cbn. ring. Qed.

Lemma rsum_moved : forall s (w g : nat -> RC) c, rsum (fun j => c_norm_sq ROps (w j - conj (mkC s 0%R * g j))%RC) c =
  (rsum (fun j => c_norm_sq ROps (w j)) c - 2 * s * re (csum (fun j => w j * g j)%RC c) + s ^ 2 * rsum (fun j => c_norm_sq ROps (g j)) c)%R.
Proof.
  intros s w g c. rewrite re_csum. induction c as [|c IH]; [rewrite !rsum_0; ring|]. rewrite !rsum_S, IH, moved_sq. ring.
Qed.

Lemma dense_moved : forall p n data f W G s n' k l l', net_gradient ROps p n data f = Ret (W, G) -> mapM (update_layer ROps (mkC s 0%R)) (combine (combine W G) n) = Ret n' ->
  nth_error n k = Some (LDense l) -> dense_wf ROps l -> nth_error n' k = Some (LDense l') ->
  dense_wf ROps l' /\ units ROps l' = units ROps l /\ inputs ROps l' = inputs ROps l /\ d_func l' = d_func l /\
  (forall i, i < units ROps l -> nth i (d_biases l') 0%RC = (nth i (d_biases l) 0 - conj (mkC s 0%R * nth i (nth k G []) 0))%RC) /\
  (forall i j, i < units ROps l -> j < inputs ROps l -> weight ROps l' i j = (weight ROps l i j - conj (mkC s 0%R * nth (i * inputs ROps l + j) (nth k W []) 0))%RC).
Proof.
  intros p n data f W B s n' k l l' EG EM K Wl K'. destruct (gradient_lengths ROps p n data f W B EG) as (L1 & L2).
  destruct (grad_zero_length ROps n) as (G1 & G2). assert (KL : k < length n) by (apply nth_error_Some; congruence).
  assert (LW : length W = length n) by (apply (f_equal (@length nat)) in L1; rewrite !map_length in L1; lia).
  assert (LB : length B = length n) by (apply (f_equal (@length nat)) in L2; rewrite !map_length in L2; lia).
  assert (FU : layer_full ROps (LDense l)) by apply Wl. destruct (full_params ROps _ FU) as (Q1 & Q2).
  assert (NW : nth_error W k = Some (nth k W [])) by (apply nth_error_nth'; lia).
  assert (NB : nth_error B k = Some (nth k B [])) by (apply nth_error_nth'; lia).
  destruct (mapM_nth_inv _ _ _ k _ EM (nth_error_combine _ _ _ _ _ (nth_error_combine _ _ _ _ _ NW NB) K)) as (l2 & K2 & U).
  assert (l2 = LDense l') by congruence. subst l2.
  assert (A1 : length (nth k W []) = length (body (d_weights l))).
  { transitivity (length (nth k (fst (grad_zero ROps n)) [])); [rewrite <- !(map_nth (@length RC)); exact (f_equal (fun z => nth k z _) L1)|].
    unfold grad_zero. cbn [fst]. rewrite (nth_map_error _ n k _ K). cbn [layer_propagates dense_propagates]. rewrite repeat_length, Q1. reflexivity. }
  assert (A2 : length (nth k B []) = length (d_biases l)).
  { transitivity (length (nth k (snd (grad_zero ROps n)) [])); [rewrite <- !(map_nth (@length RC)); exact (f_equal (fun z => nth k z _) L2)|].
    unfold grad_zero. cbn [snd]. rewrite (nth_map_error _ n k _ K). cbn [layer_propagates dense_propagates]. rewrite repeat_length, Q2. reflexivity. }
  destruct (update_ok ROps (mkC s 0%R) (LDense l) _ _ FU A1 A2) as (l2 & U2 & AR & V). assert (l2 = LDense l') by congruence. subst l2.
  destruct (arch_dense ROps l' l AR Wl) as (Wl' & U1 & I1 & F1). split; [exact Wl'|]. split; [exact U1|]. split; [exact I1|]. split; [exact F1|].
  cbn [layer_values fst snd] in V. injection V as VW VB. split.
  - intros i Hi. refine (eq_trans (f_equal (fun b => nth i b 0%RC) VB) _). apply nth_moved; [|exact A2]. rewrite (proj1 (proj2 Wl)). exact Hi.
  - intros i j Hi Hj. unfold weight, entry. fold (inputs ROps l') (inputs ROps l). rewrite I1. refine (eq_trans (f_equal (fun b => nth _ b 0%RC) VW) _).
    apply nth_moved; [|exact A1]. rewrite (proj1 Wl). unfold units, inputs in *. nia.
Qed.

Theorem balance_step : forall p n data f lr n' k l m, adjacent n k l m -> scalable (d_func l) -> im lr = 0%R -> net_gradient_opt ROps p n data f lr = Ret (n', Ok tt) ->
  exists W G l' m', net_gradient ROps p n data f = Ret (W, G) /\ adjacent n' k l' m' /\ units ROps l' = units ROps l /\ inputs ROps l' = inputs ROps l /\ units ROps m' = units ROps m /\ d_func l' = d_func l /\
    forall i, i < units ROps l ->
      excess (inputs ROps l) (units ROps m) (w_in l' i) (b_in l' i) (w_out m' i) =
      (excess (inputs ROps l) (units ROps m) (w_in l i) (b_in l i) (w_out m i) +
       (re lr / INR (length (ds_inputs data))) ^ 2 * excess (inputs ROps l) (units ROps m) (gw_in l W k i) (gb_in G k i) (gw_out m W k i))%R.
Proof.
  intros p n data f lr n' k l m AD SC RL E. pose proof AD as (K & K2 & Wl & Wm & IM).
  destruct (step_arch ROps p _ _ _ _ _ k _ E K) as (l1 & K1 & A1). destruct (step_arch ROps p _ _ _ _ _ (S k) _ E K2) as (m1 & K3 & A2).
  destruct l1 as [l'|l'|l'|l']; try discriminate. destruct m1 as [m'|m'|m'|m']; try discriminate.
  unfold net_gradient_opt in E. destruct (length n <=? 1); [discriminate|].
  apply obind_inv in E as ((W & G) & EG & E). apply obind_inv in E as (sc & ES & E). apply obind_inv in E as (q & EM & E). assert (q = n') by congruence. subst q. clear E. cbn [fst snd] in EM.
  exists W, G, l', m'. split; [exact EG|].
  assert (HS : sc = mkC (re lr / INR (length (ds_inputs data)))%R 0%R).
  { destruct (real_scale lr _ sc RL ES) as (c & ->). destruct lr as [t u]. cbn [im] in RL. change (u = 0%R) in RL. subst u. destruct (ds_inputs data) as [|d0 ds].
    - exfalso. unfold c_of_nat in ES. rewrite fofnat_R in ES. unfold c_div, fsq in ES. cbn [re im INR length] in ES. change (fzero ROps) with 0%R in ES. change (feqb ROps) with Reqb in ES. cbn [fadd fmul ROps] in ES.
      replace (0 * 0 + 0 * 0)%R with 0%R in ES by ring. rewrite (proj2 (Reqb_eq 0 0) eq_refl) in ES. discriminate.
    - rewrite div_real in ES by discriminate. injection ES as <-. reflexivity. }
  subst sc. set (s := (re lr / INR (length (ds_inputs data)))%R) in *.
  destruct (dense_moved p n data f W G s n' k l l' EG EM K Wl K1) as (Wl' & U1 & I1 & F1 & VB & VW).
  destruct (dense_moved p n data f W G s n' (S k) m m' EG EM K2 Wm K3) as (Wm' & U2 & I2 & F2 & _ & VM).
  split; [repeat (split; [assumption|]); congruence|]. repeat (split; [assumption|]).
  intros i Hi. destruct (gradient_level p n k l m AD SC i Hi data f W G EG) as (R1 & _).
  unfold excess. rewrite (rsum_ext (fun j => c_norm_sq ROps (w_in l' i j)) (fun j => c_norm_sq ROps (w_in l i j - conj (mkC s 0%R * gw_in l W k i j))%RC)) by (intros j Hj; f_equal; exact (VW i j Hi Hj)).
  rewrite (rsum_ext (fun o => c_norm_sq ROps (w_out m' i o)) (fun o => c_norm_sq ROps (w_out m i o - conj (mkC s 0%R * gw_out m W k i o))%RC)) by (intros o Ho; f_equal; exact (VM o i Ho ltac:(lia))).
  assert (B : c_norm_sq ROps (b_in l' i) = (c_norm_sq ROps (b_in l i) - 2 * s * re (b_in l i * gb_in G k i)%RC + s ^ 2 * c_norm_sq ROps (gb_in G k i))%R) by (rewrite <- moved_sq; f_equal; exact (VB i Hi)).
  rewrite B, !rsum_moved. clear B.
  assert (Z : (re (csum (fun j => w_in l i j * gw_in l W k i j)%RC (inputs ROps l)) + re (b_in l i * gb_in G k i)%RC - re (csum (fun o => w_out m i o * gw_out m W k i o)%RC (units ROps m)) = 0)%R) by exact R1.
  set (x1 := re (csum (fun j => w_in l i j * gw_in l W k i j)%RC (inputs ROps l))) in *. set (x2 := re (b_in l i * gb_in G k i)%RC) in *. set (x3 := re (csum (fun o => w_out m i o * gw_out m W k i o)%RC (units ROps m))) in *.
  assert (Z1 : x3 = (x1 + x2)%R) by (clearbody x1 x2 x3; change (F ROps) with R in *; lra). rewrite Z1. ring.
Qed.

(** ** Many small steps *)
Theorem balance_gentle : forall p k i eps B T n n' l m, gentle p k i eps B T n n' -> adjacent n k l m -> scalable (d_func l) -> i < units ROps l ->
  (0 <= T)%R /\ exists l' m', adjacent n' k l' m' /\ units ROps l' = units ROps l /\ inputs ROps l' = inputs ROps l /\ units ROps m' = units ROps m /\ d_func l' = d_func l /\
    (Rabs (excess (inputs ROps l) (units ROps m) (w_in l' i) (b_in l' i) (w_out m' i) - excess (inputs ROps l) (units ROps m) (w_in l i) (b_in l i) (w_out m i)) <= B * T * eps)%R.
Proof.
  intros p k i eps B T n n' l m H. induction H as [n|T n n1 n2 data f lr l1 m1 W G H IH AD EG HB RL HS E]; intros AD0 SC Hi.
  - split; [lra|]. exists l, m. split; [exact AD0|]. repeat (split; [reflexivity|]). rewrite Rminus_eq_0, Rabs_R0. lra.
  - destruct (IH AD0 SC Hi) as (T0 & l' & m' & AD' & U1 & I1 & U2 & F1 & D). split; [lra|].
    assert (l1 = l') by (destruct AD as (Q & _), AD' as (Q' & _); congruence). assert (m1 = m') by (destruct AD as (_ & Q & _), AD' as (_ & Q' & _); congruence). subst l1 m1.
    destruct (balance_step p n1 data f lr n2 k l' m' AD' ltac:(congruence) RL E) as (W' & G' & l2 & m2 & EG' & AD2 & U3 & I2 & U4 & F2 & ST).
    assert (W' = W /\ G' = G) as (-> & ->) by (rewrite EG in EG'; injection EG'; auto).
    exists l2, m2. split; [exact AD2|]. split; [congruence|]. split; [congruence|]. split; [congruence|]. split; [congruence|].
    specialize (ST i ltac:(lia)). rewrite I1, U2 in *. rewrite ST. clear ST.
    set (x := excess _ _ (w_in l' i) _ _) in *. set (y := excess _ _ (w_in l i) _ _) in *. set (g := excess _ _ (gw_in l' W k i) _ _) in *. set (s := (re lr / INR (length (ds_inputs data)))%R) in *.
    clearbody x y g s. clear - D HB HS T0. assert (P : (0 <= s * s <= s * eps)%R) by (split; [apply Rmult_le_pos | apply Rmult_le_compat_l]; lra).
    assert (Q : (Rabs (s ^ 2 * g) <= B * (s * eps))%R).
    { rewrite Rabs_mult, (Rabs_pos_eq (s ^ 2)) by nra. replace (s ^ 2)%R with (s * s)%R by ring. apply Rle_trans with (s * s * B)%R; [apply Rmult_le_compat_l; lra|].
      assert (0 <= B)%R by (pose proof (Rabs_pos g); lra). rewrite Rmult_comm. apply Rmult_le_compat_l; lra. }
    replace (x + s ^ 2 * g - y)%R with ((x - y) + s ^ 2 * g)%R by ring. eapply Rle_trans; [apply Rabs_triang|]. replace (B * (T + s) * eps)%R with (B * T * eps + B * (s * eps))%R by ring. lra.
Qed.

(** ** Two units in a row *)
Definition two (f : ComplexActFunc) (a b c d : RC) : network ROps :=
  [LDense (mkDense ROps (from_body [a] 1 1) [b] f); LDense (mkDense ROps (from_body [c] 1 1) [d] ActNone)].

Lemma two_adjacent : forall f a b c d, adjacent (two f a b c d) 0 (mkDense ROps (from_body [a] 1 1) [b] f) (mkDense ROps (from_body [c] 1 1) [d] ActNone).
Proof. intros. repeat split; discriminate. Qed.

Lemma two_gradient : forall p f a b c d x t y dl dc, f = RITSigmoid \/ f = RITReLU ->
  activate ROps p f (a * x + b)%RC = Ret y -> d_activate ROps p f (a * x + b)%RC = Ret dl -> d_conj_activate ROps p f (a * x + b)%RC = Ret dc ->
  let g := conj (c * y + d - t)%RC in let e := (dl * (c * g) + conj dc * conj (c * g))%RC in
  net_gradient ROps p (two f a b c d) (mkData [IOScalar [x]] [IOScalar [t]]) MeanSquare = Ret ([[x * e]; [y * g]]%RC, [[e]; [g]]%RC).
Proof.
  intros p f a b c d x t y dl dc [-> | ->] A D DC g e; injection A as A; injection D as D; injection DC as DC.
  all: cbn -[ritsigmoid d_ritsigmoid d_conj_ritsigmoid ritrelu d_ritrelu d_conj_ritrelu]; change (c_add_assign ROps) with (c_add ROps);
    assert (E : (0%RC + a * x + b)%RC = (a * x + b)%RC) by ring; rewrite !E, A, D, DC; clear E A D DC;
    assert (E : (0%RC + c * y + d)%RC = (c * y + d)%RC) by ring; rewrite !E; clear E;
    change (d_sq_error ROps t (c * y + d)%RC) with g; assert (C0 : conj (0%RC : RC) = 0%RC) by (apply c_ext; cbn; ring); rewrite C0;
    assert (E1 : (0 + c * (1 * g + 0 * conj g))%RC = (c * g)%RC) by ring; rewrite !E1; fold e; generalize e g; intros e1 g1; clear;
    assert (Q : forall x1 y1 x2 y2 x3 y3 x4 y4 : RC, x1 = y1 -> x2 = y2 -> x3 = y3 -> x4 = y4 -> Ret ([[x1]; [x2]], [[x3]; [x4]]) = Ret ([[y1]; [y2]], [[y3]; [y4]])) by (intros; subst; reflexivity);
    apply Q; ring.
Qed.

Theorem balance_gradient : forall p n k l m data f W G, adjacent n k l m -> scalable (d_func l) -> net_gradient ROps p n data f = Ret (W, G) ->
  forall i, i < units ROps l ->
    let inward := (csum (fun j => w_in l i j * gw_in l W k i j) (inputs ROps l) + b_in l i * gb_in G k i)%RC in
    let outward := csum (fun o => w_out m i o * gw_out m W k i o)%RC (units ROps m) in
    re inward = re outward /\ (d_func l <> RITReLU -> inward = outward).
Proof.
  intros p n k l m data f W G AD SC E i Hi inward outward. destruct (gradient_level p n k l m AD SC i Hi data f W G E) as (R1 & R2).
  change (flow k l m i W G) with (inward - outward)%RC in R1, R2. split.
  - apply Rminus_diag_uniq. exact R1.
  - intros H. specialize (R2 H). clearbody inward outward. transitivity (inward - outward + outward)%RC; [ring|]. rewrite R2. ring.
Qed.

Theorem balance_training : forall p k i eps B T n n' l m, gentle p k i eps B T n n' -> adjacent n k l m -> scalable (d_func l) -> i < units ROps l ->
  exists l' m', adjacent n' k l' m' /\ units ROps l' = units ROps l /\ inputs ROps l' = inputs ROps l /\ units ROps m' = units ROps m /\ d_func l' = d_func l /\
    (Rabs (excess (inputs ROps l) (units ROps m) (w_in l' i) (b_in l' i) (w_out m' i) - excess (inputs ROps l) (units ROps m) (w_in l i) (b_in l i) (w_out m i)) <= B * T * eps)%R.
Proof. intros p k i eps B T n n' l m H AD SC Hi. exact (proj2 (balance_gentle p k i eps B T n n' l m H AD SC Hi)). Qed.

Lemma sigmoid_half : forall p, sigmoid ROps p 0%R = (1 / 2)%R.
Proof.
  intros p. unfold sigmoid, sig_thr. cbn [fleb flit fneg fexp fdiv fadd fone ROps Rlit]. change (fone ROps) with 1%R. change (fleb ROps) with Rleb. 
  destruct p; rewrite (proj2 (Rleb_gt _ 0%R)) by lra; rewrite (proj2 (Rleb_gt 0%R _)) by lra; rewrite exp_0; lra.
Qed.

Theorem sigmoid_unbalanced : exists n l m data W G, adjacent n 0 l m /\ d_func l = RITSigmoid /\ units ROps l = 1 /\ (forall p, net_gradient ROps p n data MeanSquare = Ret (W, G)) /\
  re (csum (fun j => w_in l 0 j * gw_in l W 0 0 j) (inputs ROps l) + b_in l 0 * gb_in G 0 0)%RC <> re (csum (fun o => w_out m 0 o * gw_out m W 0 0 o)%RC (units ROps m)).
Proof.
  pose (o := mkC 0%R 0%R : RC). pose (e := mkC 1%R 0%R : RC).
  do 2 eexists. eexists. exists (mkData [IOScalar [e]] [IOScalar [o]]). do 2 eexists. split; [apply (two_adjacent RITSigmoid o o e o)|]. split; [reflexivity|]. split; [reflexivity|]. split.
  - intros p. assert (Q : (o * e + o)%RC = o) by (unfold e, o; apply c_ext; cbn; ring). apply (two_gradient p RITSigmoid o o e o e o (mkC (/ 2)%R (/ 2)%R) (mkC (/ 4)%R 0%R) o); [now left | | |];
      rewrite Q; cbn [activate d_activate d_conj_activate]; unfold ritsigmoid, d_ritsigmoid, d_conj_ritsigmoid, d_sigmoid, o; cbn [re im]; rewrite !sigmoid_half; f_equal; apply c_ext; cbn; lra.
  - unfold gw_in, gb_in, gw_out, w_in, b_in, w_out, weight, entry. cbn [nth inputs units d_weights d_biases from_body sh0 sh1 body]. rewrite !csum_S, !csum_0. cbn. lra.
Qed.

Theorem rectifier_phase : exists n l m data W G, adjacent n 0 l m /\ d_func l = RITReLU /\ units ROps l = 1 /\ (forall p, net_gradient ROps p n data MeanSquare = Ret (W, G)) /\
  (csum (fun j => w_in l 0 j * gw_in l W 0 0 j) (inputs ROps l) + b_in l 0 * gb_in G 0 0)%RC <> csum (fun o => w_out m 0 o * gw_out m W 0 0 o)%RC (units ROps m).
Proof.
  pose (o := mkC 0%R 0%R : RC). pose (e := mkC 1%R 0%R : RC). pose (a := mkC 1%R (-1)%R : RC).
  do 2 eexists. eexists. exists (mkData [IOScalar [e]] [IOScalar [o]]). do 2 eexists. split; [apply (two_adjacent RITReLU a o e o)|]. split; [reflexivity|]. split; [reflexivity|]. split.
  - intros p. assert (Q : (a * e + o)%RC = a) by (unfold a, e, o; apply c_ext; cbn; ring).
    assert (S1 : Rltb 1 0 = false) by (apply Rltb_ge; lra). assert (S2 : Rltb (-1) 0 = true) by (apply Rltb_lt; lra).
    apply (two_gradient p RITReLU a o e o e o e (mkC (/ 2)%R 0%R) (mkC (/ 2)%R 0%R)); [now right | | |]; rewrite Q; cbn [activate d_activate d_conj_activate];
      unfold ritrelu, d_ritrelu, d_conj_ritrelu, relu, d_relu, a; cbn [re im fsignneg ROps]; rewrite S1, S2; f_equal; apply c_ext; cbn; lra.
  - unfold gw_in, gb_in, gw_out, w_in, b_in, w_out, weight, entry. cbn [nth inputs units d_weights d_biases from_body sh0 sh1 body]. rewrite !csum_S, !csum_0. intros H. apply (f_equal im) in H. cbn in H. lra.
Qed.
