(** * Training follows the gradient of the reported loss (C54) *)
From Coq Require Import Reals Lra Psatz.
From Coquelicot Require Import Coquelicot.
From Verif Require Import Base BaseFacts Float Matrix Cplx Random Act Input Loss Dense Conv Layer Dataset Network RFloat SpecMatrix MatrixFacts CFacts
  SpecCalculus CalcFacts SpecLoss SpecLayer DenseFacts SpecConv SpecNet NetFacts TrainFacts TrainDense PropTrain PropAct PropDense PropConv SpecGrad GradFacts GradFacts2.
Local Open Scope nat_scope.
Local Notation re := Cplx.re.
Local Notation im := Cplx.im.

(** ** C54 *)
(** Exact arithmetic.  The parameters of a network move along any differentiable
    curves.  At time 0 the network is differentiable along the forward pass of
    every point of the batch.  Then the gradient that training accumulates
    predicts the change of the reported mean loss, up to the constant factor
    1 / (points * (outputs - 1)). *)
Theorem C54_gradient : forall p (Ls : list (R -> clayer ROps)) V pts m,
  net_moves Ls V -> Ls <> [] -> pts <> [] -> 2 <= m ->
  (forall x tg, In (x, tg) pts -> smooth_path p true (at_time Ls 0%R) x /\
     forall y, net_forward ROps p (at_time Ls 0%R) x = Ret (Ok y) -> fits_target tg y /\ length (io_values y) = m) ->
  exists W B (l : R -> R),
    net_gradient ROps p (at_time Ls 0%R) (batch pts) MeanSquare = Ret (W, B) /\
    locally 0%R (fun t => net_loss ROps p (at_time Ls t) (batch pts) MeanSquare = Ret (Ok (l t))) /\
    is_derive l 0%R (net_rate W B V / (INR (length pts) * (INR m - 1)))%R.
Proof.
  intros p Ls V pts m M NE NP N2 H. destruct (batch_grad p Ls V pts m M NE NP N2 H) as (W & B & l & E1 & _ & _ & E2 & E3).
  exists W, B, l. auto.
Qed.
Print Assumptions C54_gradient.

(** Any loss, any network with full weight matrices: a training step with a real
    rate subtracts rate / points times the conjugate of the gradient from every
    parameter and leaves everything else. *)
Theorem C54_step : forall p (n : network ROps) data f W B (lr : R),
  Forall (layer_full ROps) n -> 2 <= length n -> ds_inputs data <> [] ->
  net_gradient ROps p n data f = Ret (W, B) ->
  exists n', net_gradient_opt ROps p n data f (mkC lr 0%R) = Ret (n', Ok tt) /\
    map (arch_of ROps) n' = map (arch_of ROps) n /\
    forall k l, nth_error n k = Some l -> exists l', nth_error n' k = Some l' /\
      let c := (lr / INR (length (ds_inputs data)))%R in
      (forall i, i < length (fst (layer_values ROps l)) ->
         nth i (fst (layer_values ROps l')) 0%RC = (nth i (fst (layer_values ROps l)) 0 - mkC c 0%R * conj (nth i (nth k W []) 0))%RC) /\
      (forall i, i < length (snd (layer_values ROps l)) ->
         nth i (snd (layer_values ROps l')) 0%RC = (nth i (snd (layer_values ROps l)) 0 - mkC c 0%R * conj (nth i (nth k B []) 0))%RC).
Proof.
  intros p n data f W B lr FU LN ND G.
  destruct (gradient_lengths ROps p n data f W B G) as (L1 & L2). destruct (grad_zero_sizes ROps n FU) as (Z1 & Z2).
  rewrite Z1 in L1. rewrite Z2 in L2. clear Z1 Z2.
  assert (N0 : length (ds_inputs data) <> 0) by (destruct (ds_inputs data); [congruence | discriminate]).
  unfold net_gradient_opt. rewrite (proj2 (Nat.leb_gt (length n) 1)) by lia. rewrite G. cbn [obind fst snd].
  rewrite (div_real lr _ N0). cbn [obind]. set (s := mkC (lr * / INR (length (ds_inputs data)))%R 0%R) in *.
  assert (HH : exists n', mapM (update_layer ROps s) (combine (combine W B) n) = Ret n' /\ map (arch_of ROps) n' = map (arch_of ROps) n /\
    forall k l, nth_error n k = Some l -> exists l', nth_error n' k = Some l' /\
      layer_values ROps l' = (zip_assign (sub_conj ROps) (fst (layer_values ROps l)) (map (fun e => c_mul_assign ROps e s) (nth k W [])),
                              zip_assign (sub_conj ROps) (snd (layer_values ROps l)) (map (fun e => c_mul_assign ROps e s) (nth k B []))) /\
      length (nth k W []) = length (fst (layer_values ROps l)) /\ length (nth k B []) = length (snd (layer_values ROps l))).
  { clear G LN ND N0. revert W B FU L1 L2. induction n as [|l n IH]; intros [|w W] [|b B] FU L1 L2; try discriminate.
    - exists []. split; [reflexivity|]. split; [reflexivity|]. intros [|k] l Hk; discriminate.
    - inversion FU as [|? ? F0 F1]; subst. cbn [map] in L1, L2. injection L1 as l1 L1. injection L2 as l2 L2.
      destruct (IH W B F1 L1 L2) as (n' & I1 & I2 & I3). destruct (update_ok ROps s l w b F0 l1 l2) as (l' & U1 & U2 & U3).
      exists (l' :: n'). cbn [combine mapM]. rewrite U1. cbn [obind]. rewrite I1. cbn [obind]. split; [reflexivity|].
      cbn [map]. rewrite U2, I2. split; [reflexivity|]. intros [|k] l0 Hk; cbn [nth_error nth] in *.
      + injection Hk as <-. exists l'. auto.
      + apply I3, Hk. }
  destruct HH as (n' & E1 & E2 & E3). rewrite E1. cbn [obind]. exists n'. split; [reflexivity|]. split; [exact E2|].
  intros k l Hk. destruct (E3 k l Hk) as (l' & K1 & K2 & K3 & K4). exists l'. split; [exact K1|]. cbv zeta.
  assert (GG : forall (v d : list RC) i, length d = length v -> i < length v ->
     nth i (zip_assign (sub_conj ROps) v (map (fun e => c_mul_assign ROps e s) d)) 0%RC =
     (nth i v 0 - mkC (lr / INR (length (ds_inputs data)))%R 0%R * conj (nth i d 0))%RC).
  { intros v d i LD Hi. rewrite (zip_nth _ v _ i _ (c_mul_assign ROps 0%RC s)) by (rewrite ?map_length; lia).
    rewrite (map_nth (fun e => c_mul_assign ROps e s)). subst s. generalize (nth i v 0%RC) (nth i d 0%RC). intros [a b] [u w].
    unfold sub_conj, c_sub_assign, c_mul_assign, c_conj. apply c_ext; cbn; unfold Rdiv; ring. }
  rewrite K2. cbn [fst snd]. split; intros i Hi; apply GG; assumption.
Qed.
Print Assumptions C54_step.

(** The loss after one step, as a function of the rate: its derivative at 0 is
    minus the squared length of the gradient, up to the same kind of factor.  If
    the gradient is not zero, every small enough positive rate lowers the
    reported loss. *)
Theorem C54_descends : forall p (n : network ROps) pts m,
  2 <= length n -> pts <> [] -> 2 <= m ->
  (forall x tg, In (x, tg) pts -> smooth_path p true n x /\
     forall y, net_forward ROps p n x = Ret (Ok y) -> fits_target tg y /\ length (io_values y) = m) ->
  exists W B (l : R -> R),
    net_gradient ROps p n (batch pts) MeanSquare = Ret (W, B) /\
    net_loss ROps p n (batch pts) MeanSquare = Ret (Ok (l 0%R)) /\
    locally 0%R (fun t => exists n', net_gradient_opt ROps p n (batch pts) MeanSquare (mkC t 0%R) = Ret (n', Ok tt) /\
                                     net_loss ROps p n' (batch pts) MeanSquare = Ret (Ok (l t))) /\
    is_derive l 0%R (- 2 * grad_norm_sq W B / (INR (length pts) * INR (length pts) * (INR m - 1)))%R /\
    (Exists (fun c => c <> (0%RC : RC)) (concat W ++ concat B) ->
     exists e, (0 < e)%R /\ forall t, (0 < t < e)%R -> exists n' v,
       net_gradient_opt ROps p n (batch pts) MeanSquare (mkC t 0%R) = Ret (n', Ok tt) /\
       net_loss ROps p n' (batch pts) MeanSquare = Ret (Ok v) /\ (v < l 0)%R).
Proof.
  intros p n pts m LN NP N2 H.
  assert (FU : Forall (layer_full ROps) n).
  { destruct pts as [|(x & tg) pts]; [congruence|]. destruct (H x tg (or_introl eq_refl)) as (SP & _). eapply smooth_full; exact SP. }
  (* the gradient, from a constant motion *)
  set (L0 := map (fun l (_ : R) => l) n). set (V0 := map (fun l => (repeat (0%RC : RC) (length (fst (layer_values ROps l))), repeat (0%RC : RC) (length (snd (layer_values ROps l))))) n).
  assert (T0 : forall t, at_time L0 t = n). { intros t. unfold at_time, L0. rewrite map_map. apply map_id. }
  assert (M0 : net_moves L0 V0). { subst L0 V0. clear. induction n as [|l n IH]; cbn [map]; constructor; [apply const_moves | exact IH]. }
  assert (NL : L0 <> []). { subst L0. destruct n; [cbn in LN; lia | discriminate]. }
  destruct (batch_grad p L0 V0 pts m M0 NL NP N2) as (W & B & l0 & E1 & E2 & E3 & _).
  { rewrite T0. exact H. }
  rewrite T0 in E1. destruct (moves_sizes L0 V0 M0) as (Y1 & Y2). rewrite T0 in Y1, Y2. rewrite <- Y1 in E2. rewrite <- Y2 in E3. clear Y1 Y2.
  assert (NP0 : length pts <> 0) by (destruct pts; [congruence | discriminate]).
  set (c := (/ INR (length pts))%R).
  destruct (step_net_ok c n W B FU E2 E3) as (M & TZ & UP).
  assert (NS : step_net c W B n <> []). { intros E. rewrite E in TZ. cbn in TZ. subst n. cbn in LN. lia. }
  destruct (batch_grad p (step_net c W B n) (step_vels c W B) pts m M NS NP N2) as (W' & B' & l & F1 & _ & _ & F2 & F3).
  { rewrite TZ. exact H. }
  rewrite TZ in F1. assert (EW : W' = W /\ B' = B) by (rewrite E1 in F1; split; congruence). destruct EW as (-> & ->). clear F1.
  assert (LWB : length W = length B).
  { apply (f_equal (@length nat)) in E2. apply (f_equal (@length nat)) in E3. rewrite !map_length in E2, E3. congruence. }
  rewrite net_rate_step in F3 by exact LWB.
  assert (STEP : forall t, net_gradient_opt ROps p n (batch pts) MeanSquare (mkC t 0%R) = Ret (at_time (step_net c W B n) t, Ok tt)).
  { intros t. unfold net_gradient_opt. rewrite (proj2 (Nat.leb_gt (length n) 1)) by lia. rewrite E1. cbn [obind fst snd].
    assert (LP : length (ds_inputs (batch pts)) = length pts) by apply map_length. rewrite LP. rewrite (div_real t _ NP0). cbn [obind].
    fold c. rewrite UP. reflexivity. }
  assert (P0 : INR (length pts) <> 0%R) by (apply not_0_INR; exact NP0).
  assert (PP : (0 < INR (length pts))%R) by (apply lt_0_INR; lia).
  assert (M1 : (0 < INR m - 1)%R). { apply (le_INR 2) in N2. cbn in N2. lra. }
  assert (DE : (- (2 * c) * grad_norm_sq W B / (INR (length pts) * (INR m - 1)) = - 2 * grad_norm_sq W B / (INR (length pts) * INR (length pts) * (INR m - 1)))%R).
  { subst c. field. split; lra. }
  rewrite DE in F3. clear DE.
  exists W, B, l. split; [exact E1|]. split.
  { pose proof (locally_singleton _ _ F2) as F0. cbn beta in F0. rewrite TZ in F0. exact F0. }
  split.
  { revert F2. apply filter_imp. intros t E. exists (at_time (step_net c W B n) t). split; [apply STEP | exact E]. }
  split; [exact F3|]. intros NZ. apply norm_sum_pos in NZ. fold (norm_sum (concat W ++ concat B)) in *.
  change (grad_norm_sq W B) with (norm_sum (concat W ++ concat B)) in F3.
  assert (NEG : (- 2 * norm_sum (concat W ++ concat B) / (INR (length pts) * INR (length pts) * (INR m - 1)) < 0)%R).
  { assert (Q : (0 < INR (length pts) * INR (length pts) * (INR m - 1))%R) by (apply Rmult_lt_0_compat; [apply Rmult_lt_0_compat|]; assumption).
    apply (Rmult_lt_reg_r _ _ _ Q). unfold Rdiv. rewrite Rmult_assoc, Rinv_l by lra. lra. }
  destruct (neg_derive_descends l _ F3 NEG) as (e1 & P1 & D1). destruct F2 as (e2 & D2).
  exists (Rmin e1 e2). split; [apply Rmin_pos; [exact P1 | apply cond_pos]|]. intros t Ht.
  exists (at_time (step_net c W B n) t), (l t). split; [apply STEP|]. split.
  - apply D2. change (Rabs (t - 0) < e2)%R. rewrite Rminus_0_r, Rabs_pos_eq by lra. eapply Rlt_le_trans; [apply Ht | apply Rmin_r].
  - apply D1. split; [apply Ht|]. eapply Rlt_le_trans; [apply Ht | apply Rmin_l].
Qed.
Print Assumptions C54_descends.

(** Dense layers: with the identity and the split tanh the hypothesis holds
    everywhere, with the other activations wherever they are smooth. *)
Theorem C54_dense_smooth : forall p (ls : list (dense ROps)) w (x : list RC) first, widths_fit ROps ls w -> length x = w ->
  (forall l, In l ls -> d_func l = ActNone \/ d_func l = RITTanh) ->
  smooth_path p first (map LDense ls) (IOScalar x).
Proof.
  intros p. induction ls as [|l ls IH]; intros w x first WF X A; [exact I|]. destruct WF as (W & IW & WF). cbn [map smooth_path].
  assert (SM : forall q, act_diff p (d_func l) q).
  { intros q. apply C41_smooth. destruct (A l (or_introl eq_refl)) as [-> | ->]; exact I. }
  split. { cbn [at_preacts]. split; [exact W|]. split; [congruence|]. intros i _. apply SM. }
  split. { left. destruct ls; exact I. }
  split. { right. left. discriminate. }
  intros y E. cbn [layer_forward] in E.
  assert (EY : exists v, y = IOScalar v /\ length v = units ROps l).
  { rewrite dense_forward_ok in E by (assumption || congruence).
    apply obind_inv in E as (v & E1 & E). assert (y = IOScalar v) by congruence. subst y. exists v. split; [reflexivity|].
    apply mapM_length in E1. now rewrite seq_length in E1. }
  destruct EY as (v & -> & LV). apply (IH (units ROps l)); [exact WF | exact LV | intros; apply A; now right].
Qed.
Print Assumptions C54_dense_smooth.

(** A convolutional first layer, flattened and followed by dense layers. *)
Theorem C54_cnn_smooth : forall p (k : conv ROps) a b r c fl (ls : list (dense ROps)) (x : list (matrix RC)),
  conv_wf ROps a b k -> maps_wf (channels ROps k) r c x -> a <= r -> b <= c ->
  widths_fit ROps ls (filters ROps k * ((r - a + 1) * (c - b + 1))) ->
  (k_func k = ActNone \/ k_func k = RITTanh) -> (forall l, In l ls -> d_func l = ActNone \/ d_func l = RITTanh) ->
  smooth_path p true (LConv k :: LFlatten fl :: map LDense ls) (IOMatrix x).
Proof.
  intros p k a b r c fl ls x W M A B WF AK AL. cbn [smooth_path].
  split.
  { exists a, b, r, c. split; [exact W|]. split; [exact M|]. split; [exact A|]. split; [exact B|].
    intros. apply C41_smooth. destruct AK as [-> | ->]; exact I. }
  split; [left; destruct ls; exact I|]. split; [now left|]. intros y E.
  set (f := fun o i j => match activate ROps p (k_func k) (cpre ROps a b k x o i j) with Ret v => v | Panic => c_default ROps end).
  assert (F : conv_forward ROps p k (IOMatrix x) = Ret (Ok (IOMatrix (map (fun o => mat (r - a + 1) (c - b + 1) (f o)) (seq 0 (filters ROps k)))))).
  { apply C44_forward; try assumption. intros o i j _ _ _. unfold f. destruct AK as [-> | ->]; reflexivity. }
  cbn [layer_forward] in E. pose proof (eq_trans (eq_sym E) F) as EE. injection EE as ->. clear E F.
  split; [exact I|]. split; [left; destruct ls; exact I|]. split; [right; left; discriminate|]. intros y E.
  cbn [layer_forward flat_forward] in E. injection E as <-.
  eapply C54_dense_smooth; [exact WF | | exact AL].
  rewrite flat_map_concat_map, map_map. rewrite (concat_length_const ((r - a + 1) * (c - b + 1))).
  - now rewrite map_length, seq_length.
  - apply Forall_forall. intros z Hz. apply in_map_iff in Hz as (o & <- & _). cbn [mat body]. apply concat_tab_length.
Qed.
Print Assumptions C54_cnn_smooth.

(** Together: a dense network with these activations, at least two layers and
    two outputs; any parameters, any non-empty batch of points of the right
    widths. *)
Theorem C54_dense : forall p (ls : list (dense ROps)) w pts,
  widths_fit ROps ls w -> 2 <= length ls -> 2 <= out_width ROps ls w ->
  (forall l, In l ls -> d_func l = ActNone \/ d_func l = RITTanh) -> pts <> [] ->
  (forall it, In it pts -> exists x t, it = (IOScalar x, IOScalar t) /\ length x = w /\ length t = out_width ROps ls w) ->
  exists W B v0, net_gradient ROps p (map LDense ls) (batch pts) MeanSquare = Ret (W, B) /\
    net_loss ROps p (map LDense ls) (batch pts) MeanSquare = Ret (Ok v0) /\
    (Exists (fun c => c <> (0%RC : RC)) (concat W ++ concat B) ->
     exists e, (0 < e)%R /\ forall t, (0 < t < e)%R -> exists n' v,
       net_gradient_opt ROps p (map LDense ls) (batch pts) MeanSquare (mkC t 0%R) = Ret (n', Ok tt) /\
       net_loss ROps p n' (batch pts) MeanSquare = Ret (Ok v) /\ (v < v0)%R).
Proof.
  intros p ls w pts WF LL OW A NP HP.
  destruct (C54_descends p (map LDense ls) pts (out_width ROps ls w)) as (W & B & l & E1 & E2 & _ & _ & E5).
  - now rewrite map_length.
  - exact NP.
  - exact OW.
  - intros x tg Hin. destruct (HP _ Hin) as (xs & ts & E & LX & LT). injection E as -> ->. split.
    + eapply C54_dense_smooth; eauto.
    + intros y FW.
      assert (NM : forall l, In l ls -> d_func l <> ModZ) by (intros l Hl; destruct (A l Hl) as [-> | ->]; discriminate).
      destruct (dense_sweep ROps p ls w xs WF LX NM) as (vs & ys & T & N & L & _).
      assert (NE : map (@LDense ROps) ls <> []) by (destruct ls; [cbn in LL; lia | discriminate]).
      assert (FW' : net_forward ROps p (map LDense ls) (IOScalar xs) = Ret (Ok (IOScalar ys))).
      { rewrite (forward_fold ROps p (map LDense ls) (IOScalar xs) NE), (fwd_fold ROps p _ _ _ T). cbn [obind]. now rewrite N. }
      assert (EY : IOScalar ys = y) by (pose proof (eq_trans (eq_sym FW) FW') as EE; injection EE as ->; reflexivity). subst y. cbn [io_values fits_target].
      split; [split; [exact I|]|]; cbn [io_values]; [transitivity (out_width ROps ls w); [exact LT | symmetry; exact L] | exact L].
  - exists W, B, (l 0%R). auto.
Qed.
Print Assumptions C54_dense.

(** A rate with an imaginary part is not applied as a factor of the gradient:
    scaling goes through the [*=] of C02.  Here the gradient is 1 everywhere, the
    rate is i, and nothing moves. *)
Definition one_unit : dense ROps := mkDense ROps (from_body [mkC 1 0]%R 1 1) [mkC 0 0]%R ActNone.
Definition unit_net : network ROps := [LDense one_unit; LDense one_unit].
Definition unit_data : dataset RC RC := batch [(IOScalar [mkC 1 0]%R, IOScalar [mkC 0 0]%R)].

Lemma unit_gradient : net_gradient ROps P64 unit_net unit_data MeanSquare =
  Ret ([[mkC 1 0]; [mkC 1 0]], [[mkC 1 0]; [mkC 1 0]])%R.
Proof.
  cbn. change (c_add_assign ROps) with (c_add ROps).
  match goal with |- context [d_sq_error ROps ?t ?y] => assert (E : d_sq_error ROps t y = 1%RC) end.
  { match goal with |- d_sq_error ROps ?t ?y = _ => assert (E : y = 1%RC) end.
    { change (mkC 1%R 0%R) with (1%RC : RC). change (mkC 0%R 0%R) with (0%RC : RC). ring. }
    rewrite E. apply c_ext; cbn; ring. }
  rewrite E. clear E. change (mkC 1%R 0%R) with (1%RC : RC).
  assert (C0 : conj (0%RC : RC) = 0%RC) by (apply c_ext; cbn; ring). assert (C1 : conj (1%RC : RC) = 1%RC) by (apply c_ext; cbn; ring).
  assert (S1 : (0 + 1 * (1 * 1 + conj 0 * conj 1))%RC = 1%RC) by (rewrite C0, C1; ring).
  assert (S2 : (0 + (1 * 1 + conj 0 * conj 1))%RC = 1%RC) by (rewrite C0, C1; ring).
  repeat first [rewrite S1 | rewrite S2]. rewrite C0, C1. change (mkC 0%R 0%R) with (0%RC : RC). repeat f_equal; ring.
Qed.

Theorem C54_complex_rate_refuted : exists (n : network ROps) data W B (lr : RC),
  net_gradient ROps P64 n data MeanSquare = Ret (W, B) /\ lr <> 0%RC /\ Forall (Forall (fun c => c <> (0%RC : RC))) W /\ W <> [] /\
  net_gradient_opt ROps P64 n data MeanSquare lr = Ret (n, Ok tt).
Proof.
  exists unit_net, unit_data, [[mkC 1 0]; [mkC 1 0]]%R, [[mkC 1 0]; [mkC 1 0]]%R, (mkC 0 1)%R.
  split; [apply unit_gradient|].
  assert (NZ : mkC 1%R 0%R <> (0%RC : RC)) by (intros E; apply (f_equal re) in E; cbn in E; lra).
  split; [intros E; apply (f_equal im) in E; cbn in E; lra|]. split; [repeat constructor; exact NZ|]. split; [discriminate|].
  unfold net_gradient_opt. cbn [length unit_net Nat.leb]. fold unit_net. rewrite unit_gradient. cbn [obind fst snd].
  assert (D : c_div ROps (mkC 0 1)%R (c_of_nat ROps (length (ds_inputs unit_data))) = Ret (mkC 0 1)%R).
  { unfold c_of_nat. rewrite LossFacts.fofnat_R. unfold c_div, fsq. cbn [Cplx.re Cplx.im].
    change (fzero ROps) with 0%R. change (feqb ROps) with Reqb. cbn [fadd fsub fmul fdiv ROps length ds_inputs unit_data batch map INR].
    destruct (Reqb _ 0) eqn:E; [apply Reqb_eq in E; exfalso; lra|]. f_equal. f_equal; field. }
  assert (U : update_layer ROps (mkC 0 1)%R ([mkC 1 0]%R, [mkC 1 0]%R, LDense one_unit) = Ret (LDense one_unit)).
  { assert (S : forall w : RC, sub_conj ROps w (c_mul_assign ROps (mkC 1 0)%R (mkC 0 1)%R) = w).
    { intros [x y]. unfold sub_conj, c_sub_assign, c_mul_assign, c_conj. apply c_ext; cbn; ring. }
    change (Ret (LDense (mkDense ROps (from_body [sub_conj ROps (mkC 1 0)%R (c_mul_assign ROps (mkC 1 0)%R (mkC 0 1)%R)] 1 1)
       [sub_conj ROps (mkC 0 0)%R (c_mul_assign ROps (mkC 1 0)%R (mkC 0 1)%R)] ActNone)) = Ret (LDense one_unit)). now rewrite !S. }
  rewrite D. cbn [obind unit_net combine mapM].
  match goal with |- context [update_layer ROps ?s ?g] => set (u := update_layer ROps s g); assert (E : u = Ret (LDense one_unit)) by exact U end.
  rewrite E. reflexivity.
Qed.
Print Assumptions C54_complex_rate_refuted.

(** ** Instances *)
(** A dense network meets the hypotheses and its gradient is not zero. *)
Definition two_units : dense ROps := mkDense ROps (from_body [mkC 1 0; mkC 0 1]%R 2 1) [mkC 0 0; mkC 0 0]%R ActNone.
Definition two_to_two : dense ROps := mkDense ROps (from_body [mkC 1 0; mkC 0 0; mkC 0 0; mkC 1 0]%R 2 2) [mkC 0 0; mkC 0 0]%R ActNone.

Example C54_ex : widths_fit ROps [two_units; two_to_two] 1 /\
  exists W B, net_gradient ROps P64 (map LDense [two_units; two_to_two]) (batch [(IOScalar [mkC 1 0]%R, IOScalar [mkC 0 0; mkC 0 0]%R)]) MeanSquare = Ret (W, B) /\
    Exists (fun c => c <> (0%RC : RC)) (concat W ++ concat B).
Proof.
  split.
  { cbn [widths_fit]. unfold dense_wf, wf, two_units, two_to_two. cbn. repeat split; auto. }
  eexists. eexists. split; [reflexivity|]. apply Exists_app. right. cbn [concat app]. do 2 apply Exists_cons_tl. apply Exists_cons_hd.
  intros E. apply (f_equal re) in E. unfold c_add_assign, d_sq_error, c_conj, c_sub, c_mul, c_add in E. cbn in E. lra.
Qed.

(** A convolutional network meets them too. *)
Definition cnn_conv : conv ROps := mkConv ROps 1 (from_body [from_body [mkC 1 0; mkC 0 1]%R 1 2] 1 1) [mkC 0 0]%R RITTanh.
Example C54_ex_conv : forall a b c : RC,
  smooth_path P64 true [LConv cnn_conv; LFlatten (mkFlat 1 2 1); LDense two_to_two] (IOMatrix [from_body [a; b; c] 1 3]).
Proof.
  intros a b c. apply (C54_cnn_smooth P64 cnn_conv 1 2 1 3 (mkFlat 1 2 1) [two_to_two]).
  - unfold conv_wf, wf, filters, channels. cbn. repeat split; auto; intros; destruct H as [<- | []]; reflexivity.
  - split; [reflexivity|]; intros m [<- | []]; repeat split.
  - lia.
  - lia.
  - cbn [widths_fit]. unfold dense_wf, wf, two_to_two. cbn. repeat split; auto.
  - now right.
  - intros l [<- | []]. now left.
Qed.
