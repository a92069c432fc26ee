(** * Training a network whose only weights are those of a linear last layer *)
From Coq Require Import Reals Lra Psatz.
From Verif Require Import Base BaseFacts Float Matrix Cplx Act Input Loss Dense Conv Layer Dataset Network RFloat CFacts SpecMatrix MatrixFacts
  SpecLayer SpecConv SpecNet DenseFacts LayerFacts NetFacts TrainFacts PropDense PropNet PropTrain TrainLaws GradFacts GradFacts2 SpecLoss LossFacts LayerCalc SpecGeom GeomFacts PermFacts SpecDead SpecFit FitFacts.
Local Open Scope nat_scope.

Section Fit.
Context (p : prec) (feat : network ROps) (g : geometry) (d m : nat).
Context (FN : feat <> []) (FP : Forall no_params feat) (FF : fit_all ROps feat g (Vec d)) (FT : Forall (trainable ROps) feat).

Definition fv (x : IOType RC) : list RC := match net_forward ROps p feat x with Ret (Ok (IOScalar v)) => v | _ => [] end.
Definition tv (t : IOType RC) : list RC := match t with IOScalar v => v | _ => [] end.
Local Notation net l := (feat ++ [LDense l]).

Lemma fwd_trace : forall n x vs, n <> [] -> trace ROps p n x vs -> net_forward ROps p n x = Ret (Ok (last vs x)).
Proof.
  intros n x vs NE T. rewrite forward_fold by exact NE.
  assert (G : forall n x vs, trace ROps p n x vs -> foldM (fun acc l => fwd ROps p l acc) n x = Ret (last vs x)).
  { clear. intros n x vs T. induction T as [x | l n x y vs E T IH]; [reflexivity|]. cbn [foldM]. unfold fwd at 1. rewrite E. cbn [obind unwrap].
    rewrite IH. f_equal. symmetry. eapply last_step; eauto. }
  rewrite (G _ _ _ T). reflexivity.
Qed.

Lemma feat_trace : forall x, has_geom g x -> exists u, trace ROps p feat x (u ++ [IOScalar (fv x)]) /\ length (fv x) = d /\ length u = length feat /\
  net_forward ROps p feat x = Ret (Ok (IOScalar (fv x))).
Proof.
  intros x X. destruct (sweep ROps p feat g (Vec d) FF x X) as (vs & y & T & LS & Y & _).
  assert (NV : vs <> []) by (destruct T; discriminate).
  pose proof (app_removelast_last x NV) as E. pose proof (fwd_trace _ _ _ FN T) as W. rewrite LS in E, W. destruct y as [v|]; [|contradiction].
  assert (V : fv x = v) by (unfold fv; now rewrite W). rewrite V. exists (removelast vs). rewrite <- E. split; [exact T|]. split; [exact Y|]. split; [|exact W].
  pose proof (trace_length ROps p _ _ _ T) as L. rewrite E, app_length, Nat.add_1_r in L. now injection L.
Qed.

Lemma linear_forward : forall l v, linear d m l -> length v = d -> dense_forward ROps p l (IOScalar v) = Ret (Ok (IOScalar (map (pre ROps l v) (seq 0 m)))).
Proof.
  intros l v (W & I & U & A) V. apply C40_forward; [exact W | congruence|]. rewrite map_length, seq_length. split; [auto|].
  intros i Hi. rewrite A. cbn [activate]. rewrite nth_map_seq by congruence. reflexivity.
Qed.

Lemma net_trace : forall l x, linear d m l -> has_geom g x -> exists u, length u = length feat /\
  trace ROps p (net l) x (u ++ [IOScalar (fv x); IOScalar (map (pre ROps l (fv x)) (seq 0 m))]).
Proof.
  intros l x L X. destruct (feat_trace x X) as (u & T & LV & LU & _). exists u. split; [exact LU|].
  apply (trace_join ROps p feat [LDense l] x u (IOScalar (fv x)) [_]); [exact T|].
  econstructor; [cbn [layer_forward]; apply linear_forward; auto | constructor].
Qed.

(** The error of unit [i] at a point. *)
Definition ue (l : dense ROps) (i : nat) (it : IOType RC * IOType RC) : RC := (pre ROps l (fv (fst it)) i - nth i (tv (snd it)) 0)%RC.

Definition point_ok (it : IOType RC * IOType RC) : Prop := has_geom g (fst it) /\ exists t, snd it = IOScalar t /\ length t = m.

Lemma params_nil : forall ls, Forall no_params ls -> forall ws bs : list (list RC),
  map (@length RC) ws = map (fun l => fst (layer_params_len ROps l)) ls -> map (@length RC) bs = map (fun l => snd (layer_params_len ROps l)) ls ->
  concat (map (fun g0 : list RC * list RC => fst g0 ++ snd g0) (combine ws bs)) = [].
Proof.
  intros ls H. induction H as [|a ls H _ IH]; intros [|w ws] [|b bs] E1 E2; try discriminate; [reflexivity|].
  cbn [map] in E1, E2. cbn [combine map concat fst snd]. rewrite IH by congruence.
  assert (length w = fst (layer_params_len ROps a)) by congruence. assert (length b = snd (layer_params_len ROps a)) by congruence.
  destruct a; try contradiction; cbn in *; destruct w, b; try discriminate; reflexivity.
Qed.
Lemma fit_snoc : forall n g0 g1 g2 l, fit_all ROps n g0 g1 -> fits ROps l g1 g2 -> fit_all ROps (n ++ [l]) g0 g2.
Proof. intros n g0 g1 g2 l H. revert g2 l. induction H; intros; cbn [app]; econstructor; eauto. constructor. Qed.

Lemma grad_point : forall l it gl, linear d m l -> point_ok it -> good p (net l) MeanSquare it gl ->
  (forall i j, i < m -> j < d -> nth (i * d + j) gl 0%RC = (nth j (fv (fst it)) 0 * conj (ue l i it))%RC) /\
  (forall i, i < m -> nth (m * d + i) gl 0%RC = conj (ue l i it)).
Proof.
  intros l [x tg] gl L (X & t & ET & LT) (ws & bs & P & L1 & L2 & ->). cbn [fst snd] in *. subst tg.
  destruct (net_trace l x L X) as (u & LU & T).
  pose proof L as (W & I & U & A).
  destruct (sweep ROps p feat g (Vec d) FF x X) as (vs0 & y0 & _ & _ & _ & SB).
  set (ys := map (pre ROps l (fv x)) (seq 0 m)) in *. set (v := fv x) in *.
  assert (LV : length v = d) by (destruct (feat_trace x X) as (? & _ & H & _); exact H).
  set (gg := d_mean_sq_loss ROps t ys).
  assert (LY : length ys = m) by (unfold ys; now rewrite map_length, seq_length).
  assert (LG : length gg = m) by (unfold gg, d_mean_sq_loss; rewrite map_length, combine_length; lia).
  assert (NG : forall i, i < m -> nth i gg 0%RC = conj (ue l i (x, IOScalar t))).
  { intros i Hi. unfold gg, d_mean_sq_loss. rewrite (nth_indep _ 0%RC (d_sq_error ROps (fst (0, 0)%RC) (snd (0, 0)%RC))) by (rewrite map_length, combine_length; lia).
    rewrite (map_nth (fun tp => d_sq_error ROps (fst tp) (snd tp))), combine_nth by congruence. cbn [fst snd]. unfold d_sq_error, ue. cbn [fst snd tv].
    unfold ys. rewrite nth_map_seq by exact Hi. reflexivity. }
  destruct (C41_derivatives ROps p l v gg (map (c_conj ROps) gg) (fun _ => 1%RC) (fun _ => 0%RC) W) as (dw & db & dx & E & D1 & D2 & D3 & DB & DW & _);
    [congruence | congruence | rewrite map_length; congruence | intros; rewrite A; split; reflexivity|].
  assert (B1 : bp ROps p [(IOScalar v, LDense l)] gg (map (c_conj ROps) gg) = Ret ([dw], [db], dx, map (c_conj ROps) dx)).
  { cbn [bp obind layer_propagates dense_propagates layer_derivatives]. rewrite E. reflexivity. }
  assert (P' : exists ws1 bs1, ws = ws1 ++ [dw] /\ bs = bs1 ++ [db] /\ length ws1 = length feat /\ length bs1 = length feat).
  { unfold pgrad in P. cbn [fst snd] in P. apply obind_inv in P as (r & E1 & P).
    assert (RA : net_collect_acts ROps p (net l) x = Ret (Ok (u ++ [IOScalar v; IOScalar ys]))).
    { unfold net_collect_acts. pose proof (collect_fold ROps p _ _ _ [] T) as CF. cbn [app] in CF. destruct (net l) eqn:Q; [destruct feat; discriminate|]. rewrite CF. reflexivity. }
    assert (r = Ok (u ++ [IOScalar v; IOScalar ys])) by congruence. subst r. cbn [unwrap obind] in P.
    replace (last (u ++ [IOScalar v; IOScalar ys]) x) with (@IOScalar RC ys) in P.
    2: { change (u ++ [IOScalar v; IOScalar ys]) with (u ++ ([IOScalar v] ++ [IOScalar ys])). rewrite app_assoc. now rewrite last_last. }
    cbn [d_loss release_dloss unwrap obind] in P. fold gg in P.
    rewrite combine_app' in P by exact LU. cbn [combine] in P. rewrite bp_app, B1 in P. cbn [obind] in P.
    apply obind_inv in P as ((((a & b) & h) & hc) & E2 & P). apply obind_inv in E2 as ((((ws1 & bs1) & h1) & hc1) & E3 & E2).
    exists ws1, bs1. apply bp_length in E3 as (E4 & E5). rewrite combine_length, LU, Nat.min_id in E4, E5.
    assert (a = ws1 ++ [dw]) by congruence. assert (b = bs1 ++ [db]) by congruence. repeat split; auto; congruence. }
  destruct P' as (ws1 & bs1 & -> & -> & K1 & K2).
  destruct (GeomFacts.grad_zero_sizes ROps (net l)) as (Z1 & Z2). rewrite Z1 in L1. rewrite Z2 in L2.
  unfold wsz, bsz in *. rewrite !map_app in L1, L2.
  apply app_inj_tail in L1 as (L1 & _). apply app_inj_tail in L2 as (L2 & _).
  assert (GF : gflat ROps (ws1 ++ [dw]) (bs1 ++ [db]) = dw ++ db).
  { unfold gflat. rewrite combine_app' by congruence. rewrite map_app, concat_app. cbn [combine map concat fst snd]. rewrite app_nil_r.
    rewrite (params_nil feat FP ws1 bs1 L1 L2). reflexivity. }
  rewrite GF. assert (D0 : forall i, i < m -> (1 * nth i gg 0 + conj 0 * nth i (map (c_conj ROps) gg) 0)%RC = conj (ue l i (x, IOScalar t))).
  { intros i Hi. rewrite NG by exact Hi. rewrite conj_0. ring. }
  rewrite I, U in *. split.
  - intros i j Hi Hj. rewrite app_nth1 by (rewrite D1; nia). rewrite DW by auto. f_equal. apply D0. exact Hi.
  - intros i Hi. rewrite app_nth2 by lia. rewrite D1. replace (m * d + i - m * d) with i by lia. rewrite DB by auto. apply D0. exact Hi.
Qed.

(** ** The step *)
Lemma feat_values : forall n, Forall no_params n -> net_values ROps n = [].
Proof. intros n H. unfold net_values. induction H as [|l n H _ IH]; [reflexivity|]. cbn [map concat]. rewrite IH. destruct l; try contradiction; reflexivity. Qed.
Lemma net_values_eq : forall l, net_values ROps (net l) = body (d_weights l) ++ d_biases l.
Proof. intros l. unfold net_values. rewrite map_app, concat_app. pose proof (feat_values feat FP) as E. unfold net_values in E. rewrite E. cbn. apply app_nil_r. Qed.

Lemma feat_arch : forall n n', Forall no_params n -> map (arch_of ROps) n' = map (arch_of ROps) n -> n' = n.
Proof.
  intros n n' H. revert n'. induction H as [|l n H _ IH]; intros [|l' n'] E; try discriminate; [reflexivity|]. cbn [map] in E. assert (arch_of ROps l' = arch_of ROps l) as E1 by congruence.
  rewrite (IH n') by congruence. f_equal. destruct l; try contradiction; destruct l'; cbn in E1; congruence.
Qed.

Lemma weight_val : forall l i j, linear d m l -> i < m -> j < d -> nth (i * d + j) (body (d_weights l) ++ d_biases l) 0%RC = weight ROps l i j.
Proof.
  intros l i j ((W1 & W2 & W3) & I & U & _) Hi Hj. unfold inputs, units in *. rewrite app_nth1 by (unfold wf in W1; rewrite W1, I, U; nia). unfold weight, entry. rewrite I. reflexivity.
Qed.
Lemma bias_val : forall l i, linear d m l -> i < m -> nth (m * d + i) (body (d_weights l) ++ d_biases l) 0%RC = nth i (d_biases l) 0%RC.
Proof.
  intros l i ((W1 & W2 & W3) & I & U & _) Hi. unfold inputs, units in *. rewrite app_nth2 by (unfold wf in W1; rewrite W1, I, U; nia). f_equal. unfold wf in W1. rewrite W1, I, U. lia.
Qed.

Lemma lin_step : forall l pts (lr : R), linear d m l -> pts <> [] -> (forall it, In it pts -> point_ok it) ->
  exists l', net_gradient_opt ROps p (net l) (batch pts) MeanSquare (mkC lr 0%R) = Ret (net l', Ok tt) /\ linear d m l' /\
    let c := (lr / INR (length pts))%R in
    (forall i j, i < m -> j < d -> weight ROps l' i j =
       (weight ROps l i j - mkC c 0%R * lsum (map (fun it => ue l i it * conj (nth j (fv (fst it)) 0)) pts))%RC) /\
    (forall i, i < m -> nth i (d_biases l') 0%RC = (nth i (d_biases l) 0 - mkC c 0%R * lsum (map (fun it => ue l i it) pts))%RC).
Proof.
  intros l pts lr L NP OK. pose proof L as (W & I & U & A).
  assert (FU : Forall (layer_full ROps) (net l)).
  { apply Forall_app. split; [|constructor; [exact (proj1 W) | constructor]]. apply (Forall_impl _ (P := no_params)); [|exact FP]. intros [|? | |] H; try contradiction; exact Logic.I. }
  assert (LN : 2 <= length (net l)) by (rewrite app_length; cbn; destruct feat; [congruence | cbn; lia]).
  destruct (step_cases p (net l) MeanSquare pts lr FU LN NP) as [(gs & n' & GS & E & AR & LL & V)|(E & _)].
  - rewrite map_app in AR. cbn [map] in AR.
    assert (exists f' l0, n' = f' ++ [l0]) as (f' & l0 & ->).
    { destruct n' as [|l0 f' _] using rev_ind; [destruct feat; discriminate | eauto]. }
    rewrite map_app in AR. cbn [map] in AR. apply app_inj_tail in AR as (AF & AL). pose proof (feat_arch feat f' FP AF) as ->.
    destruct l0 as [l'|l'|l'|l']; try discriminate. destruct (arch_dense ROps l' l AL W) as (W' & U' & I' & A').
    assert (LN' : linear d m l') by (repeat split; try apply W'; congruence).
    exists l'. split; [exact E|]. split; [exact LN'|]. cbv zeta. rewrite !net_values_eq in V.
    assert (SUM : forall k (h : IOType RC * IOType RC -> RC), (forall it gl, In it pts -> good p (net l) MeanSquare it gl -> nth k gl 0%RC = conj (h it)) ->
      conj (lsum (map (fun gl => nth k gl 0%RC) gs)) = lsum (map h pts)).
    { intros k h H. clear - GS H. induction GS as [|it gl pts gs G0 GS IH]; [apply conj_0|]. cbn [map lsum fold_right]. rewrite conj_add. fold (lsum (map (fun gl => nth k gl 0%RC) gs)).
      rewrite IH by (intros; apply H; [now right | assumption]). rewrite (H it gl) by (try assumption; now left). rewrite conj_conj. reflexivity. }
    split.
    + intros i j Hi Hj. rewrite <- (weight_val l' i j), <- (weight_val l i j) by assumption. rewrite V. do 2 f_equal. apply SUM.
      intros it gl HI HG. rewrite (proj1 (grad_point l it gl L (OK _ HI) HG) i j Hi Hj). rewrite conj_mul, conj_conj. ring.
    + intros i Hi. rewrite <- (bias_val l' i), <- (bias_val l i) by assumption. rewrite V. do 2 f_equal. apply SUM.
      intros it gl HI HG. apply (proj2 (grad_point l it gl L (OK _ HI) HG) i Hi).
  - exfalso. destruct (training_total ROps p (net l) g (Vec m) (batch pts) MeanSquare (mkC lr 0%R) (mkC (lr * / INR (length pts))%R 0%R)) as (n' & E' & _); auto; try congruence.
    + eapply fit_snoc; [exact FF|]. rewrite <- I, <- U. apply fits_dense; [exact W|]. rewrite A. discriminate.
    + apply Forall_app. split; [exact FT | constructor; [exact Logic.I | constructor]].
    + split; [cbn; now rewrite !map_length|]. cbn [batch ds_inputs ds_target]. split.
      * intros x HX. apply in_map_iff in HX as (it & <- & HI). apply (OK it HI).
      * intros t HT. apply in_map_iff in HT as (it & <- & HI). destruct (OK it HI) as (_ & v & EV & LT). rewrite EV. cbn [target_for]. rewrite LT. apply Nat.le_refl.
    + cbn [batch ds_inputs]. rewrite map_length. apply div_real. destruct pts; [congruence | discriminate].
Qed.

(** ** The loss *)
Lemma fold_rsum : forall {A} (h : A -> R) D pts it, @fold_left R R Rplus (map h pts) (h it) = rsum (fun q => h (nth q (it :: pts) D)) (length (it :: pts)).
Proof.
  intros A h D pts it. induction pts as [|b pts IH] using rev_ind.
  - cbn [map fold_left length]. rewrite rsum_S, rsum_0. cbn [nth]. now rewrite Rplus_0_l.
  - rewrite map_app, fold_left_app, IH. cbn [map fold_left]. cbn [length]. rewrite app_length, Nat.add_1_r. rewrite (rsum_S _ (S (length pts))). f_equal.
    + apply rsum_ext. intros q Hq. f_equal. change (it :: pts ++ [b]) with ((it :: pts) ++ [b]). rewrite app_nth1 by (cbn; lia). reflexivity.
    + f_equal. change (it :: pts ++ [b]) with ((it :: pts) ++ [b]). rewrite app_nth2 by (cbn; lia). cbn [length]. now replace (S (length pts) - S (length pts)) with 0 by lia.
Qed.
Lemma lin_loss : forall l pts, linear d m l -> pts <> [] -> 2 <= m -> (forall it, In it pts -> point_ok it) ->
  net_loss ROps p (net l) (batch pts) MeanSquare =
  Ret (Ok (rsum (fun q => rsum (fun i => nsq (ue l i (nth q pts (IOScalar [], IOScalar [])))) m) (length pts) / (INR (length pts) * (INR m - 1)))%R).
Proof.
  intros l pts L NP M OK. unfold net_loss, ds_points_iter. rewrite batch_points.
  set (D := (IOScalar [], IOScalar []) : IOType RC * IOType RC).
  assert (E : mapM (fun it => pred <-! net_forward ROps p (net l) (fst it) ;; unwrap (loss ROps (snd it) pred MeanSquare)) pts =
    Ret (map (fun it => rsum (fun i => nsq (ue l i it)) m / (INR m - 1))%R pts)).
  { clear NP. induction pts as [|it pts IH]; [reflexivity|]. cbn [mapM map]. destruct (OK it (or_introl eq_refl)) as (X & t & ET & LT).
    destruct (net_trace l (fst it) L X) as (u & _ & T). rewrite (fwd_trace (net l) (fst it) _ ltac:(destruct feat; discriminate) T).
    change (u ++ [IOScalar (fv (fst it)); IOScalar (map (pre ROps l (fv (fst it))) (seq 0 m))]) with (u ++ ([@IOScalar RC (fv (fst it))] ++ [IOScalar (map (pre ROps l (fv (fst it))) (seq 0 m))])).
    rewrite app_assoc, last_last. cbn [unwrap obind]. rewrite ET. cbn [loss release_loss unwrap obind]. rewrite mean_sq_spec, map_length, seq_length, LT, Nat.min_id.
    rewrite IH by (intros; apply OK; now right). cbn [obind]. do 2 f_equal. rewrite fofnat_R, minus_INR by lia. change (INR 1) with 1%R.
    change (fdiv ROps) with Rdiv. change (fadd ROps) with Rplus. change (fzero ROps) with 0%R. f_equal. apply rsum_ext. intros i Hi.
    rewrite nth_map_seq by exact Hi. unfold ue. rewrite ET. cbn [tv]. rewrite nsq_eq. generalize (pre ROps l (fv (fst it)) i) (nth i t 0%RC). intros [a b] [a' b']. unfold nsq. cbn. ring. }
  rewrite E. cbn [obind]. rewrite map_length.
  assert (R0 : reduce (fadd ROps) (map (fun it => rsum (fun i => nsq (ue l i it)) m / (INR m - 1))%R pts) =
    Some (rsum (fun q => rsum (fun i => nsq (ue l i (nth q pts D))) m) (length pts) / (INR m - 1))%R).
  { destruct pts as [|it pts]; [congruence|]. cbn [map reduce]. apply f_equal.
    refine (eq_trans (fold_rsum (fun it => rsum (fun i => nsq (ue l i it)) m / (INR m - 1))%R D pts it) _). unfold Rdiv.
    rewrite Rmult_comm, <- rsum_scal. apply rsum_ext. intros q _. apply Rmult_comm. }
  rewrite R0. cbn [unwrap_opt obind]. rewrite fofnat_R.
  apply (f_equal (fun r : R => Ret (@Ok R LossCalcError r))). match goal with |- ?a = ?b => change (@eq R a b) end.
  change (fdiv ROps) with Rdiv. change (F ROps) with R. unfold Rdiv. rewrite Rinv_mult. ring.
Qed.

(** ** One step, and any number of them *)
Local Notation D := (IOScalar [], IOScalar []).
Definition xs (pts : list (IOType RC * IOType RC)) (q j : nat) : RC := if j <? d then nth j (fv (fst (nth q pts D))) 0%RC else 1%RC.
Definition ts (pts : list (IOType RC * IOType RC)) (i q : nat) : RC := nth i (tv (snd (nth q pts D))) 0%RC.
Definition wt (l : dense ROps) (i j : nat) : RC := if j <? d then weight ROps l i j else nth i (d_biases l) 0%RC.

Lemma er_ue : forall l pts i q, linear d m l -> er (S d) (xs pts) (ts pts i) (wt l i) q = ue l i (nth q pts D).
Proof.
  intros l pts i q (_ & I & _). unfold er, ue, pre. rewrite csum_S. unfold wt at 2, xs at 2. rewrite Nat.ltb_irrefl. rewrite I.
  fold (csum (fun j => weight ROps l i j * nth j (fv (fst (nth q pts D))) 0)%RC d). fold (ts pts i q).
  rewrite (csum_ext (fun j => wt l i j * xs pts q j)%RC (fun j => weight ROps l i j * nth j (fv (fst (nth q pts D))) 0)%RC).
  2: { intros j Hj. unfold wt, xs. rewrite (proj2 (Nat.ltb_lt j d) Hj). reflexivity. }
  ring.
Qed.

Lemma lsum_csum : forall {A} (h : A -> RC) (D0 : A) l, lsum (map h l) = csum (fun q => h (nth q l D0)) (length l).
Proof.
  intros A h D0 l. induction l as [|a l IH]; [reflexivity|]. cbn [map lsum fold_right length]. fold (lsum (map h l)). rewrite IH, csum_S_first. reflexivity.
Qed.

Lemma dist_wt : forall l l', linear d m l -> dist_sq l l' = rsum (fun i => rsum (fun j => nsq (wt l i j - wt l' i j)%RC) (S d)) m.
Proof.
  intros l l' (_ & I & U & _). unfold dist_sq. rewrite I, U. apply rsum_ext. intros i _. rewrite rsum_S. unfold wt at 3 4. rewrite Nat.ltb_irrefl, Rplus_comm, !nsq_eq. f_equal.
  apply rsum_ext. intros j Hj. unfold wt. rewrite (proj2 (Nat.ltb_lt j d) Hj). reflexivity.
Qed.

Lemma sz_of : forall pts q, q < length pts -> (forall it, In it pts -> point_ok it) -> sz (S d) (xs pts) q = size_of p feat (fst (nth q pts D)).
Proof.
  intros pts q Hq OK. assert (IT : In (nth q pts D) pts) by (apply nth_In; exact Hq). destruct (OK _ IT) as (X & _).
  destruct (feat_trace _ X) as (_ & _ & LV & _ & E). unfold size_of. rewrite E, LV. unfold sz. rewrite rsum_S. unfold xs at 2. rewrite Nat.ltb_irrefl.
  rewrite Rplus_comm. f_equal; [unfold nsq; cbn; unfold fone; cbn; ring|]. apply rsum_ext. intros j Hj. unfold xs. rewrite (proj2 (Nat.ltb_lt j d) Hj). reflexivity.
Qed.
Lemma sizes_sum : forall pts, sizes_of p feat pts = rsum (fun q => size_of p feat (fst (nth q pts D))) (length pts).
Proof.
  intros pts. destruct pts as [|it pts]; [reflexivity|]. rewrite <- (fold_rsum (fun it => size_of p feat (fst it)) D pts it).
  unfold sizes_of. cbn [fold_right]. generalize (size_of p feat (fst it)). induction pts as [|a pts IH]; intros r; cbn [fold_right map fold_left]; [ring|]. rewrite <- IH. ring.
Qed.

Definition total (l : dense ROps) (pts : list (IOType RC * IOType RC)) : R :=
  rsum (fun q => rsum (fun i => nsq (ue l i (nth q pts D))) m) (length pts).
Lemma total_er : forall l pts, linear d m l -> total l pts = rsum (fun i => rsum (fun q => nsq (er (S d) (xs pts) (ts pts i) (wt l i) q)) (length pts)) m.
Proof.
  intros l pts L. unfold total. rewrite rsum_swap. apply rsum_ext. intros i _. apply rsum_ext. intros q _. now rewrite er_ue.
Qed.

Lemma lin_step_ineq : forall l pts lr, linear d m l -> pts <> [] -> (forall it, In it pts -> point_ok it) ->
  (0 < lr)%R -> (lr * sizes_of p feat pts <= INR (length pts))%R ->
  exists l', net_gradient_opt ROps p (net l) (batch pts) MeanSquare (mkC lr 0%R) = Ret (net l', Ok tt) /\ linear d m l' /\
    (total l' pts <= total l pts)%R /\
    forall ls, linear d m ls -> (dist_sq l' ls + lr / INR (length pts) * (total l' pts - total ls pts) <= dist_sq l ls)%R.
Proof.
  intros l pts lr L NP OK LR SM. destruct (lin_step l pts lr L NP OK) as (l' & E & L' & V). cbv zeta in V. destruct V as (VW & VB).
  set (c := (lr / INR (length pts))%R) in *. exists l'. split; [exact E|]. split; [exact L'|].
  assert (NN : (0 < INR (length pts))%R) by (apply lt_0_INR; destruct pts; [congruence | cbn; lia]).
  assert (C0 : (0 <= c)%R) by (unfold c; apply Rlt_le, Rdiv_lt_0_compat; assumption).
  assert (SZ : forall q, q < length pts -> (0 < sz (S d) (xs pts) q)%R).
  { intros q _. unfold sz. rewrite rsum_S. unfold xs at 2. rewrite Nat.ltb_irrefl.
    assert (0 <= rsum (fun j => nsq (xs pts q j)) d)%R by (apply rsum_nonneg; intros; apply nsq_nonneg).
    assert (N1 : nsq 1%RC = 1%R) by (unfold nsq; cbn; unfold fone; cbn; ring). rewrite N1. lra. }
  assert (SS : (c * rsum (sz (S d) (xs pts)) (length pts) <= 1)%R).
  { rewrite (rsum_ext _ (fun q => size_of p feat (fst (nth q pts D)))) by (intros; apply sz_of; assumption). rewrite <- sizes_sum. unfold c, Rdiv.
    apply (Rmult_le_reg_r (INR (length pts))); [exact NN|]. field_simplify; [|lra]. lra. }
  assert (MV : forall i j, i < m -> j < S d -> wt l' i j = mv (S d) (length pts) (xs pts) (ts pts i) c (wt l i) j).
  { intros i j Hi Hj. unfold mv, gr.
    rewrite (csum_ext _ (fun q => ue l i (nth q pts D) * conj (xs pts q j))%RC) by (intros; now rewrite er_ue).
    unfold wt. unfold xs. destruct (Nat.ltb_spec j d) as [H|H].
    - rewrite VW by assumption. rewrite (lsum_csum _ D). reflexivity.
    - rewrite VB by assumption. rewrite (lsum_csum _ D). do 2 f_equal. apply csum_ext. intros q _. assert (conj 1%RC = 1%RC) as -> by (apply c_ext; cbn; unfold fzero; cbn; ring). ring. }
  assert (ER : forall i q, i < m -> er (S d) (xs pts) (ts pts i) (wt l' i) q = er (S d) (xs pts) (ts pts i) (mv (S d) (length pts) (xs pts) (ts pts i) c (wt l i)) q).
  { intros i q Hi. unfold er. f_equal. apply csum_ext. intros j Hj. f_equal. apply MV; assumption. }
  assert (T' : total l' pts = rsum (fun i => rsum (fun q => nsq (er (S d) (xs pts) (ts pts i) (mv (S d) (length pts) (xs pts) (ts pts i) c (wt l i)) q)) (length pts)) m).
  { rewrite total_er by exact L'. apply rsum_ext. intros i Hi. apply rsum_ext. intros q _. now rewrite ER. }
  split.
  - rewrite T', (total_er l) by exact L. apply rsum_le. intros i Hi.
    pose proof (descent (S d) (length pts) (xs pts) (ts pts i) c (wt l i) C0 SZ SS) as DS.
    assert (0 <= rsum (fun j => nsq (gr (S d) (length pts) (xs pts) (ts pts i) (wt l i) j)) (S d))%R by (apply rsum_nonneg; intros; apply nsq_nonneg). nra.
  - intros ls LS. rewrite T', (total_er ls), (dist_wt l), (dist_wt l') by assumption. rewrite <- rsum_minus, <- rsum_scal, <- rsum_plus. apply rsum_le. intros i Hi.
    pose proof (closer (S d) (length pts) (xs pts) (ts pts i) c (wt l i) (wt ls i) C0 SZ SS) as CL.
    rewrite (rsum_ext (fun j => nsq (wt l' i j - wt ls i j)%RC) (fun j => nsq (mv (S d) (length pts) (xs pts) (ts pts i) c (wt l i) j - wt ls i j)%RC)) by (intros; now rewrite MV).
    exact CL.
Qed.

Lemma lin_steps : forall T l pts lr, linear d m l -> pts <> [] -> (forall it, In it pts -> point_ok it) ->
  (0 < lr)%R -> (lr * sizes_of p feat pts <= INR (length pts))%R ->
  exists l', train_steps ROps p (net l) (repeat (batch pts, MeanSquare, mkC lr 0%R) T) = Ret (net l') /\ linear d m l' /\
    (total l' pts <= total l pts)%R /\
    forall ls, linear d m ls -> (dist_sq l' ls + INR T * (lr / INR (length pts) * (total l' pts - total ls pts)) <= dist_sq l ls)%R.
Proof.
  induction T as [|T IH]; intros l pts lr L NP OK LR SM.
  - exists l. split; [reflexivity|]. split; [exact L|]. split; [apply Rle_refl|]. intros ls _. change (INR 0) with 0%R. lra.
  - destruct (lin_step_ineq l pts lr L NP OK LR SM) as (l1 & E1 & L1 & D1 & C1). destruct (IH l1 pts lr L1 NP OK LR SM) as (l' & E & L' & D' & C').
    exists l'. split; [cbn [repeat train_steps]; rewrite E1; exact E|]. split; [exact L'|]. split; [lra|]. intros ls LS.
    specialize (C1 ls LS). specialize (C' ls LS). rewrite S_INR.
    assert (NN : (0 < INR (length pts))%R) by (apply lt_0_INR; destruct pts; [congruence | cbn; lia]).
    assert (C0 : (0 <= lr / INR (length pts))%R) by (apply Rlt_le, Rdiv_lt_0_compat; assumption). nra.
Qed.
End Fit.
