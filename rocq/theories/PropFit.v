(** * Property C86: training a linear layer finds the best weights *)
From Coq Require Import Reals Lra Psatz.
From Verif Require Import Base BaseFacts Float Matrix Cplx Act Input Loss Dense Conv Layer Dataset Network RFloat CFacts SpecMatrix MatrixFacts
  SpecLayer SpecConv SpecNet SpecLoss LossFacts PropTrain TrainLaws SpecGeom SpecDead SpecFit FitFacts FitNet.
Local Open Scope nat_scope.

(** Any number [T] of steps on the same batch with a rate small enough for the
    data: the loss does not grow, and it comes within
    dist^2 / (rate T (m - 1)) of the loss of any weights and biases at all,
    where dist is their distance from where training started. *)
Theorem C86_converges : forall p (feat : network ROps) g d m l pts (lr : R) T,
  feat <> [] -> Forall no_params feat -> fit_all ROps feat g (Vec d) -> Forall (trainable ROps) feat ->
  linear d m l -> 2 <= m -> pts <> [] ->
  (forall x t, In (x, t) pts -> has_geom g x /\ exists v, t = IOScalar v /\ length v = m) ->
  (0 < lr)%R -> (lr * sizes_of p feat pts <= INR (length pts))%R ->
  exists l' a b,
    train_steps ROps p (feat ++ [LDense l]) (repeat (batch pts, MeanSquare, mkC lr 0%R) T) = Ret (feat ++ [LDense l']) /\ linear d m l' /\
    net_loss ROps p (feat ++ [LDense l]) (batch pts) MeanSquare = Ret (Ok a) /\
    net_loss ROps p (feat ++ [LDense l']) (batch pts) MeanSquare = Ret (Ok b) /\ (b <= a)%R /\
    forall lo, linear d m lo -> exists c,
      net_loss ROps p (feat ++ [LDense lo]) (batch pts) MeanSquare = Ret (Ok c) /\
      (dist_sq l' lo + INR T * lr * (INR m - 1) * (b - c) <= dist_sq l lo)%R.
Proof.
  intros p feat g d m l pts lr T FN FP FF FT L M NP OK LR SM.
  assert (OK' : forall it, In it pts -> point_ok g m it) by (intros [x t] H; apply OK; exact H).
  destruct (lin_steps p feat g d m FN FP FF FT T l pts lr L NP OK' LR SM) as (l' & E & L' & D & C).
  assert (NN : (0 < INR (length pts))%R) by (apply lt_0_INR; destruct pts; [congruence | cbn; lia]).
  assert (MM : (1 <= INR m - 1)%R) by (apply le_INR in M; change (INR 2) with 2%R in M; lra).
  pose proof (lin_loss p feat g d m FN FP FF FT l pts L NP M OK') as A. pose proof (lin_loss p feat g d m FN FP FF FT l' pts L' NP M OK') as B.
  fold (total p feat m l pts) in A. fold (total p feat m l' pts) in B.
  do 3 eexists. split; [exact E|]. split; [exact L'|]. split; [exact A|]. split; [exact B|]. split.
  - apply Rmult_le_compat_r; [|exact D]. apply Rlt_le, Rinv_0_lt_compat. nra.
  - intros lo LO. pose proof (lin_loss p feat g d m FN FP FF FT lo pts LO NP M OK') as Q. fold (total p feat m lo pts) in Q. eexists. split; [exact Q|].
    specialize (C lo LO). match type of C with (?u + ?v <= ?w)%R => match goal with |- (?u' + ?v' <= ?w')%R => replace v' with v; [exact C|] end end.
    field. lra.
Qed.
Print Assumptions C86_converges.

(** So the loss tends to the smallest possible: from some number of steps on it
    is at most [e] above that of any other weights. *)
Theorem C86_limit : forall p (feat : network ROps) g d m l lo pts (lr e : R),
  feat <> [] -> Forall no_params feat -> fit_all ROps feat g (Vec d) -> Forall (trainable ROps) feat ->
  linear d m l -> linear d m lo -> 2 <= m -> pts <> [] ->
  (forall x t, In (x, t) pts -> has_geom g x /\ exists v, t = IOScalar v /\ length v = m) ->
  (0 < lr)%R -> (lr * sizes_of p feat pts <= INR (length pts))%R -> (0 < e)%R ->
  exists T0, forall T, T0 <= T -> exists l' b c,
    train_steps ROps p (feat ++ [LDense l]) (repeat (batch pts, MeanSquare, mkC lr 0%R) T) = Ret (feat ++ [LDense l']) /\
    net_loss ROps p (feat ++ [LDense l']) (batch pts) MeanSquare = Ret (Ok b) /\
    net_loss ROps p (feat ++ [LDense lo]) (batch pts) MeanSquare = Ret (Ok c) /\ (b <= c + e)%R.
Proof.
  intros p feat g d m l lo pts lr e FN FP FF FT L LO M NP OK LR SM EP.
  assert (LE : (0 < lr * e)%R) by (apply Rmult_lt_0_compat; assumption).
  assert (exists T0, (dist_sq l lo < INR T0 * (lr * e))%R) as (T0 & HT).
  { destruct (archimed (Rabs (dist_sq l lo) / (lr * e))) as (HA & _). exists (Z.to_nat (up (Rabs (dist_sq l lo) / (lr * e)))). rewrite INR_IZR_INZ, Z2Nat.id.
    - apply (Rmult_lt_compat_r (lr * e)) in HA; [|exact LE]. unfold Rdiv in HA. rewrite Rmult_assoc, Rinv_l, Rmult_1_r in HA by lra. pose proof (Rle_abs (dist_sq l lo)). unfold Rdiv. lra.
    - apply le_IZR. apply Rle_trans with (Rabs (dist_sq l lo) / (lr * e))%R; [|apply Rlt_le; exact HA]. apply Rmult_le_pos; [apply Rabs_pos | apply Rlt_le, Rinv_0_lt_compat; exact LE]. }
  exists T0. intros T HL. destruct (C86_converges p feat g d m l pts lr T FN FP FF FT L M NP OK LR SM) as (l' & a & b & E & L' & _ & B & _ & C).
  destruct (C lo LO) as (c & CE & CI). exists l', b, c. split; [exact E|]. split; [exact B|]. split; [exact CE|].
  assert (D0 : (0 <= dist_sq l' lo)%R) by (unfold dist_sq; apply rsum_nonneg; intros; apply Rplus_le_le_0_compat; [apply nsq_nonneg | apply rsum_nonneg; intros; apply nsq_nonneg]).
  destruct (Rle_lt_dec b (c + e)) as [H|H]; [exact H|exfalso].
  assert (MM : (1 <= INR m - 1)%R) by (apply le_INR in M; change (INR 2) with 2%R in M; lra).
  apply le_INR in HL. pose proof (pos_INR T0) as P0.
  assert (INR T0 * (lr * e) <= INR T * (lr * (b - c)))%R by (apply Rmult_le_compat; [exact P0 | lra | exact HL | apply Rmult_le_compat_l; lra]).
  assert (0 <= INR T * (lr * (b - c)))%R by (apply Rmult_le_pos; [lra | apply Rmult_le_pos; lra]).
  replace (INR T * lr * (INR m - 1) * (b - c))%R with ((INR T * (lr * (b - c))) * (INR m - 1))%R in CI by ring. nra.
Qed.
Print Assumptions C86_limit.

(** Any batches in any order, each with its own rate: weights [lo] that solve
    all of them are never further away than before, and the losses met on the
    way add up to a bounded amount. *)
Theorem C86_any_order : forall p (feat : network ROps) g d m l lo bs,
  feat <> [] -> Forall no_params feat -> fit_all ROps feat g (Vec d) -> Forall (trainable ROps) feat ->
  linear d m l -> linear d m lo -> 2 <= m ->
  (forall pts (lr : R), In (pts, lr) bs -> pts <> [] /\ (0 < lr)%R /\ (lr * sizes_of p feat pts <= INR (length pts))%R /\
     (forall x t, In (x, t) pts -> has_geom g x /\ exists v, t = IOScalar v /\ length v = m) /\
     net_loss ROps p (feat ++ [LDense lo]) (batch pts) MeanSquare = Ret (Ok 0%R)) ->
  let steps := map (fun b => (batch (fst b), MeanSquare, mkC (snd b) 0%R)) bs in
  exists l' s,
    train_steps ROps p (feat ++ [LDense l]) steps = Ret (feat ++ [LDense l']) /\ linear d m l' /\
    paid p (feat ++ [LDense l]) steps = Ret s /\ (0 <= s)%R /\
    (dist_sq l' lo + (INR m - 1) * s <= dist_sq l lo)%R.
Proof.
  intros p feat g d m l lo bs FN FP FF FT L LO M. assert (MM : (1 <= INR m - 1)%R) by (apply le_INR in M; change (INR 2) with 2%R in M; lra).
  revert l L. induction bs as [|(pts, lr) bs IH]; intros l L H steps; subst steps.
  - exists l, 0%R. split; [reflexivity|]. split; [exact L|]. split; [reflexivity|]. split; lra.
  - destruct (H pts lr (or_introl eq_refl)) as (NP & LR & SM & OK & Z).
    assert (OK' : forall it, In it pts -> point_ok g m it) by (intros [x t] HI; apply OK; exact HI).
    destruct (lin_step_ineq p feat g d m FN FP FF FT l pts lr L NP OK' LR SM) as (l1 & E1 & L1 & _ & C1). specialize (C1 lo LO).
    pose proof (lin_loss p feat g d m FN FP FF FT lo pts LO NP M OK') as A. fold (total p feat m lo pts) in A.
    pose proof (lin_loss p feat g d m FN FP FF FT l1 pts L1 NP M OK') as B. fold (total p feat m l1 pts) in B.
    assert (NN : (0 < INR (length pts))%R) by (apply lt_0_INR; destruct pts; [congruence | cbn; lia]).
    assert (KK : (0 < INR (length pts) * (INR m - 1))%R) by (apply Rmult_lt_0_compat; lra).
    assert (Z0 : total p feat m lo pts = 0%R).
    { assert (Q : (total p feat m lo pts / (INR (length pts) * (INR m - 1)) = 0)%R) by congruence. apply (f_equal (fun r => r * (INR (length pts) * (INR m - 1)))%R) in Q.
      unfold Rdiv in Q. rewrite Rmult_assoc, Rinv_l, Rmult_1_r, Rmult_0_l in Q by lra. exact Q. }
    rewrite Z0 in C1. assert (TP : (0 <= total p feat m l1 pts)%R) by (unfold total; apply rsum_nonneg; intros; apply rsum_nonneg; intros; apply nsq_nonneg).
    destruct (IH l1 L1 (fun q r h => H q r (or_intror h))) as (l' & s & E & L' & P & S0 & C). set (V := total p feat m l1 pts) in *.
    exists l', (lr * (V / (INR (length pts) * (INR m - 1))) + s)%R. split; [cbn [map fst snd train_steps]; rewrite E1; exact E|]. split; [exact L'|]. split; [|split].
    + cbn [map fst snd paid]. rewrite E1. cbn [obind fst]. rewrite B. cbn [obind unwrap]. cbn [fst] in P. rewrite P. reflexivity.
    + apply Rplus_le_le_0_compat; [|exact S0]. apply Rmult_le_pos; [lra|]. apply Rmult_le_pos; [exact TP | apply Rlt_le, Rinv_0_lt_compat; exact KK].
    + replace ((INR m - 1) * (lr * (V / (INR (length pts) * (INR m - 1))) + s))%R with (lr / INR (length pts) * (V - 0) + (INR m - 1) * s)%R by (field; lra). lra.
Qed.
Print Assumptions C86_any_order.

(** ** A concrete case *)
Definition one_map (c : RC) : IOType RC := IOMatrix [from_body [c] 1 1].
Definition fit_feat : network ROps := [LFlatten (mkFlat 1 1 1)].
Definition fit_layer : dense ROps := mkDense ROps (from_body [mkC 0 0; mkC 0 0]%R 2 1) [mkC 0 0; mkC 0 0]%R ActNone.
Definition fit_pts : list (IOType RC * IOType RC) := [(one_map (mkC 1 0)%R, IOScalar [mkC 1 0; mkC 0 1]%R)].

Lemma fit_linear : linear 1 2 fit_layer. Proof. repeat split; discriminate. Qed.
Lemma fit_fits : fit_all ROps fit_feat (Maps 1 1 1) (Vec 1).
Proof. econstructor; [apply (fits_flatten ROps (mkFlat 1 1 1) 1 1 1) | constructor]. Qed.
Lemma fit_ok : forall x t, In (x, t) fit_pts -> has_geom (Maps 1 1 1) x /\ exists v, t = IOScalar v /\ length v = 2.
Proof.
  intros x t [E|[]]. injection E as <- <-. split; [|eexists; split; reflexivity]. cbn [has_geom one_map]. split; [reflexivity|].
  intros mt [<-|[]]. repeat split.
Qed.
Lemma fit_size : sizes_of P64 fit_feat fit_pts = 2%R.
Proof. unfold sizes_of, size_of. cbn. unfold fsq; cbn. ring. Qed.

Example C86_ex : fit_feat <> [] /\ Forall no_params fit_feat /\ fit_all ROps fit_feat (Maps 1 1 1) (Vec 1) /\ Forall (trainable ROps) fit_feat /\
  linear 1 2 fit_layer /\ fit_pts <> [] /\ (forall x t, In (x, t) fit_pts -> has_geom (Maps 1 1 1) x /\ exists v, t = IOScalar v /\ length v = 2) /\
  (1 / 2 * sizes_of P64 fit_feat fit_pts <= INR (length fit_pts))%R /\
  net_loss ROps P64 (fit_feat ++ [LDense fit_layer]) (batch fit_pts) MeanSquare = Ret (Ok 2%R).
Proof.
  split; [discriminate|]. split; [repeat constructor|]. split; [exact fit_fits|]. split; [repeat constructor|]. split; [exact fit_linear|]. split; [discriminate|].
  split; [exact fit_ok|]. split; [rewrite fit_size; cbn; lra|].
  rewrite (lin_loss P64 fit_feat (Maps 1 1 1) 1 2); [| discriminate | repeat constructor | exact fit_fits | repeat constructor | exact fit_linear | discriminate | lia | intros [x t] H; apply fit_ok; exact H].
  do 2 f_equal. cbn. unfold nsq. cbn. field.
Qed.

(** Weights that solve the point, at a positive distance. *)
Definition fit_best : dense ROps := mkDense ROps (from_body [mkC 1 0; mkC 0 1]%R 2 1) [mkC 0 0; mkC 0 0]%R ActNone.
Example C86_any_order_ex : linear 1 2 fit_best /\ dist_sq fit_layer fit_best = 2%R /\
  net_loss ROps P64 (fit_feat ++ [LDense fit_best]) (batch fit_pts) MeanSquare = Ret (Ok 0%R).
Proof.
  assert (L : linear 1 2 fit_best) by (repeat split; discriminate). split; [exact L|]. split; [unfold dist_sq; cbn; unfold fsq; cbn; ring|].
  rewrite (lin_loss P64 fit_feat (Maps 1 1 1) 1 2); [| discriminate | repeat constructor | exact fit_fits | repeat constructor | exact L | discriminate | lia | intros [x t] H; apply fit_ok; exact H].
  do 2 f_equal. cbn. unfold nsq. cbn. field.
Qed.

(** A rate too large for the data: on this network and its one point every rate
    above one makes the loss grow without bound. *)
Theorem C86_large_rate_refuted : exists (feat : network ROps) l pts, linear 1 2 l /\ pts <> [] /\
  forall (lr : R), (1 < lr)%R -> forall M, exists T l' b,
    train_steps ROps P64 (feat ++ [LDense l]) (repeat (batch pts, MeanSquare, mkC lr 0%R) T) = Ret (feat ++ [LDense l']) /\
    net_loss ROps P64 (feat ++ [LDense l']) (batch pts) MeanSquare = Ret (Ok b) /\ (M < b)%R.
Proof.
  exists fit_feat, fit_layer, fit_pts. split; [exact fit_linear|]. split; [discriminate|]. intros lr LR M.
  assert (FN : fit_feat <> []) by discriminate. assert (FP : Forall no_params fit_feat) by repeat constructor.
  assert (FT : Forall (trainable ROps) fit_feat) by repeat constructor. assert (NP : fit_pts <> []) by discriminate.
  assert (OK : forall it, In it fit_pts -> point_ok (Maps 1 1 1) 2 it) by (intros [x t] H; apply fit_ok; exact H).
  pose (err := fun (l : dense ROps) i => ue P64 fit_feat l i (nth 0 fit_pts (IOScalar [], IOScalar []))).
  assert (ST : forall l, linear 1 2 l -> exists l', net_gradient_opt ROps P64 (fit_feat ++ [LDense l]) (batch fit_pts) MeanSquare (mkC lr 0%R) = Ret (fit_feat ++ [LDense l'], Ok tt) /\
    linear 1 2 l' /\ forall i, i < 2 -> err l' i = (mkC (1 - 2 * lr)%R 0%R * err l i)%RC).
  { intros l L. destruct (lin_step P64 fit_feat (Maps 1 1 1) 1 2 FN FP fit_fits FT l fit_pts lr L NP OK) as (l' & E & L' & VW & VB).
    exists l'. split; [exact E|]. split; [exact L'|]. intros i Hi. specialize (VW i 0 Hi ltac:(lia)). specialize (VB i Hi).
    unfold err, ue, pre. rewrite (proj1 (proj2 L)), (proj1 (proj2 L')).
    assert (X0 : nth 0 (fv P64 fit_feat (fst (nth 0 fit_pts (IOScalar [], IOScalar [])))) (c_default ROps) = mkC 1%R 0%R) by reflexivity.
    change (map ?h fit_pts) with [h (nth 0 fit_pts (IOScalar [], IOScalar []))] in VW, VB. cbn [lsum fold_right] in VW, VB. fold (err l i) in VW, VB.
    change (length fit_pts) with 1 in VW, VB.
    cbn [sum_from seq fold_left]. rewrite VW, VB, X0. unfold err, ue, pre. rewrite (proj1 (proj2 L)). cbn [sum_from seq fold_left]. rewrite X0.
    generalize (weight ROps l i 0) (nth i (d_biases l) 0%RC) (nth i (tv (snd (nth 0 fit_pts (IOScalar [], IOScalar [])))) 0%RC). intros [a b] [u v] [s t].
    unfold fit_pts. apply c_ext; cbn; field. }
  assert (TR : forall T, exists l', train_steps ROps P64 (fit_feat ++ [LDense fit_layer]) (repeat (batch fit_pts, MeanSquare, mkC lr 0%R) T) = Ret (fit_feat ++ [LDense l']) /\
    linear 1 2 l' /\ forall i, i < 2 -> nsq (err l' i) = ((1 - 2 * lr) ^ (2 * T) * nsq (err fit_layer i))%R).
  { intros T. pose proof fit_linear as L. revert L. generalize fit_layer. induction T as [|T IH]; intros l L.
    - exists l. split; [reflexivity|]. split; [exact L|]. intros i _. cbn. ring.
    - destruct (ST l L) as (l1 & E1 & L1 & R1). destruct (IH l1 L1) as (l' & E & L' & R'). exists l'. split; [cbn [repeat train_steps]; rewrite E1; exact E|]. split; [exact L'|].
      intros i Hi. rewrite (R' i Hi), (R1 i Hi). replace (2 * S T) with (2 + 2 * T) by lia. rewrite pow_add. generalize (err l i) ((1 - 2 * lr) ^ (2 * T))%R. intros [a b] r. unfold nsq. cbn. ring. }
  set (y := ((1 - 2 * lr) * (1 - 2 * lr) - 1)%R).
  assert (Y : (0 < y)%R) by (unfold y; clear - LR; nra).
  assert (PW : forall T, (INR T * y <= (1 - 2 * lr) ^ (2 * T))%R).
  { intros T. rewrite pow_mult. replace ((1 - 2 * lr) ^ 2)%R with (1 + y)%R by (unfold y; cbn; ring).
    assert (1 + INR T * y <= (1 + y) ^ T)%R by (apply poly; exact Y). clear - H. lra. }
  assert (exists T, (Rabs M / y < INR T)%R) as (T & HT).
  { destruct (archimed (Rabs M / y)) as (HA & _). exists (Z.to_nat (up (Rabs M / y))). rewrite INR_IZR_INZ, Z2Nat.id; [exact HA|].
    apply le_IZR. apply Rle_trans with (Rabs M / y)%R; [|apply Rlt_le; exact HA]. apply Rmult_le_pos; [apply Rabs_pos | apply Rlt_le, Rinv_0_lt_compat; exact Y]. }
  destruct (TR T) as (l' & E & L' & R'). exists T, l'. eexists. split; [exact E|].
  split; [apply (lin_loss P64 fit_feat (Maps 1 1 1) 1 2 FN FP fit_fits FT l' fit_pts L' NP ltac:(lia) OK)|].
  change (length fit_pts) with 1. cbn [sum_from seq fold_left]. fold (err l' 0). fold (err l' 1). rewrite (R' 0), (R' 1) by lia.
  assert (nsq (err fit_layer 0) = 1%R) as -> by (unfold nsq, err; cbn; ring). assert (nsq (err fit_layer 1) = 1%R) as -> by (unfold nsq, err; cbn; ring).
  specialize (PW T). change (INR 1) with 1%R. change (INR 2) with 2%R. set (k := ((1 - 2 * lr) ^ (2 * T))%R) in *.
  match goal with |- (M < ?e)%R => replace e with (k + k)%R by field end.
  assert (K : (Rabs M < k)%R). { apply Rlt_le_trans with (INR T * y)%R; [|exact PW]. apply (Rmult_lt_compat_r y) in HT; [|exact Y]. unfold Rdiv in HT. rewrite Rmult_assoc, Rinv_l, Rmult_1_r in HT by (clear - Y; lra). exact HT. }
  pose proof (Rle_abs M). pose proof (Rabs_pos M). clear - K H H0. lra.
Qed.
Print Assumptions C86_large_rate_refuted.
