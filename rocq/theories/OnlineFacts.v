(** * Testing on every batch before training on it *)
From Coq Require Import Reals Lra Psatz Classical.
From Verif Require Import Base BaseFacts Float Matrix Cplx Random Act Input Loss Dense Conv Layer Dataset Network SpecMatrix RFloat CFacts SpecLayer SpecConv SpecNet SpecLoss LossFacts LayerCalc SpecEval PropTrain PropEval PropLoss TrainLaws PropLaws
  SpecGeom SpecDead SpecFit FitFacts FitNet PropFit SpecError ErrorFacts ErrorEx FloorEx SpecOnline.
Local Open Scope R_scope.

Section Unit.
Context (d N : nat) (x : nat -> nat -> RC) (t : nat -> RC).
Local Notation er := (er d x t). Local Notation gr := (gr d N x t). Local Notation mv := (mv d N x t). Local Notation sz := (sz d x).
Lemma closer0 : forall c w ws, 0 <= c -> (forall q, (q < N)%nat -> 0 < sz q) -> c * rsum sz N <= 1 -> (forall q, (q < N)%nat -> er ws q = 0%RC) ->
  rsum (fun j => nsq (mv c w j - ws j)%RC) d + c * rsum (fun q => nsq (er w q)) N <= rsum (fun j => nsq (w j - ws j)%RC) d.
Proof.
  intros c w ws C P B S0. pose proof (descent d N x t c w C P B) as D. set (G := rsum (fun j => nsq (gr w j)) d) in *.
  rewrite (rsum_ext (fun j => nsq (mv c w j - ws j)%RC) (fun j => (nsq (w j - ws j)%RC - 2 * c * re (conj (gr w j) * (w j - ws j))%RC) + c * c * nsq (gr w j))).
  2: { intros j _. unfold FitFacts.mv. generalize (w j) (ws j) (gr w j). intros [a b] [u v] [k l]. unfold nsq. cbn. ring. }
  rewrite rsum_plus, rsum_minus, !rsum_scal. fold G.
  assert (X : rsum (fun j => re (conj (gr w j) * (w j - ws j))%RC) d = rsum (fun q => nsq (er w q)) N).
  { transitivity (rsum (fun q => re (conj (er w q) * (er w q - er ws q))%RC) N).
    - rewrite <- !re_csum. f_equal.
      rewrite (csum_ext (fun j => conj (gr w j) * (w j - ws j))%RC (fun j => csum (fun q => conj (er w q) * ((w j - ws j) * x q j))%RC N)).
      2: { intros j _. unfold FitFacts.gr. rewrite csum_conj, <- csum_mul_r. apply csum_ext. intros q _. rewrite conj_mul, conj_conj. ring. }
      rewrite csum_swap. apply csum_ext. intros q _. rewrite csum_mul_l. f_equal. unfold FitFacts.er.
      rewrite (csum_ext (fun j => (w j - ws j) * x q j)%RC (fun j => w j * x q j - ws j * x q j)%RC) by (intros; ring). rewrite csum_sub. ring.
    - apply rsum_ext. intros q Hq. rewrite (S0 q Hq). generalize (er w q). intros [a b]. unfold nsq. cbn. ring. }
  rewrite X. assert (E1 : 0 <= rsum (fun q => nsq (er (mv c w) q)) N) by (apply rsum_nonneg; intros; apply nsq_nonneg).
  set (E0 := rsum (fun q => nsq (er w q)) N) in *. assert (c * (c * G) <= c * E0) by (apply Rmult_le_compat_l; lra). lra.
Qed.
End Unit.

Lemma accuracy_le : forall p n m xs ks a, classifies p n m xs ks -> net_max_pred_test ROps p n (labelled m xs ks) = Ret a -> a <= 1.
Proof.
  intros p n m xs ks a (NX & LK & K & PR) E.
  assert (FP : exists preds, Forall2 (predicts ROps p n) xs preds /\ Forall (fun v => v <> []) preds).
  { assert (M0 : (0 < m)%nat) by (destruct ks as [|k ks]; [destruct xs; [congruence | discriminate] | specialize (K k (or_introl eq_refl)); lia]).
    clear - PR M0. induction xs as [|x xs IH]; [exists []; split; constructor|]. destruct (PR x (or_introl eq_refl)) as (v & P & LV).
    destruct IH as (vs & F & G); [intros y I; apply PR; now right|]. exists (v :: vs). split; constructor; auto. destruct v; [cbn in LV; lia | discriminate]. }
  destruct FP as (preds & FP & NE). pose proof (Forall2_len _ _ _ FP) as LP.
  destruct (C56_range p n (labelled m xs ks) preds (map (one_hot m) ks) (map (max_index ROps) preds) ks FP) as (a' & E' & _ & R' & _).
  - unfold labelled. cbn [ds_target]. now rewrite map_map.
  - rewrite map_length. transitivity (length xs); [exact LK | exact LP].
  - destruct ks; [destruct xs; [congruence | discriminate] | discriminate].
  - clear - NE. induction NE as [|v vs N _ IH]; cbn [map]; constructor; [now apply C56_index_exact | exact IH].
  - clear - K. induction ks as [|k ks IH]; cbn [map]; constructor; [|apply IH; intros; apply K; now right].
    specialize (K k (or_introl eq_refl)). rewrite <- (max_one_hot m k K) at 2. apply C56_index_exact. intros H. pose proof (one_hot_length m k) as LH. rewrite H in LH. cbn in LH. lia.
  - pose proof (eq_trans (eq_sym E) E') as Q. injection Q as Q. change (F ROps) with R in *. lra.
Qed.

Section Online.
Context (p : prec) (feat : network ROps) (g : geometry) (d m : nat).
Context (FN : feat <> []) (FP : Forall no_params feat) (FF : fit_all ROps feat g (Vec d)) (FT : Forall (trainable ROps) feat) (M : (2 <= m)%nat).
Local Notation net l := (feat ++ [LDense l]).
Local Notation D := (IOScalar [], IOScalar []).

Lemma before_step : forall l lo pts lr, linear d m l -> linear d m lo -> pts <> [] -> (forall it, In it pts -> point_ok g m it) ->
  0 < lr -> lr * sizes_of p feat pts <= INR (length pts) -> total p feat m lo pts = 0 ->
  exists l', net_gradient_opt ROps p (net l) (batch pts) MeanSquare (mkC lr 0) = Ret (net l', Ok tt) /\ linear d m l' /\
    dist_sq l' lo + lr / INR (length pts) * total p feat m l pts <= dist_sq l lo.
Proof.
  intros l lo pts lr L LO NP OK LR SM Z. destruct (lin_step p feat g d m FN FP FF FT l pts lr L NP OK) as (l' & E & L' & V). cbv zeta in V. destruct V as (VW & VB).
  set (c := (lr / INR (length pts))%R) in *. exists l'. split; [exact E|]. split; [exact L'|].
  assert (NN : (0 < INR (length pts))%R) by (apply lt_0_INR; destruct pts; [congruence | cbn; lia]).
  assert (C0 : (0 <= c)%R) by (unfold c; apply Rlt_le, Rdiv_lt_0_compat; assumption).
  assert (SZ : forall q, (q < length pts)%nat -> (0 < sz (S d) (xs p feat d pts) q)%R).
  { intros q _. unfold sz. rewrite rsum_S. unfold xs at 2. rewrite Nat.ltb_irrefl.
    assert (0 <= rsum (fun j => nsq (xs p feat d pts q j)) d)%R by (apply rsum_nonneg; intros; apply nsq_nonneg).
    assert (N1 : nsq 1%RC = 1%R) by (unfold nsq; cbn; unfold fone; cbn; ring). rewrite N1. lra. }
  assert (SS : (c * rsum (sz (S d) (xs p feat d pts)) (length pts) <= 1)%R).
  { rewrite (rsum_ext _ (fun q => size_of p feat (fst (nth q pts D)))) by (intros; apply (sz_of p feat g d m FN FP FF FT); assumption). rewrite <- sizes_sum. unfold c, Rdiv.
    apply (Rmult_le_reg_r (INR (length pts))); [exact NN|]. field_simplify; [|lra]. lra. }
  assert (MV : forall i j, (i < m)%nat -> (j < S d)%nat -> wt d l' i j = mv (S d) (length pts) (xs p feat d pts) (ts pts i) c (wt d l i) j).
  { intros i j Hi Hj. unfold mv, gr.
    rewrite (csum_ext _ (fun q => ue p feat l i (nth q pts D) * conj (xs p feat d pts q j))%RC) by (intros; now rewrite (er_ue p feat d m)).
    unfold wt. unfold xs. destruct (Nat.ltb_spec j d) as [H|H].
    - rewrite VW by assumption. rewrite (lsum_csum _ D). reflexivity.
    - rewrite VB by assumption. rewrite (lsum_csum _ D). do 2 f_equal. apply csum_ext. intros q _. assert (conj 1%RC = 1%RC) as -> by (apply c_ext; cbn; unfold fzero; cbn; ring). ring. }
  assert (SO : forall i q, (i < m)%nat -> (q < length pts)%nat -> er (S d) (xs p feat d pts) (ts pts i) (wt d lo i) q = 0%RC).
  { intros i q Hi Hq. rewrite (er_ue p feat d m) by exact LO. unfold total in Z.
    assert (ZR : forall (h : nat -> R) k, (forall j, (j < k)%nat -> 0 <= h j) -> rsum h k = 0 -> forall j, (j < k)%nat -> h j = 0).
    { clear. intros h k. induction k as [|k IH]; intros P E j Hj; [lia|]. rewrite rsum_S in E.
      assert (0 <= rsum h k) by (apply rsum_nonneg; intros; apply P; lia). assert (0 <= h k) by (apply P; lia).
      destruct (Nat.eq_dec j k) as [->|]; [lra|]. apply IH; [intros; apply P; lia | lra | lia]. }
    pose proof (ZR _ _ ltac:(intros; apply rsum_nonneg; intros; apply nsq_nonneg) Z q Hq) as Z1. cbv beta in Z1.
    pose proof (ZR _ _ ltac:(intros; apply nsq_nonneg) Z1 i Hi) as Z2. cbv beta in Z2. revert Z2. generalize (ue p feat lo i (nth q pts D)). intros [a b]. unfold nsq. cbn. intros Z2.
    change (F ROps) with R in *. apply c_ext; cbn; nra. }
  rewrite (total_er p feat d m l) by exact L. rewrite (dist_wt d m l), (dist_wt d m l') by assumption. rewrite <- rsum_scal, <- rsum_plus. apply rsum_le. intros i Hi.
  pose proof (closer0 (S d) (length pts) (xs p feat d pts) (ts pts i) c (wt d l i) (wt d lo i) C0 SZ SS (fun q Hq => SO i q Hi Hq)) as CL.
  rewrite (rsum_ext (fun j => nsq (wt d l' i j - wt d lo i j)%RC) (fun j => nsq (mv (S d) (length pts) (xs p feat d pts) (ts pts i) c (wt d l i) j - wt d lo i j)%RC)) by (intros; now rewrite MV).
  exact CL.
Qed.

Context (lo : dense ROps) (LO : linear d m lo) (f : ComplexLossFunc) (lr : R) (LR : 0 < lr).
Definition fed (pts : list (IOType RC * IOType RC)) : Prop := pts <> [] /\ lr * sizes_of p feat pts <= INR (length pts) /\
  (forall x t, In (x, t) pts -> has_geom g x /\ exists v, t = IOScalar v /\ length v = m) /\
  net_loss ROps p (net lo) (batch pts) MeanSquare = Ret (Ok 0).

Lemma m_pos : 1 <= INR m - 1.
Proof. pose proof (le_INR 2 m M) as H. change (INR 2) with 2 in H. lra. Qed.

Lemma fed_step : forall l pts, linear d m l -> fed pts -> exists l' v,
  net_gradient_opt ROps p (net l) (batch pts) f (mkC lr 0) = Ret (net l', Ok tt) /\ linear d m l' /\
  net_loss ROps p (net l) (batch pts) MeanSquare = Ret (Ok v) /\ 0 <= v /\ dist_sq l' lo + (INR m - 1) * (lr * v) <= dist_sq l lo.
Proof.
  intros l pts L (NP & SM & OK & Z). pose proof m_pos as MM.
  assert (OK' : forall it, In it pts -> point_ok g m it) by (intros [x t] HI; apply OK; exact HI).
  pose proof (lin_loss p feat g d m FN FP FF FT lo pts LO NP M OK') as A. fold (total p feat m lo pts) in A.
  pose proof (lin_loss p feat g d m FN FP FF FT l pts L NP M OK') as B. fold (total p feat m l pts) in B.
  assert (NN : (0 < INR (length pts))%R) by (apply lt_0_INR; destruct pts; [congruence | cbn; lia]).
  assert (KK : (0 < INR (length pts) * (INR m - 1))%R) by (apply Rmult_lt_0_compat; lra).
  assert (Z0 : total p feat m lo pts = 0%R).
  { assert (Q : (total p feat m lo pts / (INR (length pts) * (INR m - 1)) = 0)%R) by congruence. apply (f_equal (fun r => r * (INR (length pts) * (INR m - 1)))%R) in Q.
    unfold Rdiv in Q. rewrite Rmult_assoc, Rinv_l, Rmult_1_r, Rmult_0_l in Q by lra. exact Q. }
  destruct (before_step l lo pts lr L LO NP OK' LR SM Z0) as (l' & E & L' & C).
  assert (TP : (0 <= total p feat m l pts)%R) by (unfold total; apply rsum_nonneg; intros; apply rsum_nonneg; intros; apply nsq_nonneg).
  set (V := total p feat m l pts) in *. exists l', (V / (INR (length pts) * (INR m - 1)))%R. split; [destruct f; [exact E | rewrite C36_training; exact E]|]. split; [exact L'|]. split; [exact B|].
  split; [apply Rmult_le_pos; [exact TP | apply Rlt_le, Rinv_0_lt_compat; exact KK]|].
  replace ((INR m - 1) * (lr * (V / (INR (length pts) * (INR m - 1)))))%R with (lr / INR (length pts) * V)%R by (field; lra). exact C.
Qed.

Local Notation steps bs := (map (fun b => (batch b, f, mkC lr 0 : RC)) bs).
Lemma online_loss : forall bs l, linear d m l -> (forall b, In b bs -> fed b) -> exists l' vs,
  train_steps ROps p (net l) (steps bs) = Ret (net l') /\ linear d m l' /\
  before (square_score p) p (net l) f lr (map batch bs) = Ret vs /\ length vs = length bs /\ Forall (Rle 0) vs /\
  dist_sq l' lo + (INR m - 1) * (lr * total_of vs) <= dist_sq l lo.
Proof.
  induction bs as [|b bs IH]; intros l L H.
  - exists l, []. split; [reflexivity|]. split; [exact L|]. split; [reflexivity|]. split; [reflexivity|]. split; [constructor|]. cbn. lra.
  - destruct (fed_step l b L (H b (or_introl eq_refl))) as (l1 & v & E & L1 & EV & V & C). destruct (IH l1 L1 (fun c h => H c (or_intror h))) as (l' & vs & E' & L' & EB & LV & FV & C').
    exists l', (v :: vs). split; [cbn [map train_steps]; rewrite E; exact E'|]. split; [exact L'|]. split.
    { cbn [map before]. unfold square_score at 1. rewrite EV. cbn [obind unwrap]. rewrite E. cbn [obind fst]. rewrite EB. reflexivity. }
    split; [cbn; now rewrite LV|]. split; [now constructor|]. cbn [total_of fold_right]. fold (total_of vs). lra.
Qed.

Definition labels (pts : list (IOType RC * IOType RC)) : Prop := forall x t, In (x, t) pts -> exists k, (k < m)%nat /\ t = IOScalar (one_hot m k).

Lemma one_score : forall l pts v, linear d m l -> fed pts -> labels pts -> net_loss ROps p (net l) (batch pts) MeanSquare = Ret (Ok v) ->
  exists a, net_max_pred_test ROps p (net l) (batch pts) = Ret a /\ a <= 1 /\ 1 - a <= 2 * (INR m - 1) * v /\ (a < 1 -> 1 <= 2 * (INR m - 1) * INR (length pts) * v).
Proof.
  intros l pts v L (NP & _ & OK & _) LB EV.
  assert (OK1 : forall x t, In (x, t) pts -> has_geom g x /\ exists k, (k < m)%nat /\ t = IOScalar (one_hot m k)) by (intros x t I; split; [exact (proj1 (OK x t I)) | exact (LB x t I)]).
  destruct (lin_classifies p feat g d m pts FN FP FF FT NP OK1 l L) as (ks & EL & CL).
  destruct (square_rate p (net l) m (map fst pts) ks M CL) as (v' & a & EV' & EA & B1 & B2). rewrite <- EL in EV', EA.
  pose proof (eq_trans (eq_sym EV) EV') as Q. injection Q as Q. change (F ROps) with R in *. subst v'. exists a. split; [exact EA|].
  pose proof (accuracy_le p (net l) m (map fst pts) ks a CL (eq_trans (f_equal _ (eq_sym EL)) EA)) as A1. split; [exact A1|]. split; [exact B1|]. intros AL.
  destruct (Rlt_dec (2 * (INR m - 1) * INR (length (map fst pts)) * v) 1) as [H|H]; [specialize (B2 H); lra|]. rewrite map_length in H. lra.
Qed.

Lemma online_accuracy : forall bs l, linear d m l -> (forall b, In b bs -> fed b /\ labels b) -> exists l' us,
  train_steps ROps p (net l) (steps bs) = Ret (net l') /\ linear d m l' /\
  before (accuracy_score p) p (net l) f lr (map batch bs) = Ret us /\ length us = length bs /\ Forall (fun a => a <= 1) us /\
  dist_sq l' lo + lr / 2 * total_of (map (fun a => 1 - a) us) <= dist_sq l lo /\
  forall N, (forall b, In b bs -> (length b <= N)%nat) -> dist_sq l' lo * (2 * INR N) + lr * INR (imperfect us) <= dist_sq l lo * (2 * INR N).
Proof.
  induction bs as [|b bs IH]; intros l L H.
  - exists l, []. split; [reflexivity|]. split; [exact L|]. split; [reflexivity|]. split; [reflexivity|]. split; [constructor|]. split; [cbn; lra|]. intros N _. cbn. lra.
  - destruct (H b (or_introl eq_refl)) as (FB & LB). destruct (fed_step l b L FB) as (l1 & v & E & L1 & EV & V & C).
    destruct (one_score l b v L FB LB EV) as (a & EA & A1 & B1 & B2).
    destruct (IH l1 L1 (fun c h => H c (or_intror h))) as (l' & us & E' & L' & EB & LU & FU & C' & CN). pose proof m_pos as MM.
    exists l', (a :: us). split; [cbn [map train_steps]; rewrite E; exact E'|]. split; [exact L'|]. split.
    { cbn [map before]. unfold accuracy_score at 1. rewrite EA. cbn [obind]. rewrite E. cbn [obind fst]. rewrite EB. reflexivity. }
    split; [cbn; now rewrite LU|]. split; [now constructor|]. split.
    + cbn [map total_of fold_right]. fold (total_of (map (fun a => 1 - a) us)).
      assert (lr / 2 * (1 - a) <= (INR m - 1) * (lr * v)) by (apply (Rmult_le_compat_l (lr / 2)) in B1; lra). lra.
    + intros N HN. specialize (CN N (fun c h => HN c (or_intror h))). pose proof (le_INR _ _ (HN b (or_introl eq_refl))) as LN. pose proof (pos_INR (length b)) as P0.
      assert (K : lr * INR (imperfect (a :: us)) <= lr * INR (imperfect us) + (INR m - 1) * (lr * v) * (2 * INR N)).
      { assert (V0 : 0 <= (INR m - 1) * (lr * v)) by (apply Rmult_le_pos; [lra | apply Rmult_le_pos; lra]).
        unfold imperfect. cbn [filter]. destruct (Rlt_dec a 1) as [AL|AL].
        - cbn [length]. rewrite S_INR. specialize (B2 AL). assert (lr * 1 <= lr * (2 * (INR m - 1) * INR (length b) * v)) by (apply Rmult_le_compat_l; lra).
          assert ((INR m - 1) * (lr * v) * (2 * INR (length b)) <= (INR m - 1) * (lr * v) * (2 * INR N)) by (apply Rmult_le_compat_l; lra). lra.
        - assert (0 <= (INR m - 1) * (lr * v) * (2 * INR N)) by (apply Rmult_le_pos; lra). lra. }
      assert ((dist_sq l1 lo + (INR m - 1) * (lr * v)) * (2 * INR N) <= dist_sq l lo * (2 * INR N)) by (apply Rmult_le_compat_r; [lra | exact C]). lra.
Qed.

(** An endless stream. *)
Definition first_of {A} (s : nat -> A) (T : nat) : list A := map s (seq 0 T).

Lemma steps_app : forall a b (n : network ROps), train_steps ROps p n (a ++ b) = (n1 <- train_steps ROps p n a ;; train_steps ROps p n1 b).
Proof.
  induction a as [|((d0, f0), r0) a IH]; intros b n; [reflexivity|]. cbn [app train_steps]. destruct (net_gradient_opt ROps p n d0 f0 r0) as [(n1, [u|e])|]; cbn [obind fst snd]; [apply IH | reflexivity | reflexivity].
Qed.

Lemma first_of_add : forall {A} (s : nat -> A) T T', first_of s (T + T') = first_of s T ++ first_of (fun i => s (T + i)%nat) T'.
Proof.
  intros A s T T'. unfold first_of. rewrite seq_app, map_app. f_equal. cbn [Nat.add].
  rewrite <- (Nat.add_0_r T) at 1. generalize 0%nat. induction T' as [|T' IH]; intros k; [reflexivity|]. cbn [seq map]. f_equal. rewrite <- IH. now rewrite Nat.add_succ_r.
Qed.

Lemma dist_nonneg : forall l l', 0 <= dist_sq l l'.
Proof. intros l l'. unfold dist_sq. apply rsum_nonneg. intros i _. apply Rplus_le_le_0_compat; [rewrite nsq_eq; apply nsq_nonneg | apply rsum_nonneg; intros; rewrite nsq_eq; apply nsq_nonneg]. Qed.

Lemma eventually : forall N K l s, linear d m l -> (forall T : nat, fed (s T) /\ labels (s T) /\ (length (s T) <= N)%nat) -> dist_sq l lo * (2 * INR N) < lr * INR K ->
  exists T0, forall T, (T0 <= T)%nat -> exists l', train_steps ROps p (net l) (steps (first_of s T)) = Ret (net l') /\ net_max_pred_test ROps p (net l') (batch (s T)) = Ret 1.
Proof.
  intros N. induction K as [|K IH]; intros l s L H DK.
  - exfalso. pose proof (dist_nonneg l lo). pose proof (pos_INR N). cbn in DK. assert (0 <= dist_sq l lo * (2 * INR N)) by (apply Rmult_le_pos; lra). lra.
  - destruct (classic (forall T, exists l', train_steps ROps p (net l) (steps (first_of s T)) = Ret (net l') /\ net_max_pred_test ROps p (net l') (batch (s T)) = Ret 1)) as [Q|Q].
    + exists 0%nat. intros T _. apply Q.
    + apply not_all_ex_not in Q as (T & Q).
      assert (FS : forall b, In b (first_of s T) -> fed b) by (intros b I; apply in_map_iff in I as (i & <- & _); apply H).
      destruct (online_loss (first_of s T) l L FS) as (l1 & vs & E1 & L1 & _ & _ & FV & C1). destruct (H T) as (FT' & LT & HN). destruct (fed_step l1 (s T) L1 FT') as (l2 & v & E2 & L2 & EV & V & C2).
      destruct (one_score l1 (s T) v L1 FT' LT EV) as (a & EA & A1 & _ & B2). pose proof m_pos as MM.
      assert (AL : a < 1). { destruct (Rle_lt_or_eq_dec a 1 A1) as [X|X]; [exact X|]. exfalso. apply Q. exists l1. split; [exact E1|]. rewrite EA, X. reflexivity. }
      specialize (B2 AL). pose proof (le_INR _ _ HN) as LN. pose proof (pos_INR (length (s T))) as P0.
      assert (TV : 0 <= total_of vs) by (clear - FV; induction FV as [|u us U FV IHV]; cbn; [lra|]; fold (total_of us); lra).
      assert (D1 : dist_sq l1 lo <= dist_sq l lo) by (assert (0 <= (INR m - 1) * (lr * total_of vs)) by (apply Rmult_le_pos; [lra | apply Rmult_le_pos; lra]); lra).
      destruct (IH l2 (fun i => s (T + 1 + i)%nat) L2 (fun i => H (T + 1 + i)%nat)) as (T0 & G).
      * assert (V0 : 0 <= (INR m - 1) * (lr * v)) by (apply Rmult_le_pos; [lra | apply Rmult_le_pos; lra]).
        assert (lr * 1 <= lr * (2 * (INR m - 1) * INR (length (s T)) * v)) by (apply Rmult_le_compat_l; lra).
        assert ((INR m - 1) * (lr * v) * (2 * INR (length (s T))) <= (INR m - 1) * (lr * v) * (2 * INR N)) by (apply Rmult_le_compat_l; lra).
        assert ((dist_sq l2 lo + (INR m - 1) * (lr * v)) * (2 * INR N) <= dist_sq l lo * (2 * INR N)) by (apply Rmult_le_compat_r; lra).
        rewrite S_INR in DK. lra.
      * exists (T + 1 + T0)%nat. intros T1 HT. destruct (G (T1 - (T + 1))%nat ltac:(lia)) as (l' & E' & A'). exists l'.
        replace T1 with (T + 1 + (T1 - (T + 1)))%nat at 1 2 by lia.
        split; [|exact A']. rewrite first_of_add, map_app, steps_app, first_of_add, map_app, steps_app. rewrite E1. cbn [obind].
        replace (first_of (fun i => s (T + i)%nat) 1) with [s T] by (cbn; now rewrite Nat.add_0_r). cbn [map train_steps]. rewrite E2. cbn [obind fst snd]. exact E'.
Qed.
End Online.
