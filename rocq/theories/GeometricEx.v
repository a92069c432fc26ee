(** * Geometric convergence of a linear layer: the theorems and their witnesses *)
From Coq Require Import Reals Lra Psatz.
From Verif Require Import Base BaseFacts Float Matrix Cplx Random Act Input Loss Dense Conv Layer Dataset Network SpecMatrix RFloat CFacts SpecLayer SpecConv SpecNet SpecLoss LossFacts LayerCalc PropTrain TrainLaws
  SpecGeom SpecDead SpecFit FitFacts FitNet PropFit OnlineFacts SpecGeometric GeometricFacts.
Local Open Scope R_scope.

Section Main.
Context (p : prec) (feat : network ROps) (g : geometry) (d m : nat).
Context (FN : feat <> []) (FP : Forall no_params feat) (FF : fit_all ROps feat g (Vec d)) (FT : Forall (trainable ROps) feat) (M : (2 <= m)%nat).
Context (pts : list (IOType RC * IOType RC)) (NP : pts <> []) (OK : forall x t, In (x, t) pts -> has_geom g x /\ exists v, t = IOScalar v /\ length v = m).
Local Notation net l := (feat ++ [LDense l]).

Lemma ok_points : forall it, In it pts -> point_ok g m it.
Proof. intros [x t] H. apply OK. exact H. Qed.
Lemma loss_total : forall l, linear d m l -> net_loss ROps p (net l) (batch pts) MeanSquare = Ret (Ok (total p feat m l pts / (INR (length pts) * (INR m - 1)))).
Proof. intros l L. exact (lin_loss p feat g d m FN FP FF FT l pts L NP M ok_points). Qed.
Lemma scale_pos : 0 < INR (length pts) * (INR m - 1).
Proof. pose proof (le_INR 2 m M) as H. change (INR 2) with 2 in H. pose proof (N_pos pts NP). apply Rmult_lt_0_compat; lra. Qed.

Lemma best_total : forall lo, linear d m lo -> (best p feat d m pts lo <-> forall l, linear d m l -> total p feat m lo pts <= total p feat m l pts).
Proof.
  intros lo LO. pose proof scale_pos as K. split.
  - intros (_ & B) l L. specialize (B l _ _ L (loss_total lo LO) (loss_total l L)). apply (Rmult_le_compat_r (INR (length pts) * (INR m - 1))) in B; [|lra].
    unfold Rdiv in B. rewrite !Rmult_assoc, Rinv_l, !Rmult_1_r in B by lra. exact B.
  - intros B. split; [exact LO|]. intros l a b L EA EB. pose proof (eq_trans (eq_sym EA) (loss_total lo LO)) as QA. pose proof (eq_trans (eq_sym EB) (loss_total l L)) as QB.
    injection QA as ->. injection QB as ->. apply Rmult_le_compat_r; [apply Rlt_le, Rinv_0_lt_compat; exact K | apply B; exact L].
Qed.
Lemma still_iff : forall lo, linear d m lo -> (still p feat d m pts lo <-> best p feat d m pts lo).
Proof.
  intros lo LO. rewrite best_total by exact LO. split; [apply (still_best p feat d m pts); assumption | apply (best_still p feat g d m FN FP FF FT pts NP ok_points); assumption].
Qed.
End Main.

Lemma fixed_best : forall p (feat : network ROps) g d m lo pts (lr : R),
  feat <> [] -> Forall no_params feat -> fit_all ROps feat g (Vec d) -> Forall (trainable ROps) feat ->
  linear d m lo -> (2 <= m)%nat -> pts <> [] ->
  (forall x t, In (x, t) pts -> has_geom g x /\ exists v, t = IOScalar v /\ length v = m) -> lr <> 0 ->
  net_gradient_opt ROps p (feat ++ [LDense lo]) (batch pts) MeanSquare (mkC lr 0) = Ret (feat ++ [LDense lo], Ok tt) <-> best p feat d m pts lo.
Proof.
  intros p feat g d m lo pts lr FN FP FF FT LO M NP OK LR. rewrite <- (still_iff p feat g d m FN FP FF FT M pts NP OK lo LO).
  apply (fixed_still p feat g d m FN FP FF FT pts NP (ok_points g m pts OK)); assumption.
Qed.

Lemma geometric : forall p (feat : network ROps) g d m l lo pts (lr mu : R) T,
  feat <> [] -> Forall no_params feat -> fit_all ROps feat g (Vec d) -> Forall (trainable ROps) feat ->
  linear d m l -> best p feat d m pts lo -> (2 <= m)%nat -> pts <> [] ->
  (forall x t, In (x, t) pts -> has_geom g x /\ exists v, t = IOScalar v /\ length v = m) ->
  0 < lr -> lr * sizes_of p feat pts <= INR (length pts) -> 0 <= mu -> spread p feat d pts mu ->
  exists l' a b, train_steps ROps p (feat ++ [LDense l]) (repeat (batch pts, MeanSquare, mkC lr 0) T) = Ret (feat ++ [LDense l']) /\ linear d m l' /\
    net_loss ROps p (feat ++ [LDense l']) (batch pts) MeanSquare = Ret (Ok a) /\
    net_loss ROps p (feat ++ [LDense lo]) (batch pts) MeanSquare = Ret (Ok b) /\
    0 <= 1 - lr * mu <= 1 /\
    dist_sq l' lo <= (1 - lr * mu) ^ T * dist_sq l lo /\
    a <= b + (1 - lr * mu) ^ T * dist_sq l lo / (lr * (INR m - 1)).
Proof.
  intros p feat g d m l lo pts lr mu T FN FP FF FT L BO M NP OK LR SM MU SP. pose proof (proj1 BO) as LO.
  pose proof (ok_points g m pts OK) as OK'. assert (ST : still p feat d m pts lo) by (apply (still_iff p feat g d m FN FP FF FT M pts NP OK lo LO); exact BO).
  destruct (steps_closer p feat g d m FN FP FF FT pts NP OK' mu SP T l lo lr L LO ST MU LR SM) as (l' & E & L' & C).
  exists l'. do 2 eexists. split; [exact E|]. split; [exact L'|]. split; [apply (loss_total p feat g d m FN FP FF FT M pts NP OK l' L')|]. split; [apply (loss_total p feat g d m FN FP FF FT M pts NP OK lo LO)|].
  pose proof (N_pos pts NP) as NN. pose proof (mu_le p feat g d m FN FP FF FT pts NP OK' mu SP) as M1. pose proof (sizes_ge p feat g d m FN FP FF FT pts OK') as SG.
  assert (L1 : lr <= 1). { apply (Rmult_le_reg_r (INR (length pts))); [exact NN|]. apply (Rmult_le_compat_l lr) in SG; lra. }
  split; [split; nra|]. split; [exact C|].
  rewrite (total_gap p feat d m pts l' lo L' LO ST). destruct (step_closer p feat g d m FN FP FF FT pts NP OK' l' lo lr L' LO ST LR SM) as (l2 & _ & _ & C2).
  pose proof (dist_nonneg l2 lo) as D2. set (G := gap p feat d m pts l' lo) in *. set (K := (1 - lr * mu) ^ T * dist_sq l lo) in *.
  pose proof (le_INR 2 m M) as MM. change (INR 2) with 2 in MM.
  assert (B : lr / INR (length pts) * G <= K) by lra.
  replace ((total p feat m lo pts + G) / (INR (length pts) * (INR m - 1))) with (total p feat m lo pts / (INR (length pts) * (INR m - 1)) + lr / INR (length pts) * G / (lr * (INR m - 1))) by (field; repeat split; lra).
  apply Rplus_le_compat_l. apply Rmult_le_compat_r; [|exact B]. apply Rlt_le, Rinv_0_lt_compat, Rmult_lt_0_compat; lra.
Qed.

Lemma unique : forall p (feat : network ROps) g d m lo lo' pts (mu : R),
  feat <> [] -> Forall no_params feat -> fit_all ROps feat g (Vec d) -> Forall (trainable ROps) feat ->
  best p feat d m pts lo -> best p feat d m pts lo' -> (2 <= m)%nat -> pts <> [] ->
  (forall x t, In (x, t) pts -> has_geom g x /\ exists v, t = IOScalar v /\ length v = m) ->
  0 < mu -> spread p feat d pts mu ->
  (forall i, nth i (d_biases lo) 0%RC = nth i (d_biases lo') 0%RC) /\ body (d_weights lo) = body (d_weights lo').
Proof.
  intros p feat g d m lo lo' pts mu FN FP FF FT BO BO' M NP OK MU SP. pose proof (proj1 BO) as LO. pose proof (proj1 BO') as LO'.
  pose proof (ok_points g m pts OK) as OK'. assert (ST : still p feat d m pts lo) by (apply (still_iff p feat g d m FN FP FF FT M pts NP OK lo LO); exact BO).
  pose proof (total_gap p feat d m pts lo' lo LO' LO ST) as TG. pose proof (gap_ge p feat g d m FN FP FF FT pts OK' mu SP lo' lo LO' LO) as GG. pose proof (N_pos pts NP) as NN.
  assert (TL : total p feat m lo' pts <= total p feat m lo pts) by (apply (best_total p feat g d m FN FP FF FT M pts NP OK lo' LO'); assumption).
  pose proof (dist_nonneg lo' lo) as D0. assert (DZ : dist_sq lo' lo <= 0).
  { destruct (Rle_lt_dec (dist_sq lo' lo) 0) as [H|H]; [exact H|]. assert (0 < mu * dist_sq lo' lo * INR (length pts)) by (repeat apply Rmult_lt_0_compat; assumption). lra. }
  pose proof (dist_zero d m lo' lo LO' LO DZ) as W. pose proof LO as ((W1 & W2 & W3) & I & U & A). pose proof LO' as ((W1' & W2' & W3') & I' & U' & A'). unfold inputs, units, wf in *. split.
  - intros i. destruct (lt_dec i m) as [Hi|Hi].
    + specialize (W i d Hi ltac:(lia)). unfold wt in W. rewrite Nat.ltb_irrefl in W. exact (eq_sym W).
    + rewrite !nth_overflow; [reflexivity | |]; lia.
  - apply (nth_ext _ _ 0%RC 0%RC); [congruence|]. intros k Hk. assert (Q : (k < m * d)%nat) by (rewrite W1, I, U in Hk; exact Hk). assert (D1 : d <> 0%nat) by (intros ->; lia).
    pose proof (Nat.div_mod k d D1) as DM. pose proof (Nat.mod_upper_bound k d D1) as MB. assert (Hi : (k / d < m)%nat) by (apply Nat.div_lt_upper_bound; lia).
    specialize (W (k / d)%nat (k mod d)%nat Hi ltac:(lia)). unfold wt in W. rewrite (proj2 (Nat.ltb_lt _ _) MB) in W. unfold weight, entry in W. rewrite I, I' in W.
    replace (k / d * d + k mod d)%nat with k in W by lia. exact (eq_sym W).
Qed.

Lemma limit : forall p (feat : network ROps) g d m l lo pts (lr mu e : R),
  feat <> [] -> Forall no_params feat -> fit_all ROps feat g (Vec d) -> Forall (trainable ROps) feat ->
  linear d m l -> best p feat d m pts lo -> (2 <= m)%nat -> pts <> [] ->
  (forall x t, In (x, t) pts -> has_geom g x /\ exists v, t = IOScalar v /\ length v = m) ->
  0 < lr -> lr * sizes_of p feat pts <= INR (length pts) -> 0 < mu -> spread p feat d pts mu -> 0 < e ->
  exists T0, forall T, (T0 <= T)%nat -> exists l',
    train_steps ROps p (feat ++ [LDense l]) (repeat (batch pts, MeanSquare, mkC lr 0) T) = Ret (feat ++ [LDense l']) /\ dist_sq l' lo < e.
Proof.
  intros p feat g d m l lo pts lr mu e FN FP FF FT L BO M NP OK LR SM MU SP EP. pose proof (dist_nonneg l lo) as D0.
  assert (R1 : 0 <= 1 - lr * mu <= 1) by (destruct (geometric p feat g d m l lo pts lr mu 0 FN FP FF FT L BO M NP OK LR SM (Rlt_le _ _ MU) SP) as (? & ? & ? & _ & _ & _ & _ & R1 & _); exact R1).
  assert (AB : Rabs (1 - lr * mu) < 1) by (rewrite Rabs_pos_eq by lra; assert (0 < lr * mu) by (apply Rmult_lt_0_compat; assumption); lra).
  destruct (pow_lt_1_zero _ AB (e / (dist_sq l lo + 1))) as (T0 & HT); [apply Rdiv_lt_0_compat; lra|]. exists T0. intros T LT.
  destruct (geometric p feat g d m l lo pts lr mu T FN FP FF FT L BO M NP OK LR SM (Rlt_le _ _ MU) SP) as (l' & a & b & E & _ & _ & _ & _ & C & _). exists l'. split; [exact E|].
  specialize (HT T LT). rewrite Rabs_pos_eq in HT by (apply pow_le; lra). set (K := (1 - lr * mu) ^ T) in *. assert (K0 : 0 <= K) by (apply pow_le; lra).
  apply (Rmult_lt_compat_r (dist_sq l lo + 1)) in HT; [|lra]. unfold Rdiv in HT. rewrite Rmult_assoc, Rinv_l, Rmult_1_r in HT by lra. lra.
Qed.

(** A feature that is always nought: its weight has nothing to do. *)
Definition zero_pts : list (IOType RC * IOType RC) := [(one_map (mkC 0 0)%R, IOScalar [mkC 1 0; mkC 0 0]%R)].
Definition zero_layer (w : R) : dense ROps := mkDense ROps (from_body [mkC w 0; mkC 0 0]%R 2 1) [mkC 1 0; mkC 0 0]%R ActNone.
Lemma zero_ok : forall x t, In (x, t) zero_pts -> has_geom (Maps 1 1 1) x /\ exists v, t = IOScalar v /\ length v = 2%nat.
Proof.
  intros x t [E|[]]. injection E as <- <-. split; [|eexists; split; reflexivity]. cbn [has_geom one_map]. split; [reflexivity|].
  intros mt [<-|[]]. repeat split.
Qed.
Lemma zero_best : forall w, best P64 fit_feat 1 2 zero_pts (zero_layer w).
Proof.
  intros w. assert (L : linear 1 2 (zero_layer w)) by (repeat split; discriminate).
  apply (best_total P64 fit_feat (Maps 1 1 1) 1 2); [discriminate | repeat constructor | exact fit_fits | repeat constructor | lia | discriminate | exact zero_ok | exact L|].
  intros l _. apply Rle_trans with 0; [apply Req_le; unfold total; cbn; unfold nsq; cbn; ring | unfold total; apply rsum_nonneg; intros; apply rsum_nonneg; intros; apply nsq_nonneg].
Qed.
Lemma flat : exists (feat : network ROps) l lo pts, best P64 feat 1 2 pts l /\ best P64 feat 1 2 pts lo /\ dist_sq l lo = 25 /\
  forall (lr : R) T, lr <> 0 -> train_steps ROps P64 (feat ++ [LDense l]) (repeat (batch pts, MeanSquare, mkC lr 0) T) = Ret (feat ++ [LDense l]).
Proof.
  exists fit_feat, (zero_layer 5), (zero_layer 0), zero_pts. split; [apply zero_best|]. split; [apply zero_best|]. split; [unfold dist_sq; cbn; unfold fsq; cbn; ring|].
  intros lr T LR. pose proof (zero_best 5) as B.
  apply (fixed_best P64 fit_feat (Maps 1 1 1) 1 2 (zero_layer 5) zero_pts lr) in B; [| discriminate | repeat constructor | exact fit_fits | repeat constructor | exact (proj1 B) | lia | discriminate | exact zero_ok | exact LR].
  induction T as [|T IH]; [reflexivity|]. cbn [repeat train_steps]. rewrite B. exact IH.
Qed.

(** Four points with contradicting targets. *)
Definition four_pts : list (IOType RC * IOType RC) :=
  [(one_map (mkC 1 0)%R, IOScalar [mkC 1 0; mkC 0 0]%R); (one_map (mkC (-1) 0)%R, IOScalar [mkC 0 0; mkC 1 0]%R);
   (one_map (mkC 1 0)%R, IOScalar [mkC 0 0; mkC 0 0]%R); (one_map (mkC (-1) 0)%R, IOScalar [mkC 0 0; mkC 0 0]%R)].
Definition four_best : dense ROps := mkDense ROps (from_body [mkC (1/4) 0; mkC (-1/4) 0]%R 2 1) [mkC (1/4) 0; mkC (1/4) 0]%R ActNone.
Lemma four_ok : forall x t, In (x, t) four_pts -> has_geom (Maps 1 1 1) x /\ exists v, t = IOScalar v /\ length v = 2%nat.
Proof.
  intros x t [E|[E|[E|[E|[]]]]]; injection E as <- <-; (split; [|eexists; split; reflexivity]); cbn [has_geom one_map]; (split; [reflexivity|]); intros mt [<-|[]]; repeat split.
Qed.
Lemma four : fit_all ROps fit_feat (Maps 1 1 1) (Vec 1) /\ (forall x t, In (x, t) four_pts -> has_geom (Maps 1 1 1) x /\ exists v, t = IOScalar v /\ length v = 2%nat) /\
  best P64 fit_feat 1 2 four_pts four_best /\ spread P64 fit_feat 1 four_pts 1 /\ 1 / 2 * sizes_of P64 fit_feat four_pts <= INR (length four_pts) /\
  dist_sq fit_layer four_best = 1 / 4 /\ net_loss ROps P64 (fit_feat ++ [LDense four_best]) (batch four_pts) MeanSquare = Ret (Ok (1 / 4)).
Proof.
  assert (L : linear 1 2 four_best) by (repeat split; discriminate). split; [exact fit_fits|]. split; [exact four_ok|]. split.
  { apply (still_iff P64 fit_feat (Maps 1 1 1) 1 2); [discriminate | repeat constructor | exact fit_fits | repeat constructor | lia | discriminate | exact four_ok | exact L|].
    intros i j Hi Hj. destruct i as [|[|i]]; [| |lia]; (destruct j as [|[|j]]; [| |lia]); apply c_ext; cbn; unfold fone; cbn; field. }
  split.
  { intros b w. unfold answer_sq. cbn. generalize (w 0%nat). destruct b as [a b]. intros [u v]. unfold c_norm_sq. cbn. unfold fsq. cbn. apply Req_le. change (F ROps) with R in *. ring. }
  split; [unfold sizes_of, size_of; cbn; unfold fsq; cbn; lra|]. split; [unfold dist_sq; cbn; unfold fsq; cbn; field|].
  rewrite (lin_loss P64 fit_feat (Maps 1 1 1) 1 2); [| discriminate | repeat constructor | exact fit_fits | repeat constructor | exact L | discriminate | lia | intros [x t] H; apply four_ok; exact H].
  do 2 f_equal. cbn. unfold nsq. cbn. field.
Qed.
