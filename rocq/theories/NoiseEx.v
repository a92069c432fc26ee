(** * Disturbed training steps: the theorems and their witnesses *)
From Coq Require Import Reals Lra Psatz.
From Verif Require Import Base BaseFacts Float Matrix Cplx Random Act Input Loss Dense Conv Layer Dataset Network SpecMatrix RFloat CFacts SpecLayer SpecConv SpecNet SpecLoss LossFacts LayerCalc PropTrain TrainLaws PropLaws PropNet
  SpecGeom SpecDead SpecFit FitFacts FitNet PropFit SpecOnline OnlineFacts SpecGeometric GeometricFacts GeometricEx SpecRuns RunsFacts RunsEx SpecNoise NoiseFacts.
Local Open Scope R_scope.

Definition no_mu (bs : noisy_run) : noisy_run := map (fun b => (fst (fst (fst b)), snd (fst (fst b)), 0, snd b)) bs.
Lemma disturbed_no_mu : forall p feat d m l bs l', disturbed p feat d m l bs l' -> disturbed p feat d m l (no_mu bs) l'.
Proof. intros p feat d m l bs l' H. induction H as [|l l1 l2 l' pts lr mu e bs E L2 D2 DI IH]; [constructor|]. cbn. econstructor; eassumption. Qed.
Lemma noise_no_mu : forall bs, total_noise (no_mu bs) = total_noise bs.
Proof. induction bs as [|b bs IH]; [reflexivity|]. unfold total_noise, no_mu in *. cbn [map fold_right snd]. now rewrite IH. Qed.

Lemma noisy_total : forall p (feat : network ROps) g d m (bs : noisy_run) l k l',
  feat <> [] -> Forall no_params feat -> fit_all ROps feat g (Vec d) -> Forall (trainable ROps) feat ->
  linear d m l -> linear d m k ->
  (forall pts lr mu e, In (pts, lr, mu, e) bs -> pts <> [] /\ 0 < lr /\ lr * sizes_of p feat pts <= INR (length pts) /\
     (forall x t, In (x, t) pts -> has_geom g x /\ exists v, t = IOScalar v /\ length v = m)) ->
  disturbed p feat d m l bs l' ->
  exists k', train_steps ROps p (feat ++ [LDense k]) (steps_of bs) = Ret (feat ++ [LDense k']) /\ linear d m k' /\ linear d m l' /\ dist l' k' <= dist l k + total_noise bs.
Proof.
  intros p feat g d m bs l k l' FN FP FF FT L K H DI. apply disturbed_no_mu in DI.
  destruct (noisy p feat g d m FN FP FF FT (no_mu bs) l k l' L K) as (k' & E & K' & L' & C); [|exact DI|].
  { intros pts lr mu e I. apply in_map_iff in I as ((((q, r), u), f) & EQ & I). injection EQ as <- <- <- <-. cbn [fst snd]. destruct (H _ _ _ _ I) as (A1 & A2 & A3 & A4).
    split; [exact A1|]. split; [exact A2|]. split; [exact A3|]. split; [apply spread_zero | exact A4]. }
  exists k'. split; [unfold steps_of, no_mu in *; rewrite map_map in E; exact E|]. split; [exact K'|]. split; [exact L'|].
  rewrite carried_flat, noise_no_mu in C; [exact C|]. intros b I. apply in_map_iff in I as (q & <- & _). reflexivity.
Qed.

Lemma fixed_steps : forall p n s T, net_gradient_opt ROps p n (fst (fst s)) (snd (fst s)) (snd s) = Ret (n, Ok tt) -> train_steps ROps p n (repeat s T) = Ret n.
Proof. intros p n ((a, f), r) T E. cbn [fst snd] in E. induction T as [|T IH]; [reflexivity|]. cbn [repeat train_steps]. rewrite E. exact IH. Qed.
Lemma steps_repeat : forall pts lr mu e T, steps_of (repeat (pts, lr, mu, e) T) = repeat (batch pts, MeanSquare, mkC lr 0) T.
Proof. intros. induction T as [|T IH]; [reflexivity|]. cbn [repeat]. rewrite <- IH. reflexivity. Qed.

Section Main.
Context (p : prec) (feat : network ROps) (g : geometry) (d m : nat).
Context (FN : feat <> []) (FP : Forall no_params feat) (FF : fit_all ROps feat g (Vec d)) (FT : Forall (trainable ROps) feat) (M : (2 <= m)%nat).
Local Notation net l := (feat ++ [LDense l]).
Local Notation all_ok pts := (forall x t, In (x, t) pts -> has_geom g x /\ exists v, t = IOScalar v /\ length v = m).

Lemma rate_mu : forall pts lr mu, pts <> [] -> all_ok pts -> 0 < lr -> lr * sizes_of p feat pts <= INR (length pts) -> 0 < mu -> spread p feat d pts mu -> 0 < lr * mu <= 1.
Proof.
  intros pts lr mu NP OK LR SM MU SP. pose proof (ok_points g m pts OK) as OK'. pose proof (N_pos pts NP) as NN. pose proof (mu_le p feat g d m FN FP FF FT pts NP OK' mu SP) as M1. pose proof (sizes_ge p feat g d m FN FP FF FT pts OK') as SG.
  assert (LL : lr <= 1). { apply (Rmult_le_reg_r (INR (length pts))); [exact NN|]. apply (Rmult_le_compat_l lr) in SG; lra. }
  split; [apply Rmult_lt_0_compat; assumption|]. rewrite <- (Rmult_1_l 1). apply Rmult_le_compat; lra.
Qed.
Lemma ball_bound : forall pts lr mu e T a, 0 < lr * mu <= 1 -> 0 <= e -> carried a (repeat (pts, lr, mu, e) T) <= sqrt (1 - lr * mu) ^ T * a + 2 * e / (lr * mu).
Proof.
  intros pts lr mu e T a Z E. destruct (root_gap _ Z) as (Q1 & Q2). eapply Rle_trans; [apply carried_repeat; assumption|]. apply Rplus_le_compat_l.
  set (z := lr * mu) in *. replace (2 * e / z) with (e * / (z / 2)) by (field; lra). apply Rmult_le_compat_l; [exact E|]. apply Rinv_le_contravar; lra.
Qed.

Lemma ball : forall l lo l' pts lr mu e T, linear d m l -> best p feat d m pts lo -> pts <> [] -> all_ok pts ->
  0 < lr -> lr * sizes_of p feat pts <= INR (length pts) -> 0 < mu -> spread p feat d pts mu -> 0 <= e ->
  disturbed p feat d m l (repeat (pts, lr, mu, e) T) l' ->
  sqrt (1 - lr * mu) < 1 /\ dist l' lo <= sqrt (1 - lr * mu) ^ T * dist l lo + 2 * e / (lr * mu).
Proof.
  intros l lo l' pts lr mu e T L BO NP OK LR SM MU SP E DI. pose proof (rate_mu pts lr mu NP OK LR SM MU SP) as Z. split; [exact (proj1 (root_gap _ Z))|].
  destruct (noisy p feat g d m FN FP FF FT (repeat (pts, lr, mu, e) T) l lo l' L (proj1 BO)) as (k' & EK & _ & _ & C); [|exact DI|].
  { intros q r u f I. apply repeat_spec in I. injection I as -> -> -> ->. split; [exact NP|]. split; [exact LR|]. split; [exact SM|]. split; [exact SP | exact OK]. }
  rewrite steps_repeat in EK. assert (FX : net_gradient_opt ROps p (net lo) (batch pts) MeanSquare (mkC lr 0) = Ret (net lo, Ok tt)) by (apply (fixed_best p feat g d m lo pts lr); try assumption; [exact (proj1 BO) | lra]).
  apply (eq_trans (eq_sym (fixed_steps p (net lo) (batch pts, MeanSquare, mkC lr 0) T FX))) in EK. injection EK as EK. apply app_inj_tail in EK as (_ & EK). injection EK as <-.
  eapply Rle_trans; [exact C|]. apply ball_bound; assumption.
Qed.

Context (a b : list (IOType RC * IOType RC)) (it it' : IOType RC * IOType RC).
Local Notation one := (a ++ it :: b). Local Notation two := (a ++ it' :: b).
Context (OK1 : all_ok one) (OK2 : all_ok two) (mu : R) (MU : 0 < mu) (SP : spread p feat d one mu).

Lemma it_ok : point_ok g m it'.
Proof. apply (ok_points g m two OK2). apply in_or_app. right. now left. Qed.
Lemma dist_self : forall l, linear d m l -> dist l l = 0.
Proof.
  intros l L. unfold dist. rewrite (dist_wt d m) by exact L. rewrite (rsum_ext _ (fun _ => 0 * 0)).
  - rewrite rsum_scal, Rmult_0_l. apply sqrt_0.
  - intros i _. rewrite (rsum_ext _ (fun _ => 0 * 0)); [rewrite rsum_scal; ring|]. intros j _. generalize (wt d l i j). intros [u v]. unfold nsq. cbn. ring.
Qed.

Lemma one_example : forall l (lr B : R) T, linear d m l -> 0 < lr -> lr * sizes_of p feat one <= INR (length one) -> 0 <= B ->
  (forall t h, (t < T)%nat -> train_steps ROps p (net l) (repeat (batch two, MeanSquare, mkC lr 0) t) = Ret (net h) -> pull p feat h it + pull p feat h it' <= B) ->
  exists l1 l2, train_steps ROps p (net l) (repeat (batch one, MeanSquare, mkC lr 0) T) = Ret (net l1) /\
    train_steps ROps p (net l) (repeat (batch two, MeanSquare, mkC lr 0) T) = Ret (net l2) /\ linear d m l1 /\ linear d m l2 /\
    dist l1 l2 <= 2 * B / (INR (length one) * mu).
Proof.
  intros l lr B T L LR SM B0 H. pose proof (rate_mu one lr mu ltac:(destruct a; discriminate) OK1 LR SM MU SP) as Z.
  destruct (replaced_runs p feat g d m FN FP FF FT a b it it' lr mu B T l l L L LR SM SP (ok_points g m one OK1) it_ok B0) as (l1 & l2 & E1 & E2 & L1 & L2 & C).
  { intros t n h LT TR ->. exact (H t h LT TR). }
  exists l1, l2. split; [exact E1|]. split; [exact E2|]. split; [exact L1|]. split; [exact L2|].
  assert (NN : 0 < INR (length one)) by (apply lt_0_INR; rewrite app_length; cbn; lia).
  eapply Rle_trans; [exact C|]. eapply Rle_trans; [apply ball_bound; [exact Z | apply Rmult_le_pos; [apply Rlt_le, Rdiv_lt_0_compat; assumption | exact B0]]|].
  rewrite dist_self by exact L. apply Req_le. field. split; [|split]; lra.
Qed.

Lemma pull_pos : forall l i, 0 <= pull p feat l i.
Proof. intros l i. unfold pull. destruct (net_forward ROps p (net l) (fst i)) as [[[y|]|]|]; try lra. destruct (snd i); [apply sqrt_pos | lra]. Qed.

Lemma best_layers : forall lo lo', best p feat d m one lo -> best p feat d m two lo' ->
  dist lo lo' <= 2 * (pull p feat lo' it + pull p feat lo' it') / (INR (length one) * mu).
Proof.
  intros lo lo' BO BO'. pose proof (ok_points g m one OK1) as OK'. assert (NP : one <> []) by (destruct a; discriminate). assert (NP2 : two <> []) by (destruct a; discriminate).
  pose proof (N_pos one NP) as NN. pose proof (sizes_ge p feat g d m FN FP FF FT one OK') as SG. pose (lr := INR (length one) / sizes_of p feat one).
  assert (LR : 0 < lr) by (apply Rdiv_lt_0_compat; lra). assert (SM : lr * sizes_of p feat one <= INR (length one)) by (unfold lr; apply Req_le; field; lra).
  pose proof (rate_mu one lr mu NP OK1 LR SM MU SP) as Z. destruct (root_gap _ Z) as (Q1 & Q2).
  assert (F1 : net_gradient_opt ROps p (net lo) (batch one) MeanSquare (mkC lr 0) = Ret (net lo, Ok tt)) by (apply (fixed_best p feat g d m lo one lr); try assumption; [exact (proj1 BO) | lra]).
  assert (F2 : net_gradient_opt ROps p (net lo') (batch two) MeanSquare (mkC lr 0) = Ret (net lo', Ok tt)) by (apply (fixed_best p feat g d m lo' two lr); try assumption; [exact (proj1 BO') | lra]).
  set (B := pull p feat lo' it + pull p feat lo' it').
  assert (B0 : 0 <= B) by (unfold B; pose proof (pull_pos lo' it); pose proof (pull_pos lo' it'); lra).
  destruct (replaced_runs p feat g d m FN FP FF FT a b it it' lr mu B 1 lo lo' (proj1 BO) (proj1 BO') LR SM SP OK' it_ok B0) as (l1 & l2 & E1 & E2 & _ & _ & C).
  { intros t n h LT TR ->. apply (eq_trans (eq_sym (fixed_steps p (net lo') (batch two, MeanSquare, mkC lr 0) t F2))) in TR. injection TR as TR. apply app_inj_tail in TR as (_ & TR). injection TR as <-. apply Rle_refl. }
  apply (eq_trans (eq_sym (fixed_steps p (net lo) (batch one, MeanSquare, mkC lr 0) 1 F1))) in E1. apply (eq_trans (eq_sym (fixed_steps p (net lo') (batch two, MeanSquare, mkC lr 0) 1 F2))) in E2.
  injection E1 as E1. injection E2 as E2. apply app_inj_tail in E1 as (_ & E1). apply app_inj_tail in E2 as (_ & E2). injection E1 as <-. injection E2 as <-.
  cbn [repeat carried] in C. pose proof (dist_pos lo lo') as DP. set (D := dist lo lo') in *. set (q := sqrt (1 - lr * mu)) in *.
  assert (H : lr * mu / 2 * D <= lr / INR (length one) * B). { apply (Rmult_le_compat_r D) in Q2; [|exact DP]. lra. }
  apply (Rmult_le_reg_l (lr * mu / 2)); [lra|]. eapply Rle_trans; [exact H|]. apply Req_le. field. split; lra.
Qed.

Lemma best_answers : forall lo lo' x, best p feat d m one lo -> best p feat d m two lo' -> has_geom g x -> exists u v,
  net_forward ROps p (net lo) x = Ret (Ok (IOScalar u)) /\ net_forward ROps p (net lo') x = Ret (Ok (IOScalar v)) /\ length u = m /\ length v = m /\
  rsum (fun i => c_norm_sq ROps (nth i u 0 - nth i v 0)%RC) m <= size_of p feat x * (2 * (pull p feat lo' it + pull p feat lo' it') / (INR (length one) * mu)) ^ 2.
Proof.
  intros lo lo' x BO BO' X. destruct (answers p feat g d m FN FP FF FT lo lo' x (proj1 BO) (proj1 BO') X) as (u & v & EU & EV & LU & LV & C). exists u, v.
  split; [exact EU|]. split; [exact EV|]. split; [exact LU|]. split; [exact LV|]. eapply Rle_trans; [exact C|]. apply Rmult_le_compat_l.
  - unfold size_of. destruct (feat_trace p feat g d FN FP FF FT x X) as (_ & _ & _ & _ & E). rewrite E.
    assert (0 <= rsum (fun j => c_norm_sq ROps (nth j (fv p feat x) 0%RC)) (length (fv p feat x))) by (apply rsum_nonneg; intros; rewrite nsq_eq; apply nsq_nonneg). lra.
  - pose proof (best_layers lo lo' BO BO') as H. pose proof (dist_pos lo lo') as P. rewrite <- (dist_sq_dist lo lo'). cbn [pow]. rewrite Rmult_1_r. apply Rmult_le_compat; assumption.
Qed.
End Main.

(** Data that do not tell all units apart: every disturbance stays. *)
Lemma piles_up : exists (feat : network ROps) l pts, best P64 feat 1 2 pts l /\
  forall (lr e : R) T, lr <> 0 -> 0 <= e -> exists l', disturbed P64 feat 1 2 l (repeat (pts, lr, 0, e) T) l' /\ dist l' l = INR T * e.
Proof.
  exists fit_feat, (zero_layer 0), zero_pts. split; [apply zero_best|]. intros lr e T LR E. exists (zero_layer (INR T * e)).
  assert (DZ : forall u v, dist (zero_layer u) (zero_layer v) = Rabs (u - v)).
  { intros u v. unfold dist. rewrite <- sqrt_Rsqr_abs. f_equal. unfold dist_sq, Rsqr. cbn. unfold fsq. cbn. ring. }
  split; [|rewrite DZ, Rminus_0_r; apply Rabs_pos_eq, Rmult_le_pos; [apply pos_INR | exact E]].
  assert (G : forall T w, disturbed P64 fit_feat 1 2 (zero_layer w) (repeat (zero_pts, lr, 0, e) T) (zero_layer (w + INR T * e))).
  { clear T. induction T as [|T IH]; intros w.
    - replace (w + INR 0 * e) with w by (cbn; ring). constructor.
    - replace (w + INR (S T) * e) with ((w + e) + INR T * e) by (rewrite S_INR; ring). cbn [repeat].
      apply (disturbed_cons P64 fit_feat 1 2 (zero_layer w) (zero_layer w) (zero_layer (w + e))).
      + apply (fixed_best P64 fit_feat (Maps 1 1 1) 1 2 (zero_layer w) zero_pts lr); [discriminate | repeat constructor | exact fit_fits | repeat constructor | repeat split; discriminate | lia | discriminate | exact zero_ok | exact LR | apply zero_best].
      + repeat split; discriminate.
      + rewrite DZ. replace (w + e - w) with e by ring. rewrite Rabs_pos_eq by exact E. apply Rle_refl.
      + apply IH. }
  specialize (G T 0). rewrite Rplus_0_l in G. exact G.
Qed.

(** Four points, of which one gets another target. *)
Definition other_pt : IOType RC * IOType RC := (one_map (mkC 1 0)%R, IOScalar [mkC 3 0; mkC 0 0]%R).
Definition first_pt : IOType RC * IOType RC := (one_map (mkC 1 0)%R, IOScalar [mkC 1 0; mkC 0 0]%R).
Definition other_best : dense ROps := mkDense ROps (from_body [mkC (3/4) 0; mkC (-1/4) 0]%R 2 1) [mkC (3/4) 0; mkC (1/4) 0]%R ActNone.
Lemma other_ok : forall x t, In (x, t) (other_pt :: tl four_pts) -> has_geom (Maps 1 1 1) x /\ exists v, t = IOScalar v /\ length v = 2%nat.
Proof.
  intros x t [E|[E|[E|[E|[]]]]]; injection E as <- <-; (split; [|eexists; split; reflexivity]); cbn [has_geom one_map]; (split; [reflexivity|]); intros mt [<-|[]]; repeat split.
Qed.
Lemma other : four_pts = [] ++ first_pt :: tl four_pts /\ best P64 fit_feat 1 2 four_pts four_best /\ best P64 fit_feat 1 2 ([] ++ other_pt :: tl four_pts) other_best /\
  spread P64 fit_feat 1 four_pts 1 /\ dist_sq four_best other_best = 1 / 2 /\ pull P64 fit_feat other_best first_pt = sqrt (1 / 2) /\ pull P64 fit_feat other_best other_pt = sqrt (9 / 2).
Proof.
  destruct four as (_ & _ & B & S & _). split; [reflexivity|]. split; [exact B|]. assert (L : linear 1 2 other_best) by (repeat split; discriminate). split.
  { apply (still_iff P64 fit_feat (Maps 1 1 1) 1 2); [discriminate | repeat constructor | exact fit_fits | repeat constructor | lia | discriminate | exact other_ok | exact L|].
    intros i j Hi Hj. destruct i as [|[|i]]; [| |lia]; (destruct j as [|[|j]]; [| |lia]); apply c_ext; cbn; unfold fone; cbn; field. }
  split; [exact S|]. split; [unfold dist_sq; cbn; unfold fsq; cbn; field|]. split; unfold pull, size_of; cbn; f_equal; unfold fsq; cbn; field.
Qed.

(** One weight moved by 1. *)
Definition moved_best : dense ROps := mkDense ROps (from_body [mkC (5/4) 0; mkC (-1/4) 0]%R 2 1) [mkC (1/4) 0; mkC (1/4) 0]%R ActNone.
Lemma disturbed_four : exists l', disturbed P64 fit_feat 1 2 four_best [(four_pts, 1 / 2, 1, 1)] l' /\ dist l' four_best = 1 /\ 1 / 2 * sizes_of P64 fit_feat four_pts <= INR (length four_pts).
Proof.
  destruct four as (_ & _ & B & _ & SM & _). assert (DM : dist moved_best four_best = 1).
  { unfold dist. rewrite <- sqrt_1. f_equal. unfold dist_sq. cbn. unfold fsq. cbn. field. }
  exists moved_best. split; [|split; [exact DM | exact SM]]. apply (disturbed_cons P64 fit_feat 1 2 four_best four_best moved_best).
  - apply (fixed_best P64 fit_feat (Maps 1 1 1) 1 2 four_best four_pts (1 / 2)); [discriminate | repeat constructor | exact fit_fits | repeat constructor | exact (proj1 B) | lia | discriminate | exact four_ok | lra | exact B].
  - repeat split; discriminate.
  - rewrite DM. apply Rle_refl.
  - constructor.
Qed.
