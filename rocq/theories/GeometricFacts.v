(** * Geometric convergence when the data determine the weights *)
From Coq Require Import Reals Lra Psatz.
From Verif Require Import Base BaseFacts Float Matrix Cplx Random Act Input Loss Dense Conv Layer Dataset Network SpecMatrix RFloat CFacts SpecLayer SpecConv SpecNet SpecLoss LossFacts LayerCalc PropTrain TrainLaws PropLaws
  SpecGeom SpecDead SpecFit FitFacts FitNet PropFit SpecOnline OnlineFacts SpecGeometric.
Local Open Scope R_scope.

Section Unit.
Context (d N : nat) (x : nat -> nat -> RC) (t : nat -> RC).
Local Notation er := (er d x t). Local Notation gr := (gr d N x t). Local Notation mv := (mv d N x t). Local Notation sz := (sz d x).
Context (ws : nat -> RC) (ST : forall j, (j < d)%nat -> gr ws j = 0%RC).
Let t' (q : nat) : RC := csum (fun j => ws j * x q j)%RC d.

Lemma er_diff : forall w q, FitFacts.er d x t' w q = (er w q - er ws q)%RC.
Proof. intros w q. unfold FitFacts.er, t'. ring. Qed.
Lemma gr_diff : forall w j, (j < d)%nat -> FitFacts.gr d N x t' w j = gr w j.
Proof.
  intros w j Hj. unfold FitFacts.gr at 1. rewrite (csum_ext _ (fun q => er w q * conj (x q j) - er ws q * conj (x q j))%RC) by (intros; rewrite er_diff; ring).
  rewrite csum_sub. fold (gr w j). fold (gr ws j). rewrite (ST j Hj). ring.
Qed.

Lemma closer_fix : forall c w, 0 <= c -> (forall q, (q < N)%nat -> 0 < sz q) -> c * rsum sz N <= 1 ->
  rsum (fun j => nsq (mv c w j - ws j)%RC) d + c * rsum (fun q => nsq (er w q - er ws q)%RC) N <= rsum (fun j => nsq (w j - ws j)%RC) d.
Proof.
  intros c w C P B. pose proof (closer0 d N x t' c w ws C P B) as H. rewrite (rsum_ext (fun j => nsq (mv c w j - ws j)%RC) (fun j => nsq (FitFacts.mv d N x t' c w j - ws j)%RC)).
  2: { intros j Hj. unfold FitFacts.mv. now rewrite gr_diff. }
  rewrite (rsum_ext (fun q => nsq (er w q - er ws q)%RC) (fun q => nsq (FitFacts.er d x t' w q))) by (intros; now rewrite er_diff).
  apply H. intros q _. rewrite er_diff. ring.
Qed.

Lemma excess : forall w, rsum (fun q => nsq (er w q)) N = rsum (fun q => nsq (er ws q)) N + rsum (fun q => nsq (er w q - er ws q)%RC) N.
Proof.
  intros w. assert (X : rsum (fun q => re (conj (er ws q) * (er w q - er ws q))%RC) N = 0).
  { rewrite <- re_csum. rewrite (csum_ext _ (fun q => csum (fun j => (w j - ws j) * (conj (er ws q) * x q j))%RC d)).
    2: { intros q _. rewrite (csum_ext (fun j => (w j - ws j) * (conj (er ws q) * x q j))%RC (fun j => conj (er ws q) * ((w j - ws j) * x q j))%RC) by (intros; ring).
         rewrite csum_mul_l. f_equal. rewrite (csum_ext (fun j => (w j - ws j) * x q j)%RC (fun j => w j * x q j - ws j * x q j)%RC) by (intros; ring). rewrite csum_sub. unfold FitFacts.er. ring. }
    rewrite csum_swap, re_csum. apply rsum_zero. intros j Hj. rewrite csum_mul_l.
    assert (E : csum (fun q => conj (er ws q) * x q j)%RC N = conj (gr ws j)).
    { unfold FitFacts.gr. rewrite csum_conj. apply csum_ext. intros q _. rewrite conj_mul, conj_conj. reflexivity. }
    rewrite E, (ST j Hj), conj_0. generalize (w j - ws j)%RC. intros [a b]. cbn. ring. }
  rewrite <- rsum_plus. rewrite (rsum_ext (fun q => nsq (er w q)) (fun q => (nsq (er ws q) + nsq (er w q - er ws q)%RC) + 2 * re (conj (er ws q) * (er w q - er ws q))%RC)).
  2: { intros q _. generalize (er w q) (er ws q). intros [a b] [u v]. unfold nsq. cbn. ring. }
  rewrite rsum_plus, rsum_scal, X. ring.
Qed.
End Unit.

Section Net.
Context (p : prec) (feat : network ROps) (g : geometry) (d m : nat).
Context (FN : feat <> []) (FP : Forall no_params feat) (FF : fit_all ROps feat g (Vec d)) (FT : Forall (trainable ROps) feat).
Context (pts : list (IOType RC * IOType RC)) (NP : pts <> []) (OK : forall it, In it pts -> point_ok g m it).
Local Notation net l := (feat ++ [LDense l]).
Local Notation D := (IOScalar [], IOScalar []).
Local Notation N := (length pts).
Local Notation X := (xs p feat d pts).
Local Notation E_ l i := (er (S d) X (ts pts i) (wt d l i)).

Definition still (l : dense ROps) : Prop := forall i j, (i < m)%nat -> (j < S d)%nat -> gr (S d) N X (ts pts i) (wt d l i) j = 0%RC.

Lemma N_pos : 0 < INR N.
Proof. clear - NP. apply lt_0_INR. destruct pts; [congruence | cbn; lia]. Qed.

Lemma step_mv : forall l (lr : R), linear d m l -> exists l', net_gradient_opt ROps p (net l) (batch pts) MeanSquare (mkC lr 0) = Ret (net l', Ok tt) /\ linear d m l' /\ arch_of ROps (LDense l') = arch_of ROps (LDense l) /\
  forall i j, (i < m)%nat -> (j < S d)%nat -> wt d l' i j = mv (S d) N X (ts pts i) (lr / INR N) (wt d l i) j.
Proof.
  intros l lr L. destruct (lin_step p feat g d m FN FP FF FT l pts lr L NP OK) as (l' & E & L' & V). cbv zeta in V. destruct V as (VW & VB).
  exists l'. split; [exact E|]. split; [exact L'|]. split.
  { assert (TS : trained ROps p (net l) (net l')) by (econstructor; [constructor | exact E]).
    destruct (C52_history _ _ _ _ TS) as (AR & _). rewrite !map_app in AR. apply app_inj_tail in AR as (_ & AR). exact AR. }
  intros i j Hi Hj. unfold mv, gr.
  rewrite (csum_ext _ (fun q => ue p feat l i (nth q pts D) * conj (X q j))%RC) by (intros; now rewrite (er_ue p feat d m)).
  unfold wt. unfold xs. destruct (Nat.ltb_spec j d) as [H|H].
  - rewrite VW by assumption. rewrite (lsum_csum _ D). reflexivity.
  - rewrite VB by assumption. rewrite (lsum_csum _ D). do 2 f_equal. apply csum_ext. intros q _. assert (conj 1%RC = 1%RC) as -> by (apply c_ext; cbn; unfold fzero; cbn; ring). ring.
Qed.

Lemma wt_ext : forall l l', linear d m l -> linear d m l' -> arch_of ROps (LDense l) = arch_of ROps (LDense l') -> (forall i j, (i < m)%nat -> (j < S d)%nat -> wt d l i j = wt d l' i j) -> l = l'.
Proof.
  intros l l' L L' AR H. pose proof L as ((W1 & W2 & W3) & I & U & A). pose proof L' as ((W1' & W2' & W3') & I' & U' & A'). unfold inputs, units in *. unfold wf in *.
  assert (B : d_biases l = d_biases l').
  { apply (nth_ext _ _ 0%RC 0%RC); [congruence|]. intros i Hi. assert (Q : (i < m)%nat) by congruence. specialize (H i d Q ltac:(lia)). unfold wt in H. rewrite Nat.ltb_irrefl in H. exact H. }
  assert (W : body (d_weights l) = body (d_weights l')).
  { apply (nth_ext _ _ 0%RC 0%RC); [congruence|]. intros k Hk. assert (Q : (k < m * d)%nat) by (rewrite W1, I, U in Hk; exact Hk). assert (D0 : d <> 0%nat) by (intros ->; lia).
    pose proof (Nat.div_mod k d D0) as DM. pose proof (Nat.mod_upper_bound k d D0) as MB. assert (Hi : (k / d < m)%nat) by (apply Nat.div_lt_upper_bound; lia).
    specialize (H (k / d)%nat (k mod d)%nat Hi ltac:(lia)). unfold wt in H. rewrite (proj2 (Nat.ltb_lt _ _) MB) in H. unfold weight, entry in H. rewrite I, I' in H.
    replace (k / d * d + k mod d)%nat with k in H by lia. exact H. }
  clear - B W I I' U U' A A' AR. cbn [arch_of] in AR. destruct l as [[w r c k1 k2] b a], l' as [[w' r' c' k1' k2'] b' a']. cbn [d_biases d_func d_weights body sh0 sh1 cap0 cap1] in *. injection AR as _ _ -> -> _ _ _. subst. reflexivity.
Qed.

Lemma move_zero : forall (c : R) (w h : RC), c <> 0 -> (w - mkC c 0%R * h)%RC = w -> h = 0%RC.
Proof.
  intros c [a b] [u v] C H. assert (H1 := f_equal re H). assert (H2 := f_equal im H). cbn in H1, H2. change (F ROps) with R in *. apply c_ext; cbn; apply (Rmult_eq_reg_l c); lra.
Qed.
Lemma move_still : forall (c : R) (w : RC), (w - mkC c 0%R * 0)%RC = w.
Proof. intros c w. ring. Qed.

Lemma fixed_still : forall l (lr : R), linear d m l -> lr <> 0 -> (net_gradient_opt ROps p (net l) (batch pts) MeanSquare (mkC lr 0) = Ret (net l, Ok tt) <-> still l).
Proof.
  intros l lr L Z. destruct (step_mv l lr L) as (l' & E & L' & AR & V). pose proof N_pos as NN. assert (C : lr / INR N <> 0) by (apply Rmult_integral_contrapositive; split; [exact Z | apply Rinv_neq_0_compat; lra]).
  split; intros H.
  - assert (l' = l) as ->. { pose proof (eq_trans (eq_sym E) H) as Q. injection Q as Q. apply app_inj_tail in Q as (_ & Q). now injection Q. }
    intros i j Hi Hj. specialize (V i j Hi Hj). unfold mv in V. exact (move_zero _ _ _ C (eq_sym V)).
  - assert (l' = l) as ->; [|exact E]. apply wt_ext; auto. intros i j Hi Hj. rewrite (V i j Hi Hj). unfold mv. rewrite (H i j Hi Hj). apply move_still.
Qed.

Lemma sz_pos : forall q, (q < N)%nat -> 0 < sz (S d) X q.
Proof.
  intros q _. unfold sz. rewrite rsum_S. unfold xs at 2. rewrite Nat.ltb_irrefl.
  assert (0 <= rsum (fun j => nsq (X q j)) d)%R by (apply rsum_nonneg; intros; apply nsq_nonneg).
  assert (N1 : nsq 1%RC = 1%R) by (unfold nsq; cbn; unfold fone; cbn; ring). rewrite N1. lra.
Qed.
Lemma sz_sum : rsum (sz (S d) X) N = sizes_of p feat pts.
Proof. rewrite (rsum_ext _ (fun q => size_of p feat (fst (nth q pts D)))) by (intros; apply (sz_of p feat g d m FN FP FF FT); assumption). now rewrite <- sizes_sum. Qed.
Lemma sz_rate : forall lr, lr * sizes_of p feat pts <= INR N -> lr / INR N * rsum (sz (S d) X) N <= 1.
Proof.
  intros lr H. pose proof N_pos as NN. rewrite sz_sum. apply (Rmult_le_reg_r (INR N)); [exact NN|]. unfold Rdiv. field_simplify; [|lra]. lra.
Qed.
Lemma sizes_ge : INR N <= sizes_of p feat pts.
Proof.
  clear - OK FN FP FF FT. induction pts as [|it l IH]; [cbn; lra|]. cbn [length]. rewrite S_INR. cbn [sizes_of fold_right]. fold (sizes_of p feat l).
  specialize (IH (fun i h => OK i (or_intror h))). assert (1 <= size_of p feat (fst it)); [|lra]. destruct (OK it (or_introl eq_refl)) as (G & _).
  destruct (feat_trace p feat g d FN FP FF FT _ G) as (_ & _ & _ & _ & E). unfold size_of. rewrite E.
  assert (0 <= rsum (fun j => c_norm_sq ROps (nth j (fv p feat (fst it)) 0%RC)) (length (fv p feat (fst it)))) by (apply rsum_nonneg; intros; rewrite nsq_eq; apply nsq_nonneg). lra.
Qed.

(** The squared difference of the answers of two layers, summed up. *)
Definition gap (l lo : dense ROps) : R := rsum (fun i => rsum (fun q => nsq (E_ l i q - E_ lo i q)%RC) N) m.
Lemma gap_nonneg : forall l lo, 0 <= gap l lo.
Proof. intros l lo. unfold gap. apply rsum_nonneg. intros. apply rsum_nonneg. intros. apply nsq_nonneg. Qed.

Lemma total_gap : forall l lo, linear d m l -> linear d m lo -> still lo -> total p feat m l pts = total p feat m lo pts + gap l lo.
Proof.
  intros l lo L LO S0. rewrite !(total_er p feat d m) by assumption. unfold gap. rewrite <- rsum_plus. apply rsum_ext. intros i Hi.
  apply (excess (S d) N X (ts pts i) (wt d lo i)). intros j Hj. apply S0; assumption.
Qed.

Lemma step_closer : forall l lo lr, linear d m l -> linear d m lo -> still lo -> 0 < lr -> lr * sizes_of p feat pts <= INR N ->
  exists l', net_gradient_opt ROps p (net l) (batch pts) MeanSquare (mkC lr 0) = Ret (net l', Ok tt) /\ linear d m l' /\ dist_sq l' lo + lr / INR N * gap l lo <= dist_sq l lo.
Proof.
  intros l lo lr L LO S0 LR SM. destruct (step_mv l lr L) as (l' & E & L' & AR & V). exists l'. split; [exact E|]. split; [exact L'|].
  rewrite (dist_wt d m l), (dist_wt d m l') by assumption. unfold gap. rewrite <- rsum_scal, <- rsum_plus. apply rsum_le. intros i Hi. pose proof N_pos as NN.
  rewrite (rsum_ext (fun j => nsq (wt d l' i j - wt d lo i j)%RC) (fun j => nsq (mv (S d) N X (ts pts i) (lr / INR N) (wt d l i) j - wt d lo i j)%RC)) by (intros; now rewrite V).
  apply closer_fix; [intros j Hj; apply S0; assumption | apply Rlt_le, Rdiv_lt_0_compat; assumption | exact sz_pos | exact (sz_rate lr SM)].
Qed.

Lemma dist_zero : forall l l', linear d m l -> linear d m l' -> dist_sq l l' <= 0 -> forall i j, (i < m)%nat -> (j < S d)%nat -> wt d l i j = wt d l' i j.
Proof.
  intros l l' L L' H i j Hi Hj. rewrite (dist_wt d m) in H by exact L.
  assert (ZR : forall (h : nat -> R) k, (forall j, (j < k)%nat -> 0 <= h j) -> rsum h k <= 0 -> forall j, (j < k)%nat -> h j <= 0).
  { clear. intros h k. induction k as [|k IH]; intros P E j Hj; [lia|]. rewrite rsum_S in E.
    assert (0 <= rsum h k) by (apply rsum_nonneg; intros; apply P; lia). assert (0 <= h k) by (apply P; lia).
    destruct (Nat.eq_dec j k) as [->|]; [lra|]. apply IH; [intros; apply P; lia | lra | lia]. }
  pose proof (ZR _ _ ltac:(intros; apply rsum_nonneg; intros; apply nsq_nonneg) H i Hi) as Z1. cbv beta in Z1.
  pose proof (ZR _ _ ltac:(intros; apply nsq_nonneg) Z1 j Hj) as Z2. cbv beta in Z2. revert Z2. generalize (wt d l i j) (wt d l' i j). intros [a b] [u v]. unfold nsq. cbn. intros Z2.
  change (F ROps) with R in *. assert (SQ : forall r s : R, r * r + s * s <= 0 -> r = 0 /\ s = 0).
  { clear. intros r s H. pose proof (Rle_0_sqr r) as A. pose proof (Rle_0_sqr s) as B. unfold Rsqr in *. split; apply Rsqr_0_uniq; unfold Rsqr; lra. }
  destruct (SQ _ _ Z2) as (Q1 & Q2). apply c_ext; cbn; lra.
Qed.

Lemma best_still : forall lo, linear d m lo -> (forall l, linear d m l -> total p feat m lo pts <= total p feat m l pts) -> still lo.
Proof.
  intros lo LO B. pose proof N_pos as NN. pose proof sizes_ge as SG. set (lr := INR N / sizes_of p feat pts). assert (LR : 0 < lr) by (apply Rdiv_lt_0_compat; lra).
  destruct (lin_step_ineq p feat g d m FN FP FF FT lo pts lr LO NP OK LR) as (l' & E & L' & _ & C); [unfold lr; apply Req_le; field; lra|].
  assert (AR : arch_of ROps (LDense l') = arch_of ROps (LDense lo)).
  { destruct (step_mv lo lr LO) as (l1 & E1 & _ & AR & _). pose proof (eq_trans (eq_sym E) E1) as Q. injection Q as Q. apply app_inj_tail in Q as (_ & Q). injection Q as ->. exact AR. }
  specialize (C lo LO). specialize (B l' L'). assert (D0 : dist_sq lo lo = 0).
  { rewrite (dist_wt d m) by exact LO. apply rsum_zero. intros i _. apply rsum_zero. intros j _. generalize (wt d lo i j). intros [a b]. unfold nsq. cbn. ring. }
  assert (C0 : 0 < lr / INR N) by (apply Rdiv_lt_0_compat; assumption). assert (l' = lo) as ->.
  { assert (0 <= lr / INR N * (total p feat m l' pts - total p feat m lo pts)) by (apply Rmult_le_pos; lra). apply wt_ext; auto. apply dist_zero; auto. lra. }
  apply (fixed_still lo lr LO); [lra | exact E].
Qed.
Lemma still_best : forall lo, linear d m lo -> still lo -> forall l, linear d m l -> total p feat m lo pts <= total p feat m l pts.
Proof. intros lo LO S0 l L. rewrite (total_gap l lo L LO S0). pose proof (gap_nonneg l lo). lra. Qed.

Lemma answers_sum : forall (h : IOType RC * IOType RC -> R) l, fold_right (fun it s => h it + s) 0 l = rsum (fun q => h (nth q l D)) (length l).
Proof.
  intros h [|it l]; [reflexivity|]. rewrite <- (fold_rsum h D l it). cbn [fold_right]. generalize (h it). induction l as [|a l IH]; intros r; cbn [fold_right map fold_left]; [ring|]. rewrite <- IH. ring.
Qed.

Context (mu : R) (SP : spread p feat d pts mu).
Lemma gap_ge : forall l lo, linear d m l -> linear d m lo -> mu * dist_sq l lo * INR N <= gap l lo.
Proof.
  intros l lo L LO. rewrite (dist_wt d m) by exact L. unfold gap. rewrite Rmult_assoc, (Rmult_comm (rsum _ _)), <- Rmult_assoc, <- rsum_scal. apply rsum_le. intros i Hi.
  pose proof (SP (wt d l i d - wt d lo i d)%RC (fun j => wt d l i j - wt d lo i j)%RC) as H. rewrite (answers_sum (fun it => answer_sq p feat _ _ (fst it))) in H.
  rewrite rsum_S. eapply Rle_trans; [|eapply Rle_trans; [exact H|]].
  - apply Req_le. change (rsum (fun j => c_norm_sq ROps (wt d l i j - wt d lo i j)%RC) d) with (rsum (fun j => nsq (wt d l i j - wt d lo i j)%RC) d). change (c_norm_sq ROps ?z) with (nsq z). ring.
  - apply Req_le. apply rsum_ext. intros q Hq. assert (IT : In (nth q pts D) pts) by (apply nth_In; exact Hq). destruct (OK _ IT) as (G & _).
    destruct (feat_trace p feat g d FN FP FF FT _ G) as (_ & _ & LV & _ & E). unfold answer_sq. rewrite E, LV. rewrite nsq_eq. f_equal.
    unfold er. rewrite !csum_S. unfold xs at 2 4. rewrite !Nat.ltb_irrefl.
    fold (csum (fun j => (wt d l i j - wt d lo i j) * nth j (fv p feat (fst (nth q pts D))) 0)%RC d).
    rewrite (csum_ext (fun j => (wt d l i j - wt d lo i j) * nth j (fv p feat (fst (nth q pts D))) 0)%RC (fun j => wt d l i j * X q j - wt d lo i j * X q j)%RC).
    2: { intros j Hj. unfold xs. rewrite (proj2 (Nat.ltb_lt j d) Hj). ring. }
    rewrite csum_sub. ring.
Qed.

Lemma mu_le : mu <= 1.
Proof.
  pose proof N_pos as NN. pose proof (SP 1%RC (fun _ => 0%RC)) as H. rewrite (answers_sum (fun it => answer_sq p feat _ _ (fst it))) in H.
  rewrite (rsum_ext (fun q => answer_sq p feat 1%RC (fun _ => 0%RC) (fst (nth q pts D))) (fun _ => 1)) in H.
  2: { intros q Hq. assert (IT : In (nth q pts D) pts) by (apply nth_In; exact Hq). destruct (OK _ IT) as (G & _).
       destruct (feat_trace p feat g d FN FP FF FT _ G) as (_ & _ & LV & _ & E). unfold answer_sq. rewrite E.
       fold (csum (fun j => 0 * nth j (fv p feat (fst (nth q pts D))) 0)%RC (length (fv p feat (fst (nth q pts D))))). rewrite (csum_ext _ (fun _ => 0 * 0)%RC) by (intros; ring). rewrite csum_mul_l.
       match goal with |- c_norm_sq ROps ?z = 1 => replace z with 1%RC by ring end. rewrite nsq_eq. unfold nsq. cbn. unfold fone. cbn. ring. }
  rewrite rsum_zero in H by (intros; rewrite nsq_eq; unfold nsq; cbn; ring). assert (N1 : c_norm_sq ROps 1%RC = 1%R) by (rewrite nsq_eq; unfold nsq; cbn; unfold fone; cbn; ring). rewrite N1 in H.
  assert (K : rsum (fun _ => 1) N = INR N). { clear. induction N as [|n IH]; [reflexivity|]. rewrite rsum_S, IH, S_INR. reflexivity. }
  rewrite K in H. apply (Rmult_le_reg_r (INR N)); [exact NN|]. lra.
Qed.

Lemma steps_closer : forall T l lo lr, linear d m l -> linear d m lo -> still lo -> 0 <= mu -> 0 < lr -> lr * sizes_of p feat pts <= INR N ->
  exists l', train_steps ROps p (net l) (repeat (batch pts, MeanSquare, mkC lr 0) T) = Ret (net l') /\ linear d m l' /\ dist_sq l' lo <= (1 - lr * mu) ^ T * dist_sq l lo.
Proof.
  intros T l lo lr L LO S0 M0 LR SM. pose proof N_pos as NN. pose proof mu_le as M1. pose proof sizes_ge as SG.
  assert (L1 : lr <= 1). { apply (Rmult_le_reg_r (INR N)); [exact NN|]. apply (Rmult_le_compat_l lr) in SG; lra. }
  assert (K : 0 <= 1 - lr * mu) by nra. revert l L. induction T as [|T IH]; intros l L.
  - exists l. split; [reflexivity|]. split; [exact L|]. cbn. lra.
  - destruct (step_closer l lo lr L LO S0 LR SM) as (l1 & E1 & L1' & C1). destruct (IH l1 L1') as (l' & E & L' & C). exists l'. split; [cbn [repeat train_steps]; rewrite E1; exact E|]. split; [exact L'|].
    eapply Rle_trans; [exact C|]. rewrite <- tech_pow_Rmult, (Rmult_comm (1 - lr * mu)), Rmult_assoc. apply Rmult_le_compat_l; [apply pow_le; exact K|].
    pose proof (gap_ge l lo L LO) as G. assert (lr / INR N * (mu * dist_sq l lo * INR N) <= lr / INR N * gap l lo) by (apply Rmult_le_compat_l; [apply Rlt_le, Rdiv_lt_0_compat; assumption | exact G]).
    replace (lr / INR N * (mu * dist_sq l lo * INR N)) with (lr * mu * dist_sq l lo) in H by (field; lra). lra.
Qed.
End Net.
