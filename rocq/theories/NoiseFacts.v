(** * Disturbed training steps, and the weight of one example *)
From Coq Require Import Reals Lra Psatz.
From Verif Require Import Base BaseFacts Float Matrix Cplx Random Act Input Loss Dense Conv Layer Dataset Network SpecMatrix RFloat CFacts SpecLayer SpecConv SpecNet SpecLoss LossFacts LayerCalc PropTrain TrainLaws PropLaws PropNet
  SpecGeom SpecDead SpecFit FitFacts FitNet PropFit SpecOnline OnlineFacts SpecGeometric GeometricFacts GeometricEx SpecRuns RunsFacts RunsEx SpecNoise.
Local Open Scope R_scope.

(** ** The triangle inequality *)
Lemma nsq_split : forall (s : R) (a b : RC), 0 < s -> nsq (a + b)%RC <= (1 + s) * nsq a + (1 + / s) * nsq b.
Proof.
  intros s [a1 a2] [b1 b2] S. unfold nsq. cbn. change (F ROps) with R in *.
  assert (G : forall a b : R, (a + b) * (a + b) <= (1 + s) * (a * a) + (1 + / s) * (b * b)).
  { intros a b. assert (H : 0 <= / s * ((s * a - b) * (s * a - b))) by (apply Rmult_le_pos; [apply Rlt_le, Rinv_0_lt_compat; exact S | apply Rle_0_sqr]).
    replace (/ s * ((s * a - b) * (s * a - b))) with (s * (a * a) - 2 * a * b + / s * (b * b)) in H by (field; lra). lra. }
  pose proof (G a1 b1). pose proof (G a2 b2). lra.
Qed.

Lemma split_root : forall A x y, 0 <= x -> 0 <= y -> (forall s, 0 < s -> A <= (1 + s) * (x * x) + (1 + / s) * (y * y)) -> A <= (x + y) * (x + y).
Proof.
  intros A x y X Y H. destruct (Rle_lt_dec A ((x + y) * (x + y))) as [G|G]; [exact G|exfalso].
  destruct (Rle_lt_or_eq_dec 0 x X) as [PX|<-]; [destruct (Rle_lt_or_eq_dec 0 y Y) as [PY|<-]|].
  - specialize (H (y / x) (Rdiv_lt_0_compat _ _ PY PX)). replace ((1 + y / x) * (x * x) + (1 + / (y / x)) * (y * y)) with ((x + y) * (x + y)) in H by (field; lra). lra.
  - assert (XX : 0 < x * x) by (apply Rmult_lt_0_compat; assumption). specialize (H ((A - x * x) / (2 * (x * x)))). rewrite !Rplus_0_r in G.
    assert (0 < (A - x * x) / (2 * (x * x))) as P by (apply Rdiv_lt_0_compat; lra). specialize (H P).
    replace ((1 + (A - x * x) / (2 * (x * x))) * (x * x)) with ((A + x * x) / 2) in H by (field; lra). rewrite !Rmult_0_r in H. lra.
  - rewrite !Rplus_0_l in G. destruct (Rle_lt_or_eq_dec 0 y Y) as [PY|<-].
    + assert (YY : 0 < y * y) by (apply Rmult_lt_0_compat; assumption). specialize (H (2 * (y * y) / (A - y * y))).
      assert (0 < 2 * (y * y) / (A - y * y)) as P by (apply Rdiv_lt_0_compat; lra). specialize (H P).
      replace ((1 + / (2 * (y * y) / (A - y * y))) * (y * y)) with ((A + y * y) / 2) in H by (field; lra). rewrite !Rmult_0_r in H. lra.
    + specialize (H 1 Rlt_0_1). lra.
Qed.

Definition len (m d : nat) (f : nat -> nat -> RC) : R := sqrt (rsum (fun i => rsum (fun j => nsq (f i j)) d) m).
Lemma len_sq_nonneg : forall m d (f : nat -> nat -> RC), 0 <= rsum (fun i => rsum (fun j => nsq (f i j)) d) m.
Proof. intros. apply rsum_nonneg. intros. apply rsum_nonneg. intros. apply nsq_nonneg. Qed.
Lemma len_add : forall m d (f h : nat -> nat -> RC), len m d (fun i j => f i j + h i j)%RC <= len m d f + len m d h.
Proof.
  intros m d f h. unfold len. set (A := rsum (fun i => rsum (fun j => nsq (f i j)) d) m). set (B := rsum (fun i => rsum (fun j => nsq (h i j)) d) m).
  assert (A0 : 0 <= A) by apply len_sq_nonneg. assert (B0 : 0 <= B) by apply len_sq_nonneg. pose proof (sqrt_pos A) as SA. pose proof (sqrt_pos B) as SB.
  rewrite <- (sqrt_square (sqrt A + sqrt B)) by lra. apply sqrt_le_1_alt. apply split_root; [exact SA | exact SB|]. intros s S. rewrite !sqrt_sqrt by assumption.
  unfold A, B. rewrite <- !rsum_scal, <- rsum_plus. apply rsum_le. intros i _. rewrite <- !rsum_scal, <- rsum_plus. apply rsum_le. intros j _. apply nsq_split. exact S.
Qed.
Lemma len_ext : forall m d (f h : nat -> nat -> RC), (forall i j, (i < m)%nat -> (j < d)%nat -> f i j = h i j) -> len m d f = len m d h.
Proof. intros m d f h H. unfold len. f_equal. apply rsum_ext. intros i Hi. apply rsum_ext. intros j Hj. now rewrite H. Qed.
Lemma len_opp : forall m d (f : nat -> nat -> RC), len m d (fun i j => 0 - f i j)%RC = len m d f.
Proof. intros. unfold len. f_equal. apply rsum_ext. intros i _. apply rsum_ext. intros j _. generalize (f i j). intros [a b]. unfold nsq. cbn. unfold fzero. cbn. ring. Qed.
Lemma len_scale : forall m d (c : R) (f : nat -> nat -> RC), 0 <= c -> len m d (fun i j => mkC c 0%R * f i j)%RC = c * len m d f.
Proof.
  intros m d c f C. unfold len. rewrite (rsum_ext _ (fun i => c * c * rsum (fun j => nsq (f i j)) d)).
  2: { intros i _. rewrite <- rsum_scal. apply rsum_ext. intros j _. generalize (f i j). intros [a b]. unfold nsq. cbn. ring. }
  rewrite rsum_scal, sqrt_mult_alt by (apply Rmult_le_pos; exact C). now rewrite sqrt_square.
Qed.
Lemma len_outer : forall m d (a b : nat -> RC), len m d (fun i j => a i * conj (b j))%RC = sqrt (rsum (fun i => nsq (a i)) m * rsum (fun j => nsq (b j)) d).
Proof.
  intros m d a b. unfold len. f_equal. rewrite (rsum_ext _ (fun i => rsum (fun j => nsq (b j)) d * nsq (a i))); [rewrite rsum_scal; ring|].
  intros i _. rewrite Rmult_comm, <- rsum_scal. apply rsum_ext. intros j _. generalize (a i) (b j). intros [a1 a2] [b1 b2]. unfold nsq. cbn. ring.
Qed.

Section Dist.
Context (d m : nat).
Lemma dist_len : forall l k, linear d m l -> dist l k = len m (S d) (fun i j => wt d l i j - wt d k i j)%RC.
Proof. intros l k L. unfold dist, len. now rewrite (dist_wt d m). Qed.
Lemma dist_tri : forall a b c, linear d m a -> linear d m b -> dist a c <= dist a b + dist b c.
Proof.
  intros a b c A B. rewrite !dist_len by assumption.
  rewrite (len_ext m (S d) (fun i j => wt d a i j - wt d c i j)%RC (fun i j => (wt d a i j - wt d b i j) + (wt d b i j - wt d c i j))%RC) by (intros; ring). apply len_add.
Qed.
End Dist.

Lemma dist_pos : forall l k, 0 <= dist l k.
Proof. intros. apply sqrt_pos. Qed.
Lemma dist_sq_dist : forall l k, dist l k * dist l k = dist_sq l k.
Proof. intros. unfold dist. apply sqrt_sqrt. apply dist_nonneg. Qed.

Lemma carried_mono : forall bs a b, a <= b -> carried a bs <= carried b bs.
Proof.
  induction bs as [|(((pts, lr), mu), e) bs IH]; intros a b H; [exact H|]. cbn [carried]. apply IH. pose proof (sqrt_pos (1 - lr * mu)). nra.
Qed.

Section Net.
Context (p : prec) (feat : network ROps) (g : geometry) (d m : nat).
Context (FN : feat <> []) (FP : Forall no_params feat) (FF : fit_all ROps feat g (Vec d)) (FT : Forall (trainable ROps) feat).
Local Notation net l := (feat ++ [LDense l]).

Lemma step_same : forall l pts lr a b, net_gradient_opt ROps p (net l) (batch pts) MeanSquare (mkC lr 0) = Ret (net a, Ok tt) ->
  net_gradient_opt ROps p (net l) (batch pts) MeanSquare (mkC lr 0) = Ret (net b, Ok tt) -> a = b.
Proof. intros l pts lr a b EA EB. rewrite EA in EB. injection EB as EB. apply app_inj_tail in EB as (_ & EB). now injection EB. Qed.

Lemma two_steps_root : forall pts l k lr mu, linear d m l -> linear d m k -> pts <> [] -> (forall it, In it pts -> point_ok g m it) -> 0 < lr -> lr * sizes_of p feat pts <= INR (length pts) ->
  spread p feat d pts mu ->
  exists l' k', net_gradient_opt ROps p (net l) (batch pts) MeanSquare (mkC lr 0) = Ret (net l', Ok tt) /\ net_gradient_opt ROps p (net k) (batch pts) MeanSquare (mkC lr 0) = Ret (net k', Ok tt) /\
    linear d m l' /\ linear d m k' /\ 0 <= 1 - lr * mu /\ dist l' k' <= sqrt (1 - lr * mu) * dist l k.
Proof.
  intros pts l k lr mu L K NP OK LR SM SP. destruct (two_steps p feat g d m FN FP FF FT pts l k lr mu L K NP OK LR SM SP) as (l' & k' & EL & EK & L' & K' & C).
  exists l', k'. split; [exact EL|]. split; [exact EK|]. split; [exact L'|]. split; [exact K'|].
  pose proof (N_pos pts NP) as NN. pose proof (mu_le p feat g d m FN FP FF FT pts NP OK mu SP) as M1. pose proof (sizes_ge p feat g d m FN FP FF FT pts OK) as SG.
  assert (LL : lr <= 1). { apply (Rmult_le_reg_r (INR (length pts))); [exact NN|]. apply (Rmult_le_compat_l lr) in SG; lra. }
  assert (K0 : 0 <= 1 - lr * mu) by nra. split; [exact K0|]. unfold dist. rewrite <- sqrt_mult_alt by exact K0. apply sqrt_le_1_alt. exact C.
Qed.

Lemma noisy : forall bs l k l', linear d m l -> linear d m k ->
  (forall pts lr mu e, In (pts, lr, mu, e) bs -> pts <> [] /\ 0 < lr /\ lr * sizes_of p feat pts <= INR (length pts) /\ spread p feat d pts mu /\
     (forall x t, In (x, t) pts -> has_geom g x /\ exists v, t = IOScalar v /\ length v = m)) ->
  disturbed p feat d m l bs l' ->
  exists k', train_steps ROps p (net k) (steps_of bs) = Ret (net k') /\ linear d m k' /\ linear d m l' /\ dist l' k' <= carried (dist l k) bs.
Proof.
  intros bs l k l' L K H DI. revert k L K H. induction DI as [l | l l1 l2 l' pts lr mu e bs E L2 D2 DI IH]; intros k L K H.
  - exists k. split; [reflexivity|]. split; [exact K|]. split; [exact L | apply Rle_refl].
  - destruct (H pts lr mu e (or_introl eq_refl)) as (NP & LR & SM & SP & OK). pose proof (ok_points g m pts OK) as OK'.
    destruct (two_steps_root pts l k lr mu L K NP OK' LR SM SP) as (l1' & k1 & EL & EK & L1 & K1 & _ & C). pose proof (step_same l pts lr l1 l1' E EL) as <-.
    destruct (IH k1 L2 K1 (fun a b c f h => H a b c f (or_intror h))) as (k' & EK' & K' & L' & C').
    exists k'. split; [unfold steps_of in *; cbn [map train_steps fst snd]; rewrite EK; exact EK'|]. split; [exact K'|]. split; [exact L'|].
    eapply Rle_trans; [exact C'|]. cbn [carried]. apply carried_mono. pose proof (dist_tri d m l2 l1 k1 L2 L1). lra.
Qed.

(** ** One example replaced *)
Definition uf (x : IOType RC) (j : nat) : RC := if (j <? d)%nat then nth j (fv p feat x) 0%RC else 1%RC.
Lemma uf_size : forall x, has_geom g x -> rsum (fun j => nsq (uf x j)) (S d) = size_of p feat x.
Proof.
  intros x X. destruct (feat_trace p feat g d FN FP FF FT x X) as (_ & _ & LV & _ & E). unfold size_of. rewrite E, LV. rewrite rsum_S. unfold uf at 2. rewrite Nat.ltb_irrefl. rewrite Rplus_comm.
  f_equal; [unfold nsq; cbn; unfold fone; cbn; ring|]. apply rsum_ext. intros j Hj. unfold uf. rewrite (proj2 (Nat.ltb_lt j d) Hj). reflexivity.
Qed.
Lemma pull_eq : forall l it, linear d m l -> point_ok g m it -> pull p feat l it = len m (S d) (fun i j => ue p feat l i it * conj (uf (fst it) j))%RC.
Proof.
  intros l [x t] L (X & v & EV & LV). cbn [fst snd] in *. subst t. rewrite len_outer, uf_size by exact X. unfold pull. cbn [fst snd].
  assert (FW : net_forward ROps p (net l) x = Ret (Ok (IOScalar (map (pre ROps l (fv p feat x)) (seq 0 m))))).
  { destruct (net_trace p feat g d m FN FP FF FT l x L X) as (u & _ & T). rewrite (fwd_trace p (net l) x _ ltac:(destruct feat; discriminate) T).
    change (u ++ [IOScalar (fv p feat x); IOScalar (map (pre ROps l (fv p feat x)) (seq 0 m))]) with (u ++ ([@IOScalar RC (fv p feat x)] ++ [IOScalar (map (pre ROps l (fv p feat x)) (seq 0 m))])).
    now rewrite app_assoc, last_last. }
  rewrite FW, LV. do 2 f_equal. apply rsum_ext. intros i Hi. rewrite nth_map_seq by exact Hi. rewrite nsq_eq. reflexivity.
Qed.

Lemma step_wt : forall l pts (lr : R), linear d m l -> pts <> [] -> (forall it, In it pts -> point_ok g m it) ->
  exists l', net_gradient_opt ROps p (net l) (batch pts) MeanSquare (mkC lr 0) = Ret (net l', Ok tt) /\ linear d m l' /\
    forall i j, (i < m)%nat -> (j < S d)%nat -> wt d l' i j = (wt d l i j - mkC (lr / INR (length pts)) 0%R * lsum (map (fun it => ue p feat l i it * conj (uf (fst it) j)) pts))%RC.
Proof.
  intros l pts lr L NP OK. destruct (lin_step p feat g d m FN FP FF FT l pts lr L NP OK) as (l' & E & L' & V). cbv zeta in V. destruct V as (VW & VB).
  exists l'. split; [exact E|]. split; [exact L'|]. intros i j Hi Hj. unfold wt, uf. destruct (Nat.ltb_spec j d) as [H|H]; [now apply VW|].
  rewrite VB by exact Hi. do 3 f_equal. apply map_ext. intros it. assert (conj 1%RC = 1%RC) as -> by (apply c_ext; cbn; unfold fzero; cbn; ring). ring.
Qed.

Lemma replaced : forall a b it it' l (lr : R), linear d m l -> (forall i, In i (a ++ it :: b) -> point_ok g m i) -> point_ok g m it' -> 0 <= lr ->
  exists l1 l2, net_gradient_opt ROps p (net l) (batch (a ++ it :: b)) MeanSquare (mkC lr 0) = Ret (net l1, Ok tt) /\
    net_gradient_opt ROps p (net l) (batch (a ++ it' :: b)) MeanSquare (mkC lr 0) = Ret (net l2, Ok tt) /\ linear d m l1 /\ linear d m l2 /\
    dist l2 l1 <= lr / INR (length (a ++ it :: b)) * (pull p feat l it + pull p feat l it').
Proof.
  intros a b it it' l lr L OK OK' LR.
  assert (OK2 : forall i, In i (a ++ it' :: b) -> point_ok g m i).
  { intros i I. apply in_app_or in I as [I|[<-|I]]; [apply OK, in_or_app; now left | exact OK' | apply OK, in_or_app; right; now right]. }
  destruct (step_wt l (a ++ it :: b) lr L ltac:(destruct a; discriminate) OK) as (l1 & E1 & L1 & V1). destruct (step_wt l (a ++ it' :: b) lr L ltac:(destruct a; discriminate) OK2) as (l2 & E2 & L2 & V2).
  exists l1, l2. split; [exact E1|]. split; [exact E2|]. split; [exact L1|]. split; [exact L2|].
  assert (OI : point_ok g m it) by (apply OK, in_or_app; right; now left). rewrite !pull_eq by assumption. rewrite (dist_len d m) by exact L2.
  assert (LE : length (a ++ it' :: b) = length (a ++ it :: b)) by (rewrite !app_length; reflexivity). rewrite LE in V2. set (c := lr / INR (length (a ++ it :: b))) in *.
  assert (C : 0 <= c). { unfold c. apply Rmult_le_pos; [exact LR|]. apply Rlt_le, Rinv_0_lt_compat, lt_0_INR. rewrite app_length. cbn. lia. }
  rewrite <- (len_opp m (S d) (fun i j => ue p feat l i it' * conj (uf (fst it') j))%RC).
  eapply Rle_trans; [|apply Rmult_le_compat_l; [exact C | apply len_add]]. rewrite <- len_scale by exact C. apply Req_le. apply len_ext. intros i j Hi Hj.
  rewrite V1, V2 by assumption. rewrite !map_app, !lsum_app. cbn [map lsum fold_right]. set (u := fold_right _ _ _). ring.
Qed.

Lemma replaced_runs : forall a b it it' lr mu B T l k, linear d m l -> linear d m k -> 0 < lr -> lr * sizes_of p feat (a ++ it :: b) <= INR (length (a ++ it :: b)) ->
  spread p feat d (a ++ it :: b) mu -> (forall i, In i (a ++ it :: b) -> point_ok g m i) -> point_ok g m it' -> 0 <= B ->
  (forall t n h, (t < T)%nat -> train_steps ROps p (net k) (repeat (batch (a ++ it' :: b), MeanSquare, mkC lr 0) t) = Ret n -> n = net h -> pull p feat h it + pull p feat h it' <= B) ->
  let N := INR (length (a ++ it :: b)) in
  exists l' k', train_steps ROps p (net l) (repeat (batch (a ++ it :: b), MeanSquare, mkC lr 0) T) = Ret (net l') /\
    train_steps ROps p (net k) (repeat (batch (a ++ it' :: b), MeanSquare, mkC lr 0) T) = Ret (net k') /\ linear d m l' /\ linear d m k' /\
    dist l' k' <= carried (dist l k) (repeat (a ++ it :: b, lr, mu, lr / N * B) T).
Proof.
  intros a b it it' lr mu B T l k L K LR SM SP OK OK' B0 H N. revert l k L K H. induction T as [|T IH]; intros l k L K H.
  - exists l, k. split; [reflexivity|]. split; [reflexivity|]. split; [exact L|]. split; [exact K|]. apply Rle_refl.
  - destruct (two_steps_root (a ++ it :: b) l k lr mu L K ltac:(destruct a; discriminate) OK LR SM SP) as (l1 & k0 & E1 & E0 & L1 & K0 & _ & C).
    destruct (replaced a b it it' k lr K OK OK' (Rlt_le _ _ LR)) as (k0' & k1 & E0' & E2 & _ & K1 & C1). pose proof (step_same _ _ _ _ _ E0 E0') as <-.
    destruct (IH l1 k1 L1 K1) as (l' & k' & EL & EK & L' & K' & C').
    { intros t n h LT TR EN. apply (H (S t) n h ltac:(lia)); [|exact EN]. cbn [repeat train_steps]. rewrite E2. exact TR. }
    exists l', k'. split; [cbn [repeat train_steps]; rewrite E1; exact EL|]. split; [cbn [repeat train_steps]; rewrite E2; exact EK|]. split; [exact L'|]. split; [exact K'|].
    eapply Rle_trans; [exact C'|]. cbn [repeat carried]. apply carried_mono.
    pose proof (dist_tri d m l1 k0 k1 L1 K0) as TR. assert (SY : dist k0 k1 = dist k1 k0).
    { rewrite !(dist_len d m) by assumption. unfold len. f_equal. apply rsum_ext. intros i _. apply rsum_ext. intros j _. apply nsq_sym. }
    specialize (H 0%nat (net k) k ltac:(lia) eq_refl eq_refl). assert (NN : 0 < N) by (unfold N; apply lt_0_INR; rewrite app_length; cbn; lia).
    assert (Q : lr / N * (pull p feat k it + pull p feat k it') <= lr / N * B) by (apply Rmult_le_compat_l; [apply Rlt_le, Rdiv_lt_0_compat; assumption | exact H]). fold N in C1. lra.
Qed.
End Net.

(** ** The same disturbance over and over *)
Lemma carried_repeat : forall pts lr mu e T a, 0 <= e -> sqrt (1 - lr * mu) < 1 ->
  carried a (repeat (pts, lr, mu, e) T) <= sqrt (1 - lr * mu) ^ T * a + e / (1 - sqrt (1 - lr * mu)).
Proof.
  intros pts lr mu e T a E Q. set (q := sqrt (1 - lr * mu)) in *. pose proof (sqrt_pos (1 - lr * mu)) as Q0. fold q in Q0. revert a. induction T as [|T IH]; intros a.
  - cbn. assert (0 <= e / (1 - q)) by (apply Rmult_le_pos; [exact E | apply Rlt_le, Rinv_0_lt_compat; lra]). lra.
  - cbn [repeat carried]. fold q.
    assert (G : forall T b c, carried (b + c) (repeat (pts, lr, mu, e) T) <= carried b (repeat (pts, lr, mu, e) T) + q ^ T * c).
    { clear. intros T. induction T as [|T IH]; intros b c; [cbn; lra|]. cbn [repeat carried]. fold q. replace (q * (b + c) + e) with (q * b + e + q * c) by ring. eapply Rle_trans; [apply IH|].
      cbn [pow]. lra. }
    assert (F0 : forall T, carried 0 (repeat (pts, lr, mu, e) T) <= e / (1 - q) * (1 - q ^ T)).
    { clear a IH T. intros T. induction T as [|T IH]; [cbn; lra|]. cbn [repeat carried]. fold q. replace (q * 0 + e) with (0 + e) by ring. eapply Rle_trans; [apply G|].
      eapply Rle_trans; [apply Rplus_le_compat_r; exact IH|]. apply Req_le. cbn [pow]. field. lra. }
    pose proof (G (S T) 0 a) as H. rewrite Rplus_0_l in H. cbn [repeat carried] in H. fold q in H. specialize (F0 (S T)). cbn [repeat carried] in F0. fold q in F0.
    assert (P : 0 <= q ^ S T) by (apply pow_le; exact Q0). assert (W : 0 <= e / (1 - q)) by (apply Rmult_le_pos; [exact E | apply Rlt_le, Rinv_0_lt_compat; lra]).
    assert (0 <= e / (1 - q) * q ^ S T) by (apply Rmult_le_pos; assumption). lra.
Qed.
Lemma root_gap : forall z, 0 < z <= 1 -> sqrt (1 - z) < 1 /\ z / 2 <= 1 - sqrt (1 - z).
Proof.
  intros z Z. pose proof (sqrt_pos (1 - z)) as P. pose proof (sqrt_sqrt (1 - z) ltac:(lra)) as S. set (q := sqrt (1 - z)) in *. split; nra.
Qed.
Lemma carried_flat : forall bs a, (forall b, In b bs -> snd (fst b) = 0) -> carried a bs = a + total_noise bs.
Proof.
  induction bs as [|(((pts, lr), mu), e) bs IH]; intros a H; cbn [carried total_noise fold_right]; [ring|]. fold (total_noise bs).
  pose proof (H _ (or_introl eq_refl)) as M. cbn [fst snd] in *. subst mu. rewrite IH by (intros; apply H; now right). rewrite Rmult_0_r, Rminus_0_r, sqrt_1. ring.
Qed.
