(** * Facts about a change of basis of the input space *)
From Coq Require Import Reals Lra Psatz.
From Verif Require Import Base BaseFacts Float Matrix Cplx Random Act Input Loss Dense Conv Layer Dataset Network SpecMatrix MatrixFacts
  SpecLayer SpecConv SpecNet SpecEval DenseFacts ConvFacts LayerFacts NetFacts TrainFacts TrainDense TrainLaws PropDense GradFacts GradFacts2 NanFacts
  SpecDead DeadFacts PropTrain TwinFacts PermFacts RFloat LossFacts CFacts SpecBasis.
Local Open Scope nat_scope.

(** ** The Fourier transform *)
Definition cis (t : R) : RC := mkC (cos t) (sin t).
Lemma cis_add : forall a b, cis (a + b) = (cis a * cis b)%RC.
Proof. intros a b. unfold cis. rewrite cos_plus, sin_plus. apply c_ext; cbn; ring. Qed.
Lemma cis_sum : forall t n, ((cis t - 1) * csum (fun i => cis (INR i * t)%R) n)%RC = (cis (INR n * t)%R - 1)%RC.
Proof.
  intros t n. induction n as [|n IH].
  - rewrite csum_0. cbn [INR]. rewrite Rmult_0_l. unfold cis. rewrite cos_0, sin_0. apply c_ext; cbn; ring.
  - rewrite csum_S. rewrite S_INR, Rmult_plus_distr_r, Rmult_1_l, cis_add.
    transitivity ((cis t - 1) * csum (fun i => cis (INR i * t)%R) n + (cis t - 1) * cis (INR n * t)%R)%RC; [ring|]. rewrite IH. ring.
Qed.
Lemma c_domain : forall a b : RC, a <> 0%RC -> (a * b)%RC = 0%RC -> b = 0%RC.
Proof.
  intros [x y] [u v] NA E. injection E as E1 E2. cbn in E1, E2.
  assert (P : (0 < x * x + y * y)%R).
  { assert (K : (x <> 0 \/ y <> 0)%R) by (destruct (Req_dec x 0) as [->|]; [destruct (Req_dec y 0) as [->|]; [exfalso; now apply NA|]|]; auto). destruct K as [K|K]; pose proof (Rsqr_pos_lt _ K) as S; unfold Rsqr in S; nra. }
  change (x * u - y * v = 0)%R in E1. change (x * v + y * u = 0)%R in E2.
  assert (U : ((x * x + y * y) * u = 0)%R) by (replace ((x * x + y * y) * u)%R with (x * (x * u - y * v) + y * (x * v + y * u))%R by ring; rewrite E1, E2; ring).
  assert (V : ((x * x + y * y) * v = 0)%R) by (replace ((x * x + y * y) * v)%R with (x * (x * v + y * u) - y * (x * u - y * v))%R by ring; rewrite E1, E2; ring).
  apply Rmult_integral in U. apply Rmult_integral in V. apply c_ext; cbn [re im c_default]; change (fzero ROps) with 0%R; [destruct U as [U|U] | destruct V as [V|V]]; try lra; assumption.
Qed.
Lemma cis_turn : forall k, cis (2 * PI * IZR k) = 1%RC.
Proof.
  assert (N : forall n : nat, cis (2 * PI * INR n) = 1%RC).
  { intros n. unfold cis. replace (2 * PI * INR n)%R with (0 + 2 * INR n * PI)%R by ring. rewrite cos_period, sin_period, cos_0, sin_0. reflexivity. }
  intros k. destruct (Z.le_gt_cases 0 k) as [H|H].
  - rewrite <- (Z2Nat.id k) by exact H. rewrite <- INR_IZR_INZ. apply N.
  - specialize (N (Z.to_nat (- k))). rewrite INR_IZR_INZ, Z2Nat.id in N by lia. unfold cis in *. rewrite opp_IZR in N.
    replace (2 * PI * - IZR k)%R with (- (2 * PI * IZR k))%R in N by ring. rewrite cos_neg, sin_neg in N. injection N as N1 N2. apply c_ext; cbn in *; [exact N1 | lra].
Qed.
Lemma cis_not_one : forall t, (0 < t < 2 * PI)%R -> cis t <> 1%RC.
Proof.
  intros t (T1 & T2) E. injection E as E1 E2. change (cos t = 1)%R in E1. change (sin t = 0)%R in E2.
  destruct (Rtotal_order t PI) as [H|[->|H]].
  - pose proof (sin_gt_0 t T1 H). lra.
  - rewrite cos_PI in E1. lra.
  - pose proof (sin_lt_0 t H T2). lra.
Qed.
Lemma cis_conj : forall t, conj (cis t) = cis (- t).
Proof. intros t. unfold cis. rewrite cos_neg, sin_neg. reflexivity. Qed.

Lemma fourier_unitary : forall N, N <> 0 -> unitary N (fourier N).
Proof.
  intros N NZ j k Hj Hk. assert (NP : (0 < INR N)%R) by (apply lt_0_INR; lia). assert (SQ : (sqrt (INR N) * sqrt (INR N) = INR N)%R) by (apply sqrt_sqrt; lra).
  assert (SP : (0 < sqrt (INR N))%R) by (apply sqrt_lt_R0; exact NP).
  set (t := (2 * PI * (INR j - INR k) / INR N)%R).
  assert (T : forall i, (conj (fourier N i j) * fourier N i k)%RC = (mkC (/ INR N)%R 0%R * cis (INR i * t))%RC).
  { intros i. replace (INR i * t)%R with (2 * PI * INR (i * j) / INR N + - (2 * PI * INR (i * k) / INR N))%R by (unfold t; rewrite !mult_INR; field; lra).
    rewrite cis_add. unfold fourier, cis. rewrite cos_neg, sin_neg. generalize (2 * PI * INR (i * j) / INR N)%R, (2 * PI * INR (i * k) / INR N)%R. intros a b.
    replace (/ INR N)%R with (/ (sqrt (INR N) * sqrt (INR N)))%R by (now rewrite SQ). revert SP. generalize (sqrt (INR N)). intros r SP. apply c_ext; cbn; field; lra. }
  rewrite (csum_ext _ (fun i => mkC (/ INR N)%R 0%R * cis (INR i * t))%RC) by (intros i _; apply T). rewrite csum_mul_l.
  destruct (Nat.eqb_spec j k) as [->|ND].
  - assert (t = 0%R) as -> by (unfold t; rewrite Rminus_eq_0; field; lra).
    assert (S1 : forall n, csum (fun i => cis (INR i * 0)%R) n = mkC (INR n) 0%R).
    { induction n as [|n IH]; [reflexivity|]. rewrite csum_S, IH, Rmult_0_r, S_INR. unfold cis. rewrite cos_0, sin_0. apply c_ext; cbn; ring. }
    rewrite S1. apply c_ext; cbn; field; lra.
  - assert (Z0 : csum (fun i => cis (INR i * t)%R) N = 0%RC).
    { apply (c_domain (cis t - 1)%RC).
      - assert (C1 : cis t <> 1%RC).
        { assert (B : forall a b : nat, a < b -> b < N -> (0 < 2 * PI * (INR b - INR a) / INR N < 2 * PI)%R).
          { intros a b H1 H2. apply lt_INR in H1. apply lt_INR in H2. pose proof (pos_INR a). pose proof PI_RGT_0 as PP.
            assert (Q : (0 < (INR b - INR a) / INR N < 1)%R) by (split; [apply Rdiv_lt_0_compat; lra | apply Rmult_lt_reg_r with (INR N); [exact NP|]; unfold Rdiv; rewrite Rmult_assoc, Rinv_l by lra; lra]).
            unfold Rdiv in *. rewrite Rmult_assoc. destruct Q. split; nra. }
          destruct (Nat.lt_ge_cases k j) as [H|H].
          - apply cis_not_one. apply B; assumption.
          - intros E. apply (cis_not_one (- t)); [|rewrite <- cis_conj, E; apply c_ext; cbn; ring].
            replace (- t)%R with (2 * PI * (INR k - INR j) / INR N)%R by (unfold t; field; lra). apply B; lia. }
        intros E. apply C1. transitivity ((cis t - 1) + 1)%RC; [ring|]. rewrite E. ring.
      - rewrite cis_sum. replace (INR N * t)%R with (2 * PI * IZR (Z.of_nat j - Z.of_nat k))%R by (unfold t; rewrite minus_IZR, <- !INR_IZR_INZ; field; lra).
        rewrite cis_turn. ring. }
    rewrite Z0. ring.
Qed.

(** ** Tables *)
(** The rows of [a'] are [V] times the rows of [a]. *)
Definition lin (r c : nat) (V : nat -> nat -> RC) (a a' : list RC) : Prop :=
  length a = r * c /\ length a' = r * c /\ forall o i, o < r -> i < c -> nth (o * c + i) a' 0%RC = csum (fun j => V i j * nth (o * c + j) a 0)%RC c.

Lemma nth_zip : forall (f : RC -> RC -> RC) (a b : list RC) j, j < length a -> length b = length a -> nth j (zip_assign f a b) 0%RC = f (nth j a 0%RC) (nth j b 0%RC).
Proof.
  intros f a b j Ha L. apply nth_error_nth. rewrite nth_error_zip_assign, (nth_error_nth' a 0%RC Ha), (nth_error_nth' b 0%RC) by lia. reflexivity.
Qed.

Lemma lin_add : forall r c V a a' b b' d, lin r c V a a' -> lin r c V b b' -> unwrap (add_slice_mut (cops ROps) a b) = Ret d ->
  exists d', unwrap (add_slice_mut (cops ROps) a' b') = Ret d' /\ lin r c V d d'.
Proof.
  intros r c V a a' b b' d (A1 & A2 & A3) (B1 & B2 & B3) E. unfold add_slice_mut in *.
  rewrite A1, B1, Nat.eqb_refl in E. rewrite A2, B2, Nat.eqb_refl. cbn [negb unwrap] in *. eexists. split; [reflexivity|].
  change (add_assign (cops ROps)) with (c_add ROps) in *. assert (EC : zip_assign (c_add ROps) a b = d) by congruence. subst d.
  split; [now rewrite zip_assign_length|]. split; [now rewrite zip_assign_length|]. intros o i Ho Hi.
  assert (o * c + i < r * c) by nia. rewrite nth_zip by lia. rewrite A3, B3 by assumption. rewrite <- csum_add. apply csum_ext. intros j Hj. assert (o * c + j < r * c) by nia. rewrite nth_zip by lia. ring.
Qed.

Lemma lin_zero : forall r c V, lin r c V (repeat 0%RC (r * c)) (repeat 0%RC (r * c)).
Proof.
  intros r c V. split; [apply repeat_length|]. split; [apply repeat_length|]. intros o i Ho Hi. assert (Z : forall q, nth q (repeat (0%RC : RC) (r * c)) 0%RC = 0%RC).
  { intros q. destruct (Nat.lt_ge_cases q (r * c)) as [H|H]; [apply (repeat_spec (r * c)), nth_In; rewrite repeat_length; exact H | apply nth_overflow; rewrite repeat_length; exact H]. }
  rewrite Z. symmetry. apply csum_zero. intros j _. rewrite Z. ring.
Qed.

(** The update with a real scale: the weights follow the conjugate table. *)
Lemma lin_update : forall r c V (s : R) w w' d d', lin r c (fun i j => conj (V i j)) w w' -> lin r c V d d' ->
  lin r c (fun i j => conj (V i j)) (zip_assign (sub_conj ROps) w (map (fun e => c_mul_assign ROps e (mkC s 0%R)) d)) (zip_assign (sub_conj ROps) w' (map (fun e => c_mul_assign ROps e (mkC s 0%R)) d')).
Proof.
  intros r c V s w w' d d' (A1 & A2 & A3) (B1 & B2 & B3). split; [now rewrite zip_assign_length|]. split; [now rewrite zip_assign_length|]. intros o i Ho Hi.
  assert (N : forall (u e : list RC) q, length u = r * c -> length e = r * c -> q < r * c ->
     nth q (zip_assign (sub_conj ROps) u (map (fun e => c_mul_assign ROps e (mkC s 0%R)) e)) 0%RC = (nth q u 0 - mkC s 0%R * conj (nth q e 0))%RC).
  { intros u e q Lu Le Hq. rewrite nth_zip by (rewrite ?map_length; lia). 
    assert (M : nth q (map (fun e => c_mul_assign ROps e (mkC s 0%R)) e) 0%RC = c_mul_assign ROps (nth q e 0%RC) (mkC s 0%R)).
    { apply nth_error_nth. rewrite nth_error_map, (nth_error_nth' e 0%RC) by lia. reflexivity. }
    rewrite M. clear M. destruct (nth q e 0%RC) as [x y]. unfold sub_conj, c_mul_assign, c_sub_assign. apply c_ext; cbn; ring. }
  rewrite N by nia. rewrite A3, B3 by assumption. rewrite csum_conj, <- csum_mul_l, <- csum_sub. apply csum_ext. intros j Hj. rewrite N by nia. rewrite conj_mul. ring.
Qed.

Section Basis.
Context (p : prec) (N : nat) (U : nat -> nat -> RC) (UN : unitary N U).

Section Layer.
Context (l l' : dense ROps) (LB : layer_in_basis N U l l').

Lemma pre_basis : forall v v' o, length v = N -> (forall i, i < N -> nth i v' 0%RC = csum (fun j => U i j * nth j v 0)%RC N) -> o < units ROps l -> pre ROps l' v' o = pre ROps l v o.
Proof.
  destruct LB as (W1 & W2 & UU & I1 & I2 & FN & HB & HW). intros v v' o LV HV Ho. unfold pre. rewrite HB, I1, I2. f_equal.
  change (csum (fun i => weight ROps l' o i * nth i v' 0)%RC N = csum (fun j => weight ROps l o j * nth j v 0)%RC N).
  transitivity (csum (fun i => csum (fun j => csum (fun k => (weight ROps l o j * nth k v 0) * (conj (U i j) * U i k)) N) N)%RC N).
  - apply csum_ext. intros i Hi. rewrite HW, HV by assumption. rewrite <- csum_mul_r. apply csum_ext. intros j Hj. rewrite <- csum_mul_l. apply csum_ext. intros k Hk. ring.
  - rewrite csum_swap. apply csum_ext. intros j Hj. rewrite csum_swap. rewrite (csum_delta _ N j Hj).
    + rewrite csum_mul_l, UN, Nat.eqb_refl by assumption. ring.
    + intros k Hk ND. rewrite csum_mul_l, UN by assumption. rewrite (proj2 (Nat.eqb_neq j k)) by congruence. ring.
Qed.

Lemma forward_basis : forall x x' w, in_basis N U x x' -> dense_forward ROps p l x = Ret (Ok w) -> dense_forward ROps p l' x' = Ret (Ok w).
Proof.
  intros x x' w (v & v' & -> & -> & LV & LV' & HV) E. pose proof LB as (W1 & W2 & UU & I1 & I2 & FN & HB & HW). rewrite dense_forward_ok in * by congruence. rewrite UU, FN.
  rewrite <- E. f_equal. apply mapM_ext. intros o Ho. apply in_seq in Ho. rewrite (pre_basis v v') by (auto; lia). reflexivity.
Qed.

Lemma derivs_basis : forall x x' g gc dw db h hc, in_basis N U x x' -> dense_derivatives ROps p l x g gc = Ret (Ok (dw, db, h, hc)) ->
  exists dw' h' hc', dense_derivatives ROps p l' x' g gc = Ret (Ok (dw', db, h', hc')) /\ lin (units ROps l) N U dw dw'.
Proof.
  intros x x' g gc dw db h hc (v & v' & -> & -> & LV & LV' & HV) D. pose proof LB as (W1 & W2 & UU & I1 & I2 & FN & HB & HW).
  destruct (derivs_lengths ROps p l _ _ _ _ D) as (G & GC). destruct (derivs_exist ROps p l v g gc _ W1 ltac:(congruence) G GC D) as (d & dc & DM).
  destruct (C41_derivatives ROps p l v g gc d dc W1 ltac:(congruence) G GC DM) as (dw1 & db1 & h1 & E1 & L1 & L2 & L3 & B1 & V1 & X1).
  rewrite E1 in D. injection D as -> -> -> <-.
  assert (DM' : forall o, o < units ROps l' -> d_activate ROps p (d_func l') (pre ROps l' v' o) = Ret (d o) /\ d_conj_activate ROps p (d_func l') (pre ROps l' v' o) = Ret (dc o)).
  { intros o Ho. rewrite FN, (pre_basis v v') by (auto; congruence). apply DM. congruence. }
  destruct (C41_derivatives ROps p l' v' g gc d dc W2 ltac:(congruence) ltac:(congruence) ltac:(congruence) DM') as (dw2 & db2 & h2 & E2 & L4 & L5 & L6 & B2 & V2 & X2).
  rewrite UU, I1, I2 in *. cbv zeta in B1, V1, X1, B2, V2, X2.
  assert (db2 = db) by (apply (nth_ext _ _ 0%RC 0%RC); [congruence|]; intros o Ho; rewrite B1, B2 by lia; reflexivity). subst db2.
  exists dw2, h2, (map (c_conj ROps) h2). split; [exact E2|]. split; [exact L1|]. split; [exact L4|]. intros o i Ho Hi. rewrite V2, HV by assumption. rewrite <- csum_mul_r.
  apply csum_ext. intros j Hj. rewrite V1 by assumption. change (c_default ROps) with (0%RC : RC). ring.
Qed.
End Layer.

Lemma pgrad_basis : forall l l' rest f x x' t ws bs, layer_in_basis N U l l' -> in_basis N U x x' -> pgrad ROps p (LDense l :: rest) f (x, t) = Ret (ws, bs) ->
  exists dw dw' rs, ws = dw :: rs /\ pgrad ROps p (LDense l' :: rest) f (x', t) = Ret (dw' :: rs, bs) /\ lin (units ROps l) N U dw dw'.
Proof.
  intros l l' rest f x x' t ws bs LB IB P. destruct (collect_of_pgrad ROps p _ f x t ws bs P) as (vs & g & h & hc & T & DL & B).
  inversion T as [|? ? ? y w E T1]; subst. cbn [layer_forward] in E. pose proof (forward_basis l l' LB x x' y IB E) as E'.
  cbn [combine bp layer_propagates dense_propagates layer_derivatives] in B. apply obind_inv in B as ((((ws1 & bs1) & h1) & hc1) & B1 & B).
  apply obind_inv in B as (q & DE & B). destruct q as [q|]; cbn [unwrap obind] in B; [|discriminate]. destruct q as (((dw & db) & e) & ec). injection B as <- <- <- <-.
  destruct (derivs_basis l l' LB x x' _ _ _ _ _ _ IB DE) as (dw' & e' & ec' & DE' & LI). exists dw, dw', ws1. split; [reflexivity|]. split; [|exact LI].
  assert (LT : forall a : IOType RC, last (a :: w) a = last w y).
  { intros a. destruct w as [|v0 w]; [inversion T1|]. clear. revert v0. induction w as [|u w IH]; intros v0; [reflexivity|]. exact (IH u). }
  apply (pgrad_of ROps p _ f x' t (x' :: w) g _ _ e' ec'); [discriminate | econstructor; [exact E' | exact T1] | rewrite LT; rewrite LT in DL; exact DL|].
  cbn [combine bp layer_propagates dense_propagates layer_derivatives]. rewrite B1. cbn [obind]. rewrite DE'. reflexivity.
Qed.

Lemma batch_basis : forall l l' rest f ts, layer_in_basis N U l l' -> forall xs xs', Forall2 (in_basis N U) xs xs' -> forall W B w w' V G, W = w :: V -> slots ROps (LDense l :: rest) W -> slots ROps (LDense l :: rest) B ->
  lin (units ROps l) N U w w' -> foldM (point_step ROps p (LDense l :: rest) f) (combine xs ts) (W, B) = Ret G ->
  exists u u' R, fst G = u :: R /\ foldM (point_step ROps p (LDense l' :: rest) f) (combine xs' ts) (w' :: V, B) = Ret (u' :: R, snd G) /\ lin (units ROps l) N U u u'.
Proof.
  intros l l' rest f ts LB xs xs' HX. revert ts. induction HX as [|x x' xs xs' IB HX IH]; intros ts W B w w' V G EW SW SB LW E.
  - cbn [combine foldM] in *. injection E as <-. subst W. cbn [fst snd]. eauto 6.
  - destruct ts as [|t ts]; cbn [combine foldM] in *; [injection E as <-; subst W; cbn [fst snd]; eauto 6|].
    apply obind_inv in E as ((W2 & B2) & E1 & E). destruct (point_step_lengths ROps p _ _ _ _ _ _ _ SW SB E1) as (Z1 & Z2).
    rewrite point_step_eq in E1 by auto. apply obind_inv in E1 as ((ws & bs) & P & E1). apply obind_inv in E1 as (W3 & A1 & E1). apply obind_inv in E1 as (B3 & A2 & E1). injection E1 as -> ->.
    destruct (pgrad_basis l l' rest f x x' t ws bs LB IB P) as (dw & dw' & rs & -> & P' & LD). subst W. cbn [addv] in A1.
    apply obind_inv in A1 as (u & U1 & A1). apply obind_inv in A1 as (R & U2 & A1). injection A1 as <-. destruct (lin_add _ _ _ _ _ _ _ _ LW LD U1) as (u' & U1' & LU).
    assert (SW' : slots ROps (LDense l' :: rest) (w' :: V)) by (inversion SW; subst; constructor; [intros Q; discriminate Q | assumption]).
    assert (SB' : slots ROps (LDense l' :: rest) B) by (inversion SB; subst; constructor; [intros Q; discriminate Q | assumption]).
    rewrite point_step_eq by auto. rewrite P'. cbn [obind addv]. rewrite U1'. cbn [obind]. rewrite U2. cbn [obind]. rewrite A2. cbn [obind].
    apply (IH ts (u :: R) B2 u u' R G eq_refl); auto; eapply slots_lengths; eauto.
Qed.

Lemma real_scale : forall (lr : RC) m s, im lr = 0%R -> c_div ROps lr (c_of_nat ROps m) = Ret s -> exists c, s = mkC c 0%R.
Proof.
  intros [t u] m s Z E. cbn [im] in Z. change (u = 0%R) in Z. subst u. destruct m as [|m]; [|rewrite div_real in E by discriminate; injection E as <-; eauto].
  exfalso. unfold c_of_nat in E. rewrite fofnat_R in E. unfold c_div, fsq in E. cbn [re im INR] in E. change (fzero ROps) with 0%R in E. change (feqb ROps) with Reqb in E. cbn [fadd fmul ROps] in E.
  replace (0 * 0 + 0 * 0)%R with 0%R in E by ring. rewrite (proj2 (Reqb_eq 0 0) eq_refl) in E. discriminate.
Qed.

Lemma step_basis : forall n n' d d' f lr n1, net_in_basis N U n n' -> step_in_basis N U (d, f, lr) (d', f, lr) -> net_gradient_opt ROps p n d f lr = Ret (n1, Ok tt) ->
  exists n1', net_gradient_opt ROps p n' d' f lr = Ret (n1', Ok tt) /\ net_in_basis N U n1 n1'.
Proof.
  intros n n' d d' f lr n1 (l & l' & rest & -> & -> & LB) (DX & DT & _ & _ & RL) E. cbn [fst snd] in *. pose proof LB as (W1 & W2 & UU & I1 & I2 & FN & HB & HW).
  unfold net_gradient_opt in *. cbn [length] in *. destruct (S (length rest) <=? 1) eqn:L1; [discriminate|].
  apply obind_inv in E as ((W & B) & EG & E). apply obind_inv in E as (sc & ES & E). apply obind_inv in E as (q & EM & E). assert (q = n1) by congruence. subst q. clear E. cbn [fst snd] in EM.
  unfold net_gradient, ds_points_iter in *. destruct (grad_zero_slots ROps (LDense l :: rest)) as (S1 & S2). 
  assert (PL : forall k : dense ROps, dense_wf ROps k -> layer_params_len ROps (LDense k) = (units ROps k * inputs ROps k, units ROps k)).
  { intros k Wd. assert (FU : layer_full ROps (LDense k)) by apply Wd. destruct (full_params ROps _ FU) as (Q1 & Q2). rewrite (surjective_pairing (layer_params_len ROps (LDense k))), Q1, Q2.
    cbn [layer_values fst snd]. destruct Wd as (w1 & w2 & _). rewrite w1, w2. reflexivity. }
  pose (z := repeat (0%RC : RC) (units ROps l * N)).
  assert (G1 : fst (grad_zero ROps (LDense l :: rest)) = z :: fst (grad_zero ROps rest)) by (unfold grad_zero; cbn [fst map layer_propagates dense_propagates]; rewrite PL by assumption; cbn [fst]; rewrite I1; reflexivity).
  assert (G2 : grad_zero ROps (LDense l' :: rest) = (z :: fst (grad_zero ROps rest), snd (grad_zero ROps (LDense l :: rest)))) by (unfold grad_zero; cbn [fst snd map layer_propagates dense_propagates]; rewrite !PL by assumption; cbn [fst snd]; rewrite I2, UU; reflexivity).
  rewrite (surjective_pairing (grad_zero ROps (LDense l :: rest))) in EG. rewrite G2, DT.
  destruct (batch_basis l l' rest f (ds_target d) LB _ _ DX _ _ z z _ _ G1 S1 S2 (lin_zero _ _ _) EG) as (u & u' & R & EU & EG' & LU). cbn [fst snd] in EU, EG'. subst W.
  rewrite EG'. cbn [obind]. rewrite <- (Forall2_len _ _ _ DX), ES. cbn [obind fst snd]. destruct (real_scale lr _ sc RL ES) as (c & ->).
  destruct B as [|b B].
  { exfalso. destruct (gradient_lengths ROps p (LDense l :: rest) d f (u :: R) []) as (_ & K); [|discriminate K]. unfold net_gradient, ds_points_iter. rewrite (surjective_pairing (grad_zero ROps (LDense l :: rest))). exact EG. }
  cbn [combine mapM] in *. apply obind_inv in EM as (k1 & U1 & EM). apply obind_inv in EM as (r1 & U2 & EM). injection EM as <-.
  destruct LU as (LU1 & LU2 & LU3).
  assert (BL : length b = units ROps l).
  { destruct (gradient_lengths ROps p (LDense l :: rest) d f (u :: R) (b :: B)) as (_ & K); [unfold net_gradient, ds_points_iter; rewrite (surjective_pairing (grad_zero ROps (LDense l :: rest))); exact EG|].
    unfold grad_zero in K. cbn [snd map layer_propagates dense_propagates] in K. rewrite PL in K by assumption. cbn [snd] in K. injection K as K _. rewrite repeat_length in K. exact K. }
  assert (BD : length (body (d_weights l)) = units ROps l * N /\ length (body (d_weights l')) = units ROps l * N).
  { unfold dense_wf, wf in W1, W2. rewrite (proj1 W1), (proj1 W2). unfold units, inputs in *. split; congruence. }
  assert (BB : length (d_biases l) = units ROps l /\ length (d_biases l') = units ROps l).
  { unfold dense_wf in W1, W2. unfold units in *. rewrite (proj1 (proj2 W1)), (proj1 (proj2 W2)). auto. }
  destruct BD as (D1 & D2). destruct BB as (D5 & D6).
  destruct (update_ok ROps (mkC c 0%R) (LDense l) u b (proj1 W1) ltac:(cbn [layer_values fst snd]; congruence) ltac:(cbn [layer_values fst snd]; congruence)) as (x1 & Y1 & AR1 & VA1).
  destruct (update_ok ROps (mkC c 0%R) (LDense l') u' b (proj1 W2) ltac:(cbn [layer_values fst snd]; congruence) ltac:(cbn [layer_values fst snd]; congruence)) as (x2 & Y2 & AR2 & VA2).
  assert (x1 = k1) by congruence. subst x1. rewrite Y2. cbn [obind]. rewrite U2. cbn [obind]. eexists. split; [reflexivity|].
  destruct k1 as [l1|l1|l1|l1]; try discriminate. destruct x2 as [l2|l2|l2|l2]; try discriminate. exists l1, l2, r1. split; [reflexivity|]. split; [reflexivity|].
  destruct (arch_dense ROps l1 l AR1 W1) as (Q1 & Q2 & Q3 & Q4). destruct (arch_dense ROps l2 l' AR2 W2) as (P1 & P2 & P3 & P4).
  cbn [layer_values fst snd] in VA1, VA2. injection VA1 as VA1 VB1. injection VA2 as VA2 VB2.
  split; [exact Q1|]. split; [exact P1|]. split; [congruence|]. split; [congruence|]. split; [congruence|]. split; [congruence|].
  split; [rewrite VB1, VB2, HB; reflexivity|].
  assert (LI : lin (units ROps l) N (fun i j => conj (U i j)) (body (d_weights l)) (body (d_weights l'))).
  { split; [exact D1|]. split; [exact D2|]. intros o i Ho Hi. pose proof (HW o i Ho Hi) as HH. unfold weight, entry in HH. fold (inputs ROps l) (inputs ROps l') in HH. rewrite I1, I2 in HH.
    refine (eq_trans HH _). apply csum_ext. intros j Hj. ring. }
  pose proof (lin_update _ _ _ c _ _ _ _ LI (Logic.conj LU1 (Logic.conj LU2 LU3))) as (_ & _ & LN). intros o i Ho Hi. rewrite Q2 in Ho.
  unfold weight, entry. fold (inputs ROps l1) (inputs ROps l2). rewrite P3, I2.
  refine (eq_trans (f_equal (fun b => nth (o * N + i) b 0%RC) VA2) _). refine (eq_trans (LN o i Ho Hi) _). apply csum_ext. intros j Hj. rewrite Q3, I1.
  refine (eq_trans _ (f_equal (fun b => (nth (o * N + j) b 0 * conj (U i j))%RC) (eq_sym VA1))). assert (CM : forall a b : RC, (a * b)%RC = (b * a)%RC) by (intros; ring). apply CM.
Qed.

Lemma steps_basis : forall steps steps' n n' n1, net_in_basis N U n n' -> Forall2 (step_in_basis N U) steps steps' -> train_steps ROps p n steps = Ret n1 ->
  exists n1', train_steps ROps p n' steps' = Ret n1' /\ net_in_basis N U n1 n1'.
Proof.
  intros steps steps' n n' n1 H S. revert n n' n1 H. induction S as [|[[d f] lr] [[d' f'] lr'] steps steps' SD S IH]; intros n n' n1 H E; cbn [train_steps] in *; [injection E as <-; eauto|].
  assert (Q := SD). destruct Q as (_ & _ & SF & SL & _). cbn [fst snd] in SF, SL. subst f' lr'. apply obind_inv in E as ((n2 & q) & E1 & E). cbn [fst snd] in E. destruct q as [[]|]; [|discriminate].
  destruct (step_basis n n' d d' f lr n2 H SD E1) as (n2' & -> & R2). cbn [obind fst snd]. eauto.
Qed.

Lemma net_forward_basis : forall n n' x x' y, net_in_basis N U n n' -> in_basis N U x x' -> net_forward ROps p n x = Ret (Ok y) -> net_forward ROps p n' x' = Ret (Ok y).
Proof.
  intros n n' x x' y (l & l' & rest & -> & -> & LB) IB E. rewrite forward_fold in * by discriminate. cbn [foldM] in *.
  destruct (fwd_cases ROps p (LDense l) x) as [(w & EW & EF) | (_ & EF)]; rewrite EF in E; [|discriminate]. cbn [layer_forward] in EW.
  rewrite (fwd_ok ROps p (LDense l') x' w (forward_basis l l' LB x x' w IB EW)). exact E.
Qed.
End Basis.
