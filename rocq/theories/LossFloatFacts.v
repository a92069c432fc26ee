(** * Facts about the losses in IEEE arithmetic *)
From Coq Require Import ZArith Reals Lra Psatz.
From Flocq Require Import Core BinarySingleNaN.
From Verif Require Import Base BaseFacts Float Matrix Cplx Input Loss RFloat BFloat BFacts CFacts SpecMatrix MatrixFacts SpecLoss LossFacts PropLoss
  SpecRound RoundFacts RoundAct NanFacts.
Local Notation re := Cplx.re. Local Notation im := Cplx.im.
Local Open Scope R_scope.

Section LossFloat.
Context (prec emax : Z) (Hp : Prec_gt_0 prec) (He : Prec_lt_emax prec emax) (L : libm (binary_float prec emax)).
Local Notation B := (binary_float prec emax).
Local Notation Fl := (BOps prec emax Hp He L).
Local Notation C := (cplx B).
Local Notation z0 := (c_default Fl).
Local Notation emin := (SpecFloat.emin prec emax).
Local Notation rnd := (round radix2 (SpecFloat.fexp prec emax) ZnearestE).
Local Existing Instance vexp.
Local Notation uu := (SpecRound.uu prec).
Local Notation eta := (SpecRound.eta prec emax).
Local Notation omega := (SpecRound.omega emax).
Local Notation close := (close prec emax).

(** ** Signs *)
Definition up (x : B) : Prop := is_nan x = true \/ Bsign x = false.

Lemma sign_val : forall x : B, Bsign x = false -> 0 <= B2R x.
Proof. intros [s|s| |s m e H] E; cbn in *; try lra. subst s. apply F2R_ge_0. cbn. lia. Qed.
Lemma sign_overflow : forall (x : B) s, B2SF x = binary_overflow prec emax mode_NE s -> Bsign x = s.
Proof. intros [s'|s'| |s' m e H] s E; cbn in E; try discriminate; injection E as ->; reflexivity. Qed.

Lemma up_plus : forall x y : B, up x -> up y -> up (Bplus mode_NE x y).
Proof.
  intros x y [X|X] HY; [left; apply nan_plus; auto|]. destruct HY as [Y|Y]; [left; apply nan_plus; auto|]. right.
  destruct (is_finite x) eqn:FX, (is_finite y) eqn:FY.
  - pose proof (Bplus_correct prec emax Hp He mode_NE x y FX FY) as P. destruct (Rlt_bool _ _).
    + destruct P as (_ & _ & P). pose proof (sign_val _ X). pose proof (sign_val _ Y). rewrite P, X, Y.
      destruct (Rcompare_spec (B2R x + B2R y) 0); auto. lra.
    + destruct P as (P & _). apply sign_overflow in P. congruence.
  - destruct x, y; try discriminate; cbn in *; subst; auto.
  - destruct x, y; try discriminate; cbn in *; subst; auto.
  - destruct x, y; try discriminate; cbn in *; subst; auto.
Qed.

Lemma up_mult : forall x y : B, Bsign x = Bsign y -> up (Bmult mode_NE x y).
Proof.
  intros x y E. destruct (is_nan (Bmult mode_NE x y)) eqn:N; [now left | right].
  pose proof (Bmult_correct prec emax Hp He mode_NE x y) as P. destruct (Rlt_bool _ _).
  - destruct P as (_ & _ & P). rewrite (P N), E. destruct (Bsign y); reflexivity.
  - apply sign_overflow in P. rewrite P, E. destruct (Bsign y); reflexivity.
Qed.

Lemma up_div : forall x y : B, up x -> up y -> up (Bdiv mode_NE x y).
Proof.
  intros x y [X|X] HY; [left; apply nan_div; auto|]. destruct HY as [Y|Y]; [left; apply nan_div; auto|].
  destruct (is_nan (Bdiv mode_NE x y)) eqn:N; [now left | right].
  destruct y as [s|s| |s m e H]; try discriminate; try (destruct x; try discriminate; cbn in *; subst; reflexivity).
  cbn in Y. subst s. assert (NZ : B2R (B754_finite false m e H) <> 0) by (cbn; apply Rgt_not_eq, F2R_gt_0; reflexivity).
  pose proof (Bdiv_correct prec emax Hp He mode_NE x _ NZ) as P. destruct (Rlt_bool _ _).
  - destruct P as (_ & _ & P). rewrite (P N), X. reflexivity.
  - apply sign_overflow in P. rewrite P, X. reflexivity.
Qed.

Lemma up_nat : forall n, up (fofnat Fl n).
Proof.
  intros n. right. unfold fofnat. cbn [fofN BOps]. unfold Bofz. set (z := Z.of_N (N.of_nat n)).
  pose proof (binary_normalize_correct prec emax Hp He mode_NE z 0 false) as P. cbv zeta in P.
  assert (Z0 : 0 <= F2R (Float radix2 (z) 0)) by (apply F2R_ge_0; cbn; lia). destruct (Rlt_bool (Rabs _) _).
  - destruct P as (_ & _ & P). rewrite P. destruct (Rcompare_spec (F2R (Float radix2 (z) 0)) 0); auto. lra.
  - apply sign_overflow in P. rewrite P. apply Rlt_bool_false. exact Z0.
Qed.

Lemma up_sum : forall (f : nat -> B) n, (forall k, (k < n)%nat -> up (f k)) -> up (sum_from (fadd Fl) (fzero Fl) f n).
Proof.
  intros f n. induction n as [|n IH]; intros H; [right; reflexivity|]. rewrite sum_from_S. apply up_plus; [apply IH; intros k K; apply H; lia | apply H; lia].
Qed.

Lemma up_norm : forall z : C, up (c_norm_sq Fl z).
Proof. intros z. apply up_plus; apply up_mult; reflexivity. Qed.

Lemma mean_sq_up : forall t p : list C, up (mean_sq_loss Fl t p).
Proof. intros t p. rewrite mean_sq_spec. apply up_div; [apply up_sum; intros; apply up_norm | apply up_nat]. Qed.

Lemma up_zero : forall x : B, up x -> is_finite x = true -> B2R x = 0 -> x = B754_zero false.
Proof.
  intros [s|s| |s m e H] U F Z; try discriminate.
  - destruct U as [U|U]; cbn in U; [discriminate | now subst].
  - exfalso. cbn in Z. destruct s; [assert (F2R (Float radix2 (Z.neg m) e) < 0) by (apply F2R_lt_0; reflexivity) | assert (0 < F2R (Float radix2 (Z.pos m) e)) by (apply F2R_gt_0; reflexivity)]; cbn in Z; lra.
Qed.

(** ** Losses that vanish *)
Lemma minus_small : forall (x y : B) e, is_finite x = true -> is_finite y = true -> (emin <= e)%Z -> (e < emax)%Z -> Rabs (B2R x - B2R y) <= bpow radix2 e ->
  is_finite (Bminus mode_NE x y) = true /\ Rabs (B2R (Bminus mode_NE x y)) <= bpow radix2 e.
Proof.
  intros x y e FX FY E1 E2 H. pose proof (Bminus_correct prec emax Hp He mode_NE x y FX FY) as P. cbn [round_mode] in P.
  assert (G : Rabs (rnd (B2R x - B2R y)) <= bpow radix2 e).
  { apply abs_round_le_generic; auto with typeclass_instances. apply generic_format_bpow. unfold SpecFloat.fexp, SpecFloat.emin in *. unfold Prec_gt_0 in Hp. lia. }
  assert (G2 : bpow radix2 e < bpow radix2 emax) by now apply bpow_lt.
  rewrite Rlt_bool_true in P by lra. destruct P as (P & PF & _). rewrite P. auto.
Qed.

Lemma norm_small : forall (a b : C) e, cfinite a -> cfinite b -> (emin <= e)%Z -> (2 * e < emin)%Z ->
  Rabs (B2R (re a) - B2R (re b)) <= bpow radix2 e -> Rabs (B2R (im a) - B2R (im b)) <= bpow radix2 e ->
  is_finite (c_norm_sq Fl (c_sub Fl a b)) = true /\ B2R (c_norm_sq Fl (c_sub Fl a b) : B) = 0.
Proof.
  intros a b e (A1 & A2) (B1 & B2) E1 E2 H1 H2. apply (Beqb_zero prec emax Hp He).
  assert (E3 : (e < emax)%Z) by (unfold SpecFloat.emin in *; unfold Prec_gt_0 in Hp; unfold Prec_lt_emax in He; lia).
  destruct (minus_small _ _ e A1 B1 E1 E3 H1) as (F1 & G1). destruct (minus_small _ _ e A2 B2 E1 E3 H2) as (F2 & G2).
  apply (norm_sq_zero prec emax Hp He). split; [exact F1|]. split; [exact F2|].
  assert (K : forall t, Rabs t <= bpow radix2 e -> t * t <= bpow radix2 (emin - 1)).
  { intros t T. apply Rle_trans with (bpow radix2 e * bpow radix2 e).
    - rewrite <- (Rabs_pos_eq (t * t)) by nra. rewrite Rabs_mult. apply Rmult_le_compat; auto using Rabs_pos.
    - rewrite <- bpow_plus. apply bpow_le. lia. }
  split; apply K; assumption.
Qed.

Lemma plus_zero : forall x y : B, is_finite x = true /\ B2R x = 0 -> is_finite y = true /\ B2R y = 0 ->
  is_finite (Bplus mode_NE x y) = true /\ B2R (Bplus mode_NE x y) = 0.
Proof.
  intros x y (FX & X) (FY & Y). pose proof (Bplus_correct prec emax Hp He mode_NE x y FX FY) as P. cbn [round_mode] in P.
  rewrite X, Y, Rplus_0_r, round_0 in P by auto with typeclass_instances.
  rewrite Rlt_bool_true in P by (rewrite Rabs_R0; apply bpow_gt_0). tauto.
Qed.

Lemma sum_zero : forall (f : nat -> B) n, (forall k, (k < n)%nat -> is_finite (f k) = true /\ B2R (f k) = 0) ->
  is_finite (sum_from (fadd Fl) (fzero Fl) f n : B) = true /\ B2R (sum_from (fadd Fl) (fzero Fl) f n : B) = 0.
Proof.
  intros f n. induction n as [|n IH]; intros H; [split; reflexivity|]. rewrite sum_from_S. apply plus_zero; [apply IH; intros k K; apply H; lia | apply H; lia].
Qed.

(** A count that fits the significand. *)
Lemma nat_exact : forall n, (Z.of_nat n <= 2 ^ prec)%Z -> is_finite (fofnat Fl n) = true /\ B2R (fofnat Fl n : B) = INR n.
Proof.
  intros n H. unfold fofnat. cbn [fofN BOps]. rewrite nat_N_Z. destruct (Bofz_exact prec emax Hp He (Z.of_nat n)) as (A & B1); [lia|].
  rewrite A, B1, INR_IZR_INZ. auto.
Qed.

(** Any count but zero, even one too large for the format. *)
Lemma nat_nonzero : forall n, n <> 0%nat -> forall s, fofnat Fl n <> B754_zero s /\ is_nan (fofnat Fl n) = false.
Proof.
  intros n N s. unfold fofnat. cbn [fofN BOps]. unfold Bofz. rewrite nat_N_Z. set (z := Z.of_nat n).
  pose proof (binary_normalize_correct prec emax Hp He mode_NE z 0 false) as P. cbv zeta in P.
  assert (Z1 : 1 <= F2R (Float radix2 (z) 0)).
  { unfold F2R. cbn. rewrite Rmult_1_r. apply IZR_le. lia. }
  destruct (Rlt_bool (Rabs _) _).
  - destruct P as (V & F & _). split.
    + intros Z. rewrite Z in V. cbn [B2R] in V. cbn [round_mode] in V.
      assert (1 <= rnd (F2R (Float radix2 (z) 0))).
      { apply round_ge_generic; auto with typeclass_instances. change 1 with (bpow radix2 0). apply generic_format_bpow.
        unfold SpecFloat.fexp, SpecFloat.emin. unfold Prec_gt_0 in Hp. unfold Prec_lt_emax in He. lia. }
      lra.
    + destruct (binary_normalize _ _ _ _ _ _ _ _); [reflexivity|discriminate|discriminate|reflexivity].
  - destruct (binary_normalize _ _ _ _ _ _ _ _); cbn in P; try discriminate. split; [discriminate|reflexivity].
Qed.

Lemma mean_sq_zero : forall (t p : list C) e, (2 <= Nat.min (length t) (length p))%nat -> Forall cfinite t -> Forall cfinite p ->
  (emin <= e)%Z -> (2 * e < emin)%Z ->
  (forall k, (k < Nat.min (length t) (length p))%nat ->
    Rabs (B2R (re (nth k t z0)) - B2R (re (nth k p z0))) <= bpow radix2 e /\ Rabs (B2R (im (nth k t z0)) - B2R (im (nth k p z0))) <= bpow radix2 e) ->
  mean_sq_loss Fl t p = B754_zero false.
Proof.
  intros t p e N FT FP E1 E2 H. rewrite mean_sq_spec. set (n := Nat.min (length t) (length p)) in *.
  set (f := fun k => c_norm_sq Fl (c_sub Fl (nth k t z0) (nth k p z0))).
  assert (S0 : sum_from (fadd Fl) (fzero Fl) f n = B754_zero false).
  { destruct (sum_zero f n) as (F & V).
    - intros k K. destruct (H k K). apply (norm_small _ _ e); auto; [apply (proj1 (Forall_forall _ _) FT), nth_In | apply (proj1 (Forall_forall _ _) FP), nth_In]; unfold n in *; lia.
    - apply up_zero; auto. apply up_sum. intros. apply up_norm. }
  refine (eq_trans (f_equal (fun x : B => fdiv Fl x (fofnat Fl (n - 1))) S0) _).
  pose proof (up_nat (n - 1)) as U. destruct (nat_nonzero (n - 1)) with (s := false) as (NZ & NN); [lia|]. destruct (nat_nonzero (n - 1)) with (s := true) as (NZ' & _); [lia|].
  cbn [fdiv BOps]. generalize dependent (fofnat Fl (n - 1) : B). intros w U NN NZ NZ'. destruct U as [U|U]; [congruence|].
  destruct w as [s|s| |s m x Hb]; cbn in U; try subst s; try reflexivity; [now destruct NZ|discriminate].
Qed.

(** ** The rounding error *)
Lemma rel_mult : forall a b x y : R, Rabs (a - 1) <= x -> Rabs (b - 1) <= y -> Rabs (a * b - 1) <= (1 + x) * (1 + y) - 1.
Proof.
  intros a b x y A B1. replace (a * b - 1) with ((a - 1) * (b - 1) + (a - 1) + (b - 1)) by ring.
  pose proof (Rabs_pos (a - 1)). pose proof (Rabs_pos (b - 1)).
  eapply Rle_trans; [apply Rabs_triang|]. eapply Rle_trans; [apply Rplus_le_compat_r, Rabs_triang|]. rewrite Rabs_mult.
  assert (Rabs (a - 1) * Rabs (b - 1) <= x * y) by (apply Rmult_le_compat; auto). lra.
Qed.

Lemma uu_half : uu <= / 2.
Proof.
  unfold SpecRound.uu. assert (bpow radix2 (- prec + 1) <= 1) by (change 1 with (bpow radix2 0); apply bpow_le; unfold Prec_gt_0 in Hp; lia). lra.
Qed.
Lemma omega_2 : 2 <= omega.
Proof.
  unfold SpecRound.omega. change 2 with (bpow radix2 1). apply bpow_le. unfold Prec_gt_0 in Hp. unfold Prec_lt_emax in He. lia.
Qed.

Lemma minus_rel : forall x y : B, is_finite x = true -> is_finite y = true -> (1 + uu) * Rabs (B2R x - B2R y) < omega ->
  is_finite (Bminus mode_NE x y) = true /\ exists e, Rabs e <= uu /\ B2R (Bminus mode_NE x y) = (B2R x - B2R y) * (1 + e).
Proof.
  intros x y FX FY O. destruct (round_sum prec emax Hp x (Bopp y)) as (e & E & RS). rewrite B2R_Bopp in RS.
  change (B2R x + - B2R y) with (B2R x - B2R y) in RS.
  pose proof (Bminus_correct prec emax Hp He mode_NE x y FX FY) as P. cbn [round_mode] in P. rewrite RS in P. pose proof (uu_pos prec).
  rewrite Rlt_bool_true in P.
  - destruct P as (P & PF & _). split; [exact PF | exists e; auto].
  - rewrite Rabs_mult. eapply Rle_lt_trans; [|exact O]. rewrite Rmult_comm. apply Rmult_le_compat_r; [apply Rabs_pos|].
    eapply Rle_trans; [apply Rabs_triang|]. rewrite Rabs_R1. lra.
Qed.

Lemma sq_close : forall (d : B) D e, is_finite d = true -> B2R d = D * (1 + e) -> Rabs e <= uu -> (1 + uu) ^ 3 * (D * D + eta) < omega ->
  close 3 (D * D) eta (Bmult mode_NE d d) (D * D).
Proof.
  intros d D e F V E O. pose proof (uu_pos prec) as U. pose proof (eta_pos prec emax) as H0. pose proof (pw1 prec 3) as P3.
  destruct (round_any prec emax Hp (B2R d * B2R d)) as (e2 & h & E2 & Hh & RS).
  assert (S0 : 0 <= D * D) by nra.
  assert (R1 : Rabs ((1 + e) * (1 + e) * (1 + e2) - 1) <= (1 + uu) ^ 3 - 1).
  { replace ((1 + uu) ^ 3 - 1) with ((1 + ((1 + uu) * (1 + uu) - 1)) * (1 + uu) - 1) by (cbn [pow]; ring).
    apply rel_mult; [apply rel_mult|]; match goal with |- Rabs ?t <= _ => (replace t with e by ring) || (replace t with e2 by ring) end; assumption. }
  assert (R2 : Rabs (rnd (B2R d * B2R d) - D * D) <= ((1 + uu) ^ 3 - 1) * (D * D) + eta).
  { rewrite RS, V. replace (D * (1 + e) * (D * (1 + e)) * (1 + e2) + h - D * D) with (D * D * ((1 + e) * (1 + e) * (1 + e2) - 1) + h) by ring.
    eapply Rle_trans; [apply Rabs_triang|]. rewrite Rabs_mult, (Rabs_pos_eq (D * D)) by exact S0.
    assert (D * D * Rabs ((1 + e) * (1 + e) * (1 + e2) - 1) <= D * D * ((1 + uu) ^ 3 - 1)) by (apply Rmult_le_compat_l; auto). lra. }
  pose proof (Bmult_correct prec emax Hp He mode_NE d d) as P. cbn [round_mode] in P.
  assert (EE : eta <= eta * (1 + uu) ^ 3) by nra.
  rewrite Rlt_bool_true in P.
  - destruct P as (P & PF & _). rewrite F in PF. repeat split; auto; try lra.
    + rewrite Rabs_pos_eq; lra.
    + rewrite P. lra.
  - replace (rnd (B2R d * B2R d)) with ((rnd (B2R d * B2R d) - D * D) + D * D) by ring.
    eapply Rle_lt_trans; [apply Rabs_triang|]. rewrite (Rabs_pos_eq (D * D)) by exact S0. unfold SpecRound.omega in O. lra.
Qed.

Lemma norm_close : forall a b : C, cfinite a -> cfinite b -> let N := c_norm_sq ROps (cval a - cval b)%RC in (1 + uu) ^ 4 * (N + 2 * eta) < omega ->
  close 4 N (2 * eta) (c_norm_sq Fl (c_sub Fl a b)) N.
Proof.
  intros a b (A1 & A2) (B1 & B2) N O. pose proof (uu_pos prec) as U. pose proof (eta_pos prec emax) as H0. pose proof uu_half. pose proof omega_2.
  set (dr := B2R (re a) - B2R (re b)). set (di := B2R (im a) - B2R (im b)).
  assert (NV : N = dr * dr + di * di) by reflexivity.
  assert (S1 : 0 <= dr * dr) by nra. assert (S2 : 0 <= di * di) by nra.
  assert (P4 : (1 + uu) ^ 4 = (1 + uu) * (1 + uu) ^ 3) by (cbn [pow]; ring). pose proof (pw1 prec 3) as P3.
  assert (P31 : (1 + uu) <= (1 + uu) ^ 3) by (rewrite <- (pow_1 (1 + uu)) at 1; apply pw_mono; lia).
  assert (O3 : forall q, 0 <= q -> q <= N -> (1 + uu) ^ 3 * (q + eta) < omega).
  { intros q Q1 Q2. eapply Rle_lt_trans; [|exact O]. rewrite P4. rewrite Rmult_assoc.
    assert ((1 + uu) ^ 3 * (q + eta) <= (1 + uu) ^ 3 * (N + 2 * eta)) by (apply Rmult_le_compat_l; lra).
    assert (0 <= (1 + uu) ^ 3 * (N + 2 * eta)) by (apply Rmult_le_pos; lra). nra. }
  assert (OM : forall d, d * d <= N -> (1 + uu) * Rabs d < omega).
  { intros d Q. assert (Q0 : 0 <= d * d) by nra. specialize (O3 (d * d) Q0 Q). destruct (Rle_lt_dec (Rabs d) 1) as [K|K]; [nra|].
    assert (Rabs d <= d * d). { rewrite <- (Rabs_pos_eq (d * d)) by exact Q0. rewrite Rabs_mult. nra. }
    eapply Rle_lt_trans; [|exact O3]. apply Rmult_le_compat; try apply Rabs_pos; lra. }
  destruct (minus_rel _ _ A1 B1) as (F1 & e1 & E1 & V1); [apply OM; unfold dr, di in *; lra|].
  destruct (minus_rel _ _ A2 B2) as (F2 & e2 & E2 & V2); [apply OM; unfold dr, di in *; lra|].
  assert (C1 : close 3 (dr * dr) eta (Bmult mode_NE (Bminus mode_NE (re a) (re b)) (Bminus mode_NE (re a) (re b))) (dr * dr)) by (apply (sq_close _ dr e1); auto; apply O3; lra).
  assert (C2 : close 3 (di * di) eta (Bmult mode_NE (Bminus mode_NE (im a) (im b)) (Bminus mode_NE (im a) (im b))) (di * di)) by (apply (sq_close _ di e2); auto; apply O3; lra).
  rewrite NV. replace (2 * eta) with (eta + eta) by ring. apply (close_plus prec emax Hp He); auto.
  rewrite NV in O. replace (eta + eta) with (2 * eta) by ring. exact O.
Qed.

Lemma sum_close : forall (x : nat -> B) (r : nat -> R) n k c, 0 <= c -> (forall i, (i < n)%nat -> 0 <= r i) ->
  (1 + uu) ^ (k + n) * (rsum r n + INR n * c) < omega ->
  (forall i, (i < n)%nat -> (1 + uu) ^ k * (r i + c) < omega -> close k (r i) c (x i) (r i)) ->
  close (k + n) (rsum r n) (INR n * c) (sum_from (fadd Fl) (fzero Fl) x n) (rsum r n).
Proof.
  intros x r n k c Hc. induction n as [|n IH]; intros R0 O H.
  - rewrite Nat.add_0_r. cbn [INR]. rewrite Rmult_0_l. destruct (zero_val prec emax Hp He) as (ZV & ZF).
    change (sum_from (fadd Fl) (fzero Fl) x 0) with (Bofz prec emax Hp He 0). pose proof (close_exact prec emax _ ZF) as C0. rewrite ZV, Rabs_R0 in C0.
    eapply close_weaken; [exact C0 | lia | apply Rle_refl | lra].
  - rewrite rsum_S in *. rewrite sum_from_S. rewrite S_INR in *. replace (k + S n)%nat with (S (k + n)) in * by lia.
    pose proof (rsum_nonneg r n ltac:(intros; apply R0; lia)) as S0. pose proof (R0 n ltac:(lia)) as Rn. pose proof (pos_INR n) as N0.
    assert (Q : 0 <= INR n * c) by now apply Rmult_le_pos. pose proof (pw1 prec k) as PK. pose proof (pw1 prec (k + n)) as PKN.
    assert (M1 : (1 + uu) ^ (k + n) <= (1 + uu) ^ S (k + n)) by (apply pw_mono; lia). assert (M2 : (1 + uu) ^ k <= (1 + uu) ^ S (k + n)) by (apply pw_mono; lia).
    replace ((INR n + 1) * c) with (INR n * c + c) in * by ring. apply (close_plus prec emax Hp He).
    + apply IH; [intros; apply R0; lia | | intros; apply H; auto; lia].
      eapply Rle_lt_trans; [|exact O]. apply Rmult_le_compat; lra.
    + eapply close_weaken; [apply H; [lia|] | lia | apply Rle_refl | apply Rle_refl].
      eapply Rle_lt_trans; [|exact O]. apply Rmult_le_compat; lra.
    + exact O.
Qed.

Lemma mean_sq_close : forall t p : list C, let n := Nat.min (length t) (length p) in let s := sse (map cval t) (map cval p) in
  (2 <= n)%nat -> (Z.of_nat n <= 2 ^ prec)%Z -> Forall cfinite t -> Forall cfinite p ->
  (1 + uu) ^ (n + 5) * (s + (2 * INR n + 1) * eta) < omega ->
  close (n + 5) (s / (INR n - 1)) (5 * eta) (mean_sq_loss Fl t p) (s / (INR n - 1)).
Proof.
  intros t p n s N1 N2 FT FP O. rewrite mean_sq_spec. fold n.
  set (r := fun k => c_norm_sq ROps (nth k (map cval t) 0%RC - nth k (map cval p) 0%RC)%RC).
  assert (SV : s = rsum r n) by (unfold s, sse; rewrite !map_length; reflexivity).
  assert (R0 : forall i, (i < n)%nat -> 0 <= r i) by (intros i _; unfold r, c_norm_sq, fsq; cbn [fadd fmul ROps]; nra).
  pose proof (rsum_nonneg r n R0) as S0. rewrite <- SV in S0. pose proof (uu_pos prec) as U. pose proof (eta_pos prec emax) as H0.
  pose proof (le_INR _ _ N1) as N3. change (INR 2) with 2 in N3.
  assert (OS : (1 + uu) ^ (4 + n) * (rsum r n + INR n * (2 * eta)) < omega).
  { rewrite <- SV. eapply Rle_lt_trans; [|exact O]. pose proof (pw1 prec (4 + n)). apply Rmult_le_compat; [lra | nra | apply pw_mono; lia | nra]. }
  pose proof (sum_close (fun k => c_norm_sq Fl (c_sub Fl (nth k t z0) (nth k p z0))) r n 4 (2 * eta) ltac:(lra) R0 OS) as CS.
  assert (CC : forall i, (i < n)%nat -> (1 + uu) ^ 4 * (r i + 2 * eta) < omega -> close 4 (r i) (2 * eta) (c_norm_sq Fl (c_sub Fl (nth i t z0) (nth i p z0))) (r i)).
  { intros i Hi Oi. assert (RI : r i = c_norm_sq ROps (cval (nth i t z0) - cval (nth i p z0))%RC).
    { unfold r. assert (Z0 : cval z0 = 0%RC) by (exact (f_equal2 (fun a b => mkC a b : RC) (proj1 (zero_val prec emax Hp He)) (proj1 (zero_val prec emax Hp He)))).
      rewrite <- Z0, !map_nth. reflexivity. }
    rewrite RI in *. apply norm_close; auto; [apply (proj1 (Forall_forall _ _) FT), nth_In | apply (proj1 (Forall_forall _ _) FP), nth_In]; unfold n in *; lia. }
  specialize (CS CC). rewrite <- SV in CS.
  destruct (nat_exact (n - 1)) as (WF & WV); [lia|]. rewrite minus_INR in WV by lia. change (INR 1) with 1 in WV.
  assert (W1 : 1 <= INR n - 1) by lra.
  assert (WP : 0 < B2R (fofnat Fl (n - 1) : B)) by (rewrite WV; lra).
  assert (I1 : 0 < / (INR n - 1) <= 1). { split; [apply Rinv_0_lt_compat; lra | rewrite <- Rinv_1; apply Rinv_le_contravar; lra]. }
  pose proof (close_div prec emax Hp He (4 + n) s (INR n * (2 * eta)) _ _ s WF WP CS) as D. rewrite WV in D.
  assert (LE : INR n * (2 * eta) / (INR n - 1) + eta <= 5 * eta).
  { assert (INR n / (INR n - 1) <= 2). { apply Rmult_le_reg_r with (INR n - 1); [lra|]. unfold Rdiv. rewrite Rmult_assoc, Rinv_l by lra. lra. }
    replace (INR n * (2 * eta) / (INR n - 1)) with (INR n / (INR n - 1) * (2 * eta)) by (unfold Rdiv; ring). nra. }
  eapply close_weaken; [apply D | lia | apply Rle_refl | exact LE].
  eapply Rle_lt_trans; [|exact O]. replace (S (4 + n)) with (n + 5)%nat by lia. pose proof (pw1 prec (n + 5)). apply Rmult_le_compat_l; [lra|].
  unfold Rdiv. assert (s * / (INR n - 1) <= s) by nra. assert (INR n * (2 * eta) * / (INR n - 1) <= INR n * (2 * eta)) by nra. nra.
Qed.

End LossFloat.
