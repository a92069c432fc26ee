(** * Rounding errors of sums and products *)
From Coq Require Import ZArith Reals Lra Psatz.
From Flocq Require Import Core BinarySingleNaN Relative Plus_error.
From Verif Require Import Base Float Matrix Cplx Act RFloat BFloat BFacts CFacts SpecMatrix SpecRound.
Local Notation re := Cplx.re. Local Notation im := Cplx.im.
Local Open Scope R_scope.

Section Round.
Context (prec emax : Z) (Hp : Prec_gt_0 prec) (He : Prec_lt_emax prec emax).
Local Notation B := (binary_float prec emax).
Local Notation fx := (SpecFloat.fexp prec emax).
Local Notation emin := (SpecFloat.emin prec emax).
Local Notation rnd := (round radix2 fx ZnearestE).
Local Existing Instance vexp.

Local Notation uu := (SpecRound.uu prec).
Local Notation eta := (SpecRound.eta prec emax).
Local Notation omega := (SpecRound.omega emax).

Lemma uu_pos : 0 < uu.
Proof. unfold SpecRound.uu. pose proof (bpow_gt_0 radix2 (- prec + 1)). lra. Qed.
Lemma eta_pos : 0 < eta.
Proof. unfold SpecRound.eta. pose proof (bpow_gt_0 radix2 emin). lra. Qed.

Lemma pw1 : forall k, 1 <= (1 + uu) ^ k.
Proof. intros k. pose proof uu_pos. apply pow_R1_Rle. lra. Qed.
Lemma pw_mono : forall k j, (k <= j)%nat -> (1 + uu) ^ k <= (1 + uu) ^ j.
Proof. intros k j H. pose proof uu_pos. apply Rle_pow; [lra | exact H]. Qed.
Lemma pwS : forall k, (1 + uu) ^ (S k) = (1 + uu) * (1 + uu) ^ k.
Proof. reflexivity. Qed.

(** [x] stands for the real [r]: at most [k] roundings relative to the
    magnitude [M], and an absolute part [c]. *)
Definition close (k : nat) (M c : R) (x : B) (r : R) : Prop :=
  is_finite x = true /\ Rabs r <= M /\ 0 <= c /\ Rabs (B2R x - r) <= ((1 + uu) ^ k - 1) * M + c * (1 + uu) ^ k.

Lemma close_weaken : forall k k' M M' c c' x r, close k M c x r -> (k <= k')%nat -> M <= M' -> c <= c' -> close k' M' c' x r.
Proof.
  intros k k' M M' c c' x r (F & HM & Hc & H) K LM Lc. pose proof (pw_mono _ _ K). pose proof (pw1 k). pose proof (Rabs_pos r).
  repeat split; auto; try lra. eapply Rle_trans; [exact H|]. apply Rplus_le_compat.
  - apply Rmult_le_compat; lra.
  - apply Rmult_le_compat; lra.
Qed.

Lemma close_exact : forall x, is_finite x = true -> close 0 (Rabs (B2R x)) 0 x (B2R x).
Proof.
  intros x F. repeat split; auto; try lra. replace (B2R x - B2R x) with 0 by ring. rewrite Rabs_R0. cbn [pow]. lra.
Qed.

Lemma close_size : forall k M c x r, close k M c x r -> Rabs (B2R x) <= (1 + uu) ^ k * (M + c).
Proof.
  intros k M c x r (_ & HM & _ & H). replace (B2R x) with ((B2R x - r) + r) by ring.
  eapply Rle_trans; [apply Rabs_triang|]. lra.
Qed.

Lemma close_M : forall k M c x r, close k M c x r -> 0 <= M /\ 0 <= c.
Proof. intros k M c x r (_ & HM & Hc & _). pose proof (Rabs_pos r). lra. Qed.

(** One rounding of a sum of two floats. *)
Lemma round_sum : forall x y : B, exists e, Rabs e <= uu /\ rnd (B2R x + B2R y) = (B2R x + B2R y) * (1 + e).
Proof.
  intros x y. destruct (FLT_plus_error_N_ex radix2 emin prec (fun z => negb (Z.even z)) (B2R x) (B2R y)) as (e & E & R1).
  - apply (generic_format_B2R prec emax).
  - apply (generic_format_B2R prec emax).
  - exists e. split; [|exact R1]. eapply Rle_trans; [exact E|]. apply u_rod1pu_ro_le_u_ro.
Qed.

Lemma round_any : forall t, exists e h, Rabs e <= uu /\ Rabs h <= eta /\ rnd t = t * (1 + e) + h.
Proof.
  intros t. destruct (error_N_FLT radix2 emin prec Hp (fun z => negb (Z.even z)) t) as (e & h & E & H & _ & R1).
  exists e, h. repeat split; assumption.
Qed.

(** The combined error of an exact sum followed by a rounding. *)
Lemma sum_step : forall k M c N d a b r s e : R, 0 <= k - 1 -> 0 <= c -> 0 <= d ->
  Rabs r <= M -> Rabs s <= N -> Rabs (a - r) <= (k - 1) * M + c * k -> Rabs (b - s) <= (k - 1) * N + d * k -> Rabs e <= uu ->
  Rabs ((a + b) * (1 + e) - (r + s)) <= ((1 + uu) * k - 1) * (M + N) + (c + d) * ((1 + uu) * k).
Proof.
  intros k M c N d a b r s e K Hc Hd HM HN HA HB E. pose proof uu_pos.
  replace ((a + b) * (1 + e) - (r + s)) with (((a - r) + (b - s)) * (1 + e) + (r + s) * e) by ring.
  eapply Rle_trans; [apply Rabs_triang|]. rewrite !Rabs_mult.
  assert (Rabs (1 + e) <= 1 + uu) by (eapply Rle_trans; [apply Rabs_triang|]; rewrite Rabs_R1; lra).
  assert (Rabs (a - r + (b - s)) <= (k - 1) * (M + N) + (c + d) * k) by (eapply Rle_trans; [apply Rabs_triang|]; lra).
  assert (Rabs (r + s) <= M + N) by (eapply Rle_trans; [apply Rabs_triang|]; lra).
  eapply Rle_trans.
  - apply Rplus_le_compat.
    + apply Rmult_le_compat; [apply Rabs_pos | apply Rabs_pos | exact H1 | exact H0].
    + apply Rmult_le_compat; [apply Rabs_pos | apply Rabs_pos | exact H2 | exact E].
  - right. ring.
Qed.

Lemma close_plus : forall k M c N d x y r s, close k M c x r -> close k N d y s ->
  (1 + uu) ^ (S k) * (M + N + (c + d)) < omega -> close (S k) (M + N) (c + d) (Bplus mode_NE x y) (r + s).
Proof.
  intros k M c N d x y r s HX HY O. pose proof (close_size _ _ _ _ _ HX) as SX. pose proof (close_size _ _ _ _ _ HY) as SY.
  destruct HX as (FX & HM & Hc & EX), HY as (FY & HN & Hd & EY). pose proof (pw1 k). pose proof uu_pos. pose proof (Rabs_pos r). pose proof (Rabs_pos s).
  destruct (round_sum x y) as (e & E & RS).
  pose proof (Bplus_correct prec emax Hp He mode_NE x y FX FY) as P. cbn [round_mode] in P.
  assert (G : Rabs (rnd (B2R x + B2R y)) < omega).
  { rewrite RS, Rabs_mult. eapply Rle_lt_trans; [|exact O]. rewrite pwS.
    assert (Rabs (1 + e) <= 1 + uu) by (eapply Rle_trans; [apply Rabs_triang|]; rewrite Rabs_R1; lra).
    assert (Rabs (B2R x + B2R y) <= (1 + uu) ^ k * (M + N + (c + d))) by (eapply Rle_trans; [apply Rabs_triang|]; lra).
    rewrite (Rmult_comm (1 + uu)), Rmult_assoc, (Rmult_comm (1 + uu)), <- Rmult_assoc.
    apply Rmult_le_compat; auto using Rabs_pos. }
  unfold SpecRound.omega in G. rewrite (Rlt_bool_true _ _ G) in P. destruct P as (PR & PF & _).
  repeat split; auto; try lra.
  - eapply Rle_trans; [apply Rabs_triang|]. lra.
  - rewrite PR, RS, pwS. apply sum_step; auto. lra.
Qed.

Lemma close_opp : forall k M c x r, close k M c x r -> close k M c (Bopp x) (- r).
Proof.
  intros k M c x r (F & HM & Hc & H). repeat split; auto.
  - now rewrite is_finite_Bopp.
  - now rewrite Rabs_Ropp.
  - rewrite B2R_Bopp. replace (- B2R x - - r) with (- (B2R x - r)) by ring. now rewrite Rabs_Ropp.
Qed.

Lemma close_minus : forall k M c N d x y r s, close k M c x r -> close k N d y s ->
  (1 + uu) ^ (S k) * (M + N + (c + d)) < omega -> close (S k) (M + N) (c + d) (Bminus mode_NE x y) (r - s).
Proof.
  intros k M c N d x y r s HX HY O.
  assert (HM : close (S k) (M + N) (c + d) (Bplus mode_NE x (Bopp y)) (r + - s)) by (apply close_plus; auto; now apply close_opp).
  destruct HM as (F & A & C & E). destruct HX as (FX & _), HY as (FY & _).
  assert (FO : is_finite (Bopp y) = true) by now rewrite is_finite_Bopp.
  pose proof (Bplus_correct prec emax Hp He mode_NE x (Bopp y) FX FO) as P. pose proof (Bminus_correct prec emax Hp He mode_NE x y FX FY) as Q.
  rewrite B2R_Bopp in P. replace (B2R x + - B2R y) with (B2R x - B2R y) in P by ring.
  destruct (Rlt_bool _ _).
  - destruct P as (P & _), Q as (Q & QF & _). repeat split; auto. rewrite Q, <- P. exact E.
  - destruct P as (P & _). apply (overflow_not_finite prec emax) in P. congruence.
Qed.

(** A product with an exact factor. *)
Lemma close_mult : forall k M c w x r, is_finite w = true -> close k M c x r ->
  (1 + uu) ^ (S k) * (Rabs (B2R w) * M + (Rabs (B2R w) * c + eta)) < omega ->
  close (S k) (Rabs (B2R w) * M) (Rabs (B2R w) * c + eta) (Bmult mode_NE w x) (B2R w * r).
Proof.
  intros k M c w x r FW HX O. pose proof (close_size _ _ _ _ _ HX) as SX.
  destruct HX as (FX & HM & Hc & EX). pose proof (pw1 k). pose proof (pw1 (S k)). pose proof uu_pos. pose proof eta_pos. pose proof (Rabs_pos (B2R w)) as W0.
  destruct (round_any (B2R w * B2R x)) as (e & h & E & Hh & RS).
  assert (E1 : Rabs (1 + e) <= 1 + uu) by (eapply Rle_trans; [apply Rabs_triang|]; rewrite Rabs_R1; lra).
  pose proof (Bmult_correct prec emax Hp He mode_NE w x) as P. cbn [round_mode] in P.
  assert (G : Rabs (rnd (B2R w * B2R x)) < omega).
  { rewrite RS. eapply Rle_lt_trans; [apply Rabs_triang|]. eapply Rle_lt_trans; [|exact O]. rewrite !Rabs_mult.
    assert (Rabs (B2R w) * Rabs (B2R x) * Rabs (1 + e) <= Rabs (B2R w) * ((1 + uu) ^ k * (M + c)) * (1 + uu)).
    { apply Rmult_le_compat; auto using Rabs_pos. apply Rmult_le_pos; apply Rabs_pos. apply Rmult_le_compat_l; auto. }
    assert (eta <= eta * (1 + uu) ^ S k) by nra. rewrite pwS in *. nra. }
  unfold SpecRound.omega in G. rewrite (Rlt_bool_true _ _ G) in P. destruct P as (PR & PF & _). rewrite FW, FX in PF.
  assert (0 <= Rabs (B2R w) * c) by now apply Rmult_le_pos.
  repeat split; auto; try lra.
  - rewrite Rabs_mult. now apply Rmult_le_compat_l.
  - rewrite PR, RS. replace (B2R w * B2R x * (1 + e) + h - B2R w * r) with (B2R w * ((B2R x - r) * (1 + e) + r * e) + h) by ring.
    eapply Rle_trans; [apply Rabs_triang|]. rewrite Rabs_mult.
    assert (D : Rabs ((B2R x - r) * (1 + e) + r * e) <= ((1 + uu) ^ S k - 1) * M + c * (1 + uu) ^ S k).
    { eapply Rle_trans; [apply Rabs_triang|]. rewrite !Rabs_mult.
      assert (Rabs (B2R x - r) * Rabs (1 + e) <= (((1 + uu) ^ k - 1) * M + c * (1 + uu) ^ k) * (1 + uu)) by (apply Rmult_le_compat; auto using Rabs_pos).
      assert (Rabs r * Rabs e <= M * uu) by (apply Rmult_le_compat; auto using Rabs_pos). rewrite pwS. nra. }
    apply (Rmult_le_compat_l (Rabs (B2R w))) in D; [|exact W0]. assert (eta <= eta * (1 + uu) ^ S k) by nra. nra.
Qed.

Lemma Bmult_sym : forall k M c x w r, is_finite w = true -> is_finite x = true -> close k M c (Bmult mode_NE w x) r -> close k M c (Bmult mode_NE x w) r.
Proof.
  intros k M c x w r FW FX (F & HM & Hc & E).
  pose proof (Bmult_correct prec emax Hp He mode_NE w x) as P. pose proof (Bmult_correct prec emax Hp He mode_NE x w) as Q.
  rewrite (Rmult_comm (B2R x)) in Q. destruct (Rlt_bool _ _).
  - destruct P as (P & _), Q as (Q & QF & _). rewrite FW, FX in QF. repeat split; auto. rewrite Q, <- P. exact E.
  - apply (overflow_not_finite prec emax) in P. congruence.
Qed.

(** ** Complex numbers *)
Context (L : libm B).
Local Notation Fl := (BOps prec emax Hp He L).

Definition cclose (k : nat) (M c : RC) (x : cplx B) (r : RC) : Prop :=
  close k (re M) (re c) (re x) (re r) /\ close k (im M) (im c) (im x) (im r).
Definition cle (a b : RC) : Prop := re a <= re b /\ im a <= im b.
Definition fit (k : nat) (M c : RC) : Prop := (1 + uu) ^ k * (re M + re c) < omega /\ (1 + uu) ^ k * (im M + im c) < omega.

Lemma cle_refl : forall a, cle a a.
Proof. intros a. split; apply Rle_refl. Qed.
Lemma cle_trans : forall a b c, cle a b -> cle b c -> cle a c.
Proof. intros a b c [] []. split; eapply Rle_trans; eauto. Qed.
Lemma cle_add : forall a b c d, cle a b -> cle c d -> cle (a + c)%RC (b + d)%RC.
Proof. intros [] [] [] [] [] []. split; cbn in *; lra. Qed.
Lemma cclose_nneg : forall k M c x r, cclose k M c x r -> cle 0%RC M /\ cle 0%RC c.
Proof. intros k M c x r [A B]. apply close_M in A, B. repeat split; cbn; tauto. Qed.

Lemma cclose_weaken : forall k k' M M' c c' x r, cclose k M c x r -> (k <= k')%nat -> cle M M' -> cle c c' -> cclose k' M' c' x r.
Proof. intros k k' M M' c c' x r [A B] K [] []. split; eapply close_weaken; eauto. Qed.

Lemma fit1_weaken : forall k k' (m m' c c' : R), (1 + uu) ^ k' * (m' + c') < omega -> (k <= k')%nat -> m <= m' -> c <= c' -> 0 <= m -> 0 <= c ->
  (1 + uu) ^ k * (m + c) < omega.
Proof.
  intros k k' m m' c c' F K A1 A2 A3 A4. pose proof (pw_mono _ _ K). pose proof (pw1 k). eapply Rle_lt_trans; [|exact F]. apply Rmult_le_compat; lra.
Qed.
Lemma fit_weaken : forall k k' M M' c c', fit k' M' c' -> (k <= k')%nat -> cle M M' -> cle c c' -> cle 0%RC M -> cle 0%RC c -> fit k M c.
Proof.
  intros k k' M M' c c' [F1 F2] K [] [] [] []. split; [apply (fit1_weaken k k' (re M) (re M') (re c) (re c')) | apply (fit1_weaken k k' (im M) (im M') (im c) (im c'))]; assumption.
Qed.

Lemma cclose_exact : forall z, cfinite z -> cclose 0 (cabs (cval z)) 0%RC z (cval z).
Proof. intros z [A B]. split; cbn; now apply close_exact. Qed.

Lemma zero_val : B2R (Bofz prec emax Hp He 0) = 0 /\ is_finite (Bofz prec emax Hp He 0) = true.
Proof. split; reflexivity. Qed.

Lemma cclose_zero : forall k, cclose k 0%RC 0%RC (c_default Fl) 0%RC.
Proof.
  intros k. eapply (cclose_weaken 0); [|lia|apply cle_refl|apply cle_refl].
  split; cbn [c_default re im]; (split; [reflexivity|]); cbn; rewrite Rabs_R0; repeat split; try lra; rewrite Rminus_0_r, Rabs_R0; lra.
Qed.

Lemma cclose_add : forall k M c N d x y r s, cclose k M c x r -> cclose k N d y s -> fit (S k) (M + N)%RC (c + d)%RC ->
  cclose (S k) (M + N)%RC (c + d)%RC (c_add Fl x y) (r + s)%RC.
Proof. intros k M c N d x y r s [A B] [A' B'] [F1 F2]. split; now apply close_plus. Qed.

Lemma mul_parts : forall k (Mr Mi cr ci : R) (wr wi xr xi : B) (rr ri : R), is_finite wr = true -> is_finite wi = true ->
  close k Mr cr xr rr -> close k Mi ci xi ri ->
  (1 + uu) ^ (S (S k)) * (Rabs (B2R wr) * Mr + Rabs (B2R wi) * Mi + (Rabs (B2R wr) * cr + Rabs (B2R wi) * ci + 3 * eta)) < omega ->
  (1 + uu) ^ (S (S k)) * (Rabs (B2R wr) * Mi + Rabs (B2R wi) * Mr + (Rabs (B2R wr) * ci + Rabs (B2R wi) * cr + 3 * eta)) < omega ->
  let T := close (S (S k)) (Rabs (B2R wr) * Mr + Rabs (B2R wi) * Mi) (Rabs (B2R wr) * cr + Rabs (B2R wi) * ci + 3 * eta) in
  let S := close (S (S k)) (Rabs (B2R wr) * Mi + Rabs (B2R wi) * Mr) (Rabs (B2R wr) * ci + Rabs (B2R wi) * cr + 3 * eta) in
  T (Bminus mode_NE (Bmult mode_NE wr xr) (Bmult mode_NE wi xi)) (B2R wr * rr - B2R wi * ri) /\
  T (Bminus mode_NE (Bmult mode_NE xr wr) (Bmult mode_NE xi wi)) (rr * B2R wr - ri * B2R wi) /\
  S (Bplus mode_NE (Bmult mode_NE wr xi) (Bmult mode_NE wi xr)) (B2R wr * ri + B2R wi * rr) /\
  S (Bplus mode_NE (Bmult mode_NE xr wi) (Bmult mode_NE xi wr)) (rr * B2R wi + ri * B2R wr).
Proof.
  intros k Mr Mi cr ci wr wi xr xi rr ri W1 W2 A B F1 F2. pose proof eta_pos. pose proof uu_pos.
  destruct (close_M _ _ _ _ _ A) as (A1 & A2), (close_M _ _ _ _ _ B) as (B1 & B2).
  pose proof (Rabs_pos (B2R wr)) as P1. pose proof (Rabs_pos (B2R wi)) as P2.
  assert (Q1 := Rmult_le_pos _ _ P1 A1). assert (Q2 := Rmult_le_pos _ _ P1 A2). assert (Q3 := Rmult_le_pos _ _ P1 B1). assert (Q4 := Rmult_le_pos _ _ P1 B2).
  assert (Q5 := Rmult_le_pos _ _ P2 A1). assert (Q6 := Rmult_le_pos _ _ P2 A2). assert (Q7 := Rmult_le_pos _ _ P2 B1). assert (Q8 := Rmult_le_pos _ _ P2 B2).
  assert (LIFT : forall m m', 0 <= m -> m <= m' -> (1 + uu) ^ S (S k) * m' < omega -> (1 + uu) ^ S k * m < omega /\ (1 + uu) ^ S (S k) * m < omega).
  { intros m m' I0 I1 I2. pose proof (pw1 (S k)). pose proof (pw1 (S (S k))). pose proof (pw_mono (S k) (S (S k)) ltac:(lia)).
    split; (eapply Rle_lt_trans; [|exact I2]); apply Rmult_le_compat; lra. }
  assert (RR : close (S k) (Rabs (B2R wr) * Mr) (Rabs (B2R wr) * cr + eta) (Bmult mode_NE wr xr) (B2R wr * rr)).
  { apply close_mult; auto. refine (proj1 (LIFT _ _ _ _ F1)); lra. }
  assert (II : close (S k) (Rabs (B2R wi) * Mi) (Rabs (B2R wi) * ci + eta) (Bmult mode_NE wi xi) (B2R wi * ri)).
  { apply close_mult; auto. refine (proj1 (LIFT _ _ _ _ F1)); lra. }
  assert (RI : close (S k) (Rabs (B2R wr) * Mi) (Rabs (B2R wr) * ci + eta) (Bmult mode_NE wr xi) (B2R wr * ri)).
  { apply close_mult; auto. refine (proj1 (LIFT _ _ _ _ F2)); lra. }
  assert (IR : close (S k) (Rabs (B2R wi) * Mr) (Rabs (B2R wi) * cr + eta) (Bmult mode_NE wi xr) (B2R wi * rr)).
  { apply close_mult; auto. refine (proj1 (LIFT _ _ _ _ F2)); lra. }
  assert (FX1 : is_finite xr = true) by apply A. assert (FX2 : is_finite xi = true) by apply B.
  cbv zeta.
  split; [|split; [|split]].
  - eapply close_weaken; [apply (close_minus _ _ _ _ _ _ _ _ _ RR II)|..]; try lia; try lra. refine (proj2 (LIFT _ _ _ _ F1)); lra.
  - rewrite (Rmult_comm rr), (Rmult_comm ri).
    eapply close_weaken; [apply (close_minus (S k)); [apply Bmult_sym; [exact W1 | exact FX1 | exact RR] | apply Bmult_sym; [exact W2 | exact FX2 | exact II] |]|..];
      try lia; try lra. refine (proj2 (LIFT _ _ _ _ F1)); lra.
  - eapply close_weaken; [apply (close_plus _ _ _ _ _ _ _ _ _ RI IR)|..]; try lia; try lra. refine (proj2 (LIFT _ _ _ _ F2)); lra.
  - rewrite (Rmult_comm rr), (Rmult_comm ri).
    eapply close_weaken; [apply (close_plus (S k)); [apply Bmult_sym; [exact W2 | exact FX1 | exact IR] | apply Bmult_sym; [exact W1 | exact FX2 | exact RI] |]|..];
      try lia; try lra. refine (proj2 (LIFT _ _ _ _ F2)); lra.
Qed.

Lemma cclose_mul : forall k M c w x r, cfinite w -> cclose k M c x r -> fit (k + 2) (amul (cval w) M) (amul (cval w) c + both (3 * eta))%RC ->
  cclose (k + 2) (amul (cval w) M) (amul (cval w) c + both (3 * eta))%RC (c_mul Fl w x) (cval w * r)%RC /\
  cclose (k + 2) (amul (cval w) M) (amul (cval w) c + both (3 * eta))%RC (c_mul Fl x w) (r * cval w)%RC.
Proof.
  intros k [Mr Mi] [cr ci] [wr wi] [xr xi] [rr ri] [W1 W2] [A B] [F1 F2]. replace (k + 2)%nat with (S (S k)) in * by lia.
  destruct (mul_parts k Mr Mi cr ci wr wi xr xi rr ri W1 W2 A B F1 F2) as (T1 & T2 & S1 & S2). split; split; assumption.
Qed.

Lemma csum_mono : forall f g n, (forall i, (i < n)%nat -> cle (f i) (g i)) -> cle (csum f n) (csum g n).
Proof.
  intros f g n. induction n as [|n IH]; intros H; [apply cle_refl|]. unfold csum in *. rewrite !sum_from_S. apply cle_add; [apply IH | apply H]; auto.
Qed.
Lemma csum_nneg : forall f n, (forall i, (i < n)%nat -> cle 0%RC (f i)) -> cle 0%RC (csum f n).
Proof.
  intros f n H. induction n as [|n IH]; [apply cle_refl|]. unfold csum in *. rewrite sum_from_S. specialize (IH ltac:(auto)). specialize (H n ltac:(lia)).
  destruct IH, H. split; cbn in *; lra.
Qed.
Lemma csum_le : forall f n m, (forall i, (i < m)%nat -> cle 0%RC (f i)) -> (n <= m)%nat -> cle (csum f n) (csum f m).
Proof.
  intros f n m H. induction m as [|m IH]; intros LE; [assert (n = 0%nat) as -> by lia; apply cle_refl|].
  destruct (Nat.eq_dec n (S m)) as [->|NE]; [apply cle_refl|]. eapply cle_trans; [apply IH; auto; lia|]. unfold csum. rewrite sum_from_S.
  specialize (H m ltac:(lia)). destruct H. split; cbn in *; lra.
Qed.
Lemma csum_term : forall f n i, (forall i, (i < n)%nat -> cle 0%RC (f i)) -> (i < n)%nat -> cle (f i) (csum f n).
Proof.
  intros f n i H I. eapply cle_trans; [|apply (csum_le f (S i) n H); lia]. unfold csum. rewrite sum_from_S.
  assert (Z : cle 0%RC (csum f i)) by (apply csum_nneg; intros; apply H; lia). unfold csum in Z. destruct Z. split; cbn in *; lra.
Qed.

Lemma cclose_sum : forall k n (f : nat -> cplx B) (g M c : nat -> RC), (forall i, (i < n)%nat -> cclose k (M i) (c i) (f i) (g i)) ->
  fit (k + n) (csum M n) (csum c n) ->
  cclose (k + n) (csum M n) (csum c n) (sum_from (c_add Fl) (c_default Fl) f n) (csum g n).
Proof.
  intros k n f g M c H. 
  assert (NM : forall i, (i < n)%nat -> cle 0%RC (M i)) by (intros i I; exact (proj1 (cclose_nneg _ _ _ _ _ (H i I)))).
  assert (NC : forall i, (i < n)%nat -> cle 0%RC (c i)) by (intros i I; exact (proj2 (cclose_nneg _ _ _ _ _ (H i I)))).
  revert H NM NC. induction n as [|n IH]; intros H NM NC O.
  - eapply cclose_weaken; [apply (cclose_zero k)|lia|apply cle_refl|apply cle_refl].
  - unfold csum in *. rewrite !sum_from_S in *. fold (csum M n) (csum c n) (csum g n) in *.
    assert (Z1 : cle 0%RC (csum M n)) by (apply csum_nneg; auto). assert (Z2 : cle 0%RC (csum c n)) by (apply csum_nneg; auto).
    pose proof (NM n ltac:(lia)) as NMn. pose proof (NC n ltac:(lia)) as NCn.
    replace (k + S n)%nat with (S (k + n)) in * by lia. apply cclose_add.
    + apply IH; auto. eapply fit_weaken; [exact O|lia|..]; auto; [destruct NMn | destruct NCn]; split; cbn in *; lra.
    + eapply cclose_weaken; [apply H; lia|lia|apply cle_refl|apply cle_refl].
    + exact O.
Qed.
End Round.
