(** * Facts about the cross entropy in IEEE arithmetic *)
From Coq Require Import ZArith Reals Lra Psatz.
From Flocq Require Import Core BinarySingleNaN.
From Verif Require Import Base BaseFacts Float Matrix Cplx Input Loss RFloat BFloat BFacts CFacts SpecMatrix MatrixFacts SpecLoss LossFacts PropLoss
  SpecRound RoundFacts RoundAct SpecNan NanFacts SpecLossFloat LossFloatFacts.
Local Notation re := Cplx.re. Local Notation im := Cplx.im.
Local Open Scope R_scope.

Lemma norm_ce_gen : forall Fl (t p : list (cplx (F Fl))),
  norm_ce_loss Fl t p =
  sum_from (fun acc k => fsub Fl acc (fmul Fl (re (nth k t (c_default Fl)))
     (fln Fl (fdiv Fl (fexp Fl (c_norm_sq Fl (nth k p (c_default Fl))))
       (sum_from (fadd Fl) (fzero Fl) (fun j => fexp Fl (c_norm_sq Fl (nth j p (c_default Fl)))) (length p))))))
   (fzero Fl) (fun k => k) (Nat.min (length t) (length p)).
Proof.
  intros Fl t p. unfold norm_ce_loss.
  set (S1 := fold_left _ (map (fun z => fexp Fl (c_norm_sq Fl z)) p) (fzero Fl)).
  assert (ES : S1 = sum_from (fadd Fl) (fzero Fl) (fun j => fexp Fl (c_norm_sq Fl (nth j p (c_default Fl)))) (length p)).
  { unfold S1. rewrite (list_eq_map_nth (c_default Fl) p) at 1. rewrite map_map, fold_left_map. reflexivity. }
  rewrite <- ES. clearbody S1.
  rewrite (fold_combine _ (re (c_default Fl)) (fexp Fl (c_norm_sq Fl (c_default Fl)))), !map_length.
  unfold sum_from. apply fold_left_ext. intros acc k _. cbn [fst snd].
  rewrite !map_nth, (map_nth (fun z => fexp Fl (c_norm_sq Fl z))). reflexivity.
Qed.

Section LossCE.
Context (prec emax : Z) (Hp : Prec_gt_0 prec) (He : Prec_lt_emax prec emax) (L : libm (binary_float prec emax)).
Local Notation B := (binary_float prec emax).
Local Notation Fl := (BOps prec emax Hp He L).
Local Notation C := (cplx B).
Local Notation z0 := (c_default Fl).
Local Notation fx := (SpecFloat.fexp prec emax).
Local Notation emin := (SpecFloat.emin prec emax).
Local Notation rnd := (round radix2 (SpecFloat.fexp prec emax) ZnearestE).
Local Existing Instance vexp.
Local Notation up := (up prec emax).
Local Notation omega := (SpecRound.omega emax).

Definition ek (p : list C) (k : nat) : B := l_exp L (c_norm_sq Fl (nth k p z0)).
Definition esum (p : list C) : B := sum_from (Bplus mode_NE) (Bofz prec emax Hp He 0) (ek p) (length p).
Definition term (t p : list C) (k : nat) : B := Bmult mode_NE (re (nth k t z0)) (l_ln L (Bdiv mode_NE (ek p k) (esum p))).

Lemma ce_terms : forall t p : list C,
  norm_ce_loss Fl t p = sum_from (Bminus mode_NE) (Bofz prec emax Hp He 0) (term t p) (Nat.min (length t) (length p)).
Proof. intros t p. rewrite norm_ce_gen. reflexivity. Qed.

(** ** NaN *)
Lemma sum_nonfinite : forall (f : nat -> B) n k z, (k < n)%nat -> is_finite (f k) = false -> is_finite (sum_from (Bplus mode_NE) z f n) = false.
Proof.
  intros f n k z. induction n as [|n IH]; intros K H; [lia|]. rewrite sum_from_S. destruct (is_finite (Bplus _ _ _)) eqn:E; [|reflexivity].
  apply Bplus_finite_inv in E as (E1 & E2). destruct (Nat.eq_dec k n) as [->|]; [congruence|]. rewrite IH in E1 by (auto; lia). discriminate.
Qed.

Lemma minus_nan : forall (f : nat -> B) n k z, (k < n)%nat -> is_nan (f k) = true -> is_nan (sum_from (Bminus mode_NE) z f n) = true.
Proof.
  intros f n k z. induction n as [|n IH]; intros K H; [lia|]. rewrite sum_from_S. apply nan_minus. destruct (Nat.eq_dec k n) as [->|]; [now right | left; apply IH; auto; lia].
Qed.

Lemma div_nonfinite : forall x y : B, is_finite x = false -> is_finite y = false -> is_nan (Bdiv mode_NE x y) = true.
Proof. intros [s|s| |s m e H] [s'|s'| |s' m' e' H'] X Y; try discriminate; reflexivity. Qed.

Lemma ce_nan : forall (t p : list C) k, nan_in_nan_out L -> (k < Nat.min (length t) (length p))%nat -> is_finite (ek p k) = false -> is_nan (norm_ce_loss Fl t p) = true.
Proof.
  intros t p k (HN & _) K E. rewrite ce_terms. apply minus_nan with k; [exact K|]. unfold term. apply nan_mult. right. apply HN.
  apply div_nonfinite; [exact E|]. apply sum_nonfinite with k; [lia | exact E].
Qed.

(** A number with a part of size [b] or more. *)
Lemma norm_big : forall (z : C) b, (0 <= b)%Z -> (b * b <= 2 ^ prec)%Z ->
  IZR b <= Rabs (B2R (re z)) \/ IZR b <= Rabs (B2R (im z)) \/ is_finite (re z) = false \/ is_finite (im z) = false ->
  is_finite (c_norm_sq Fl z) = false \/ IZR b * IZR b <= B2R (c_norm_sq Fl z : B).
Proof.
  intros z b B0 B1 H. destruct (is_finite (c_norm_sq Fl z)) eqn:F; [right | now left].
  unfold c_norm_sq, fsq in *. cbn [fadd fmul BOps] in *. pose proof (Bplus_R prec emax Hp He _ _ F) as R. destruct (Bplus_finite_inv prec emax Hp He _ _ F) as (F1 & F2).
  pose proof (Bmult_R prec emax Hp He _ _ F1) as R1. pose proof (Bmult_R prec emax Hp He _ _ F2) as R2.
  destruct (Bmult_finite_inv prec emax Hp He _ _ F1) as (Fx & _). destruct (Bmult_finite_inv prec emax Hp He _ _ F2) as (Fy & _).
  destruct (Bofz_exact prec emax Hp He (b * b)) as (BV & _); [rewrite Z.abs_eq by nia; exact B1|].
  assert (G : generic_format radix2 fx (IZR b * IZR b)) by (rewrite <- mult_IZR, <- BV; apply (generic_format_B2R prec emax)).
  assert (P0 : 0 <= IZR b) by (apply IZR_le; lia).
  assert (S1 : 0 <= rnd (B2R (re z) * B2R (re z))) by (apply (rnd_nonneg prec emax Hp); nra). assert (S2 : 0 <= rnd (B2R (im z) * B2R (im z))) by (apply (rnd_nonneg prec emax Hp); nra).
  assert (Q : forall w, IZR b <= Rabs w -> IZR b * IZR b <= rnd (w * w)).
  { intros w W. apply round_ge_generic; auto with typeclass_instances. rewrite <- (Rabs_pos_eq (w * w)) by nra. rewrite Rabs_mult. apply Rmult_le_compat; auto. }
  rewrite R, R1, R2. apply round_ge_generic; auto with typeclass_instances.
  destruct H as [H|[H|[H|H]]]; [exact (Rle_trans _ _ _ (Q _ H) (ltac:(rewrite <- Rplus_0_r at 1; apply Rplus_le_compat_l; exact S2))) | exact (Rle_trans _ _ _ (Q _ H) (ltac:(rewrite <- Rplus_0_l at 1; apply Rplus_le_compat_r; exact S1))) | | ]; exfalso; [exact (Bool.diff_true_false (eq_trans (eq_sym Fx) H)) | exact (Bool.diff_true_false (eq_trans (eq_sym Fy) H))].
Qed.

Lemma ce_big : forall (t p : list C) b k, nan_in_nan_out L -> exp_overflows L -> (0 <= b)%Z -> (b * b <= 2 ^ prec)%Z -> omega <= exp (IZR b * IZR b) ->
  (k < Nat.min (length t) (length p))%nat ->
  (let z := nth k p z0 in IZR b <= Rabs (B2R (re z)) \/ IZR b <= Rabs (B2R (im z)) \/ is_finite (re z) = false \/ is_finite (im z) = false) ->
  is_nan (norm_ce_loss Fl t p) = true.
Proof.
  intros t p b k HN (HO & HI) B0 B1 BO K H. apply ce_nan with k; auto. unfold ek. destruct (norm_big _ b B0 B1 H) as [N|N].
  - pose proof (up_norm prec emax Hp He L (nth k p z0)) as U. destruct (c_norm_sq Fl (nth k p z0) : B) as [s|s| |s m e Hb]; cbn in N; try discriminate.
    + destruct U as [U|U]; cbn in U; [discriminate|]. subst s. rewrite HI. reflexivity.
    + destruct HN as (HN & _). destruct (HN B754_nan eq_refl) as (E & _). destruct (l_exp L B754_nan); try discriminate. reflexivity.
  - destruct (is_finite (c_norm_sq Fl (nth k p z0))) eqn:F.
    + rewrite HO; [reflexivity | exact F|]. eapply Rle_trans; [exact BO|]. destruct (Req_dec (IZR b * IZR b) (B2R (c_norm_sq Fl (nth k p z0) : B))) as [E|E]; [rewrite E; apply Rle_refl|].
      left. apply exp_increasing. lra.
    + pose proof (up_norm prec emax Hp He L (nth k p z0)) as U. destruct (c_norm_sq Fl (nth k p z0) : B) as [s|s| |s m e Hb]; cbn in F; try discriminate.
      * destruct U as [U|U]; cbn in U; [discriminate|]. subst s. rewrite HI. reflexivity.
      * destruct HN as (HN & _). destruct (HN B754_nan eq_refl) as (E & _). destruct (l_exp L B754_nan); try discriminate. reflexivity.
Qed.

(** ** Signs *)
Definition ge0 (x : B) : Prop := is_nan x = true \/ Bleb (B754_zero false) x = true.
Definition le0 (x : B) : Prop := is_nan x = true \/ Bleb x (B754_zero false) = true.

Lemma ge0_iff : forall x : B, ge0 x <-> is_nan x = true \/ x = B754_infinity false \/ (is_finite x = true /\ 0 <= B2R x).
Proof.
  intros [s|s| |s m e H]; unfold ge0; cbn [is_nan is_finite B2R].
  - split; intros _; [right; right; split; [reflexivity | lra] | right; reflexivity].
  - destruct s; (split; [intros [H|H]; [discriminate|] | intros [H|[H|[H _]]]]); try discriminate; auto.
  - tauto.
  - destruct s.
    + pose proof (F2R_lt_0 radix2 (Float radix2 (Z.neg m) e) eq_refl) as N. cbn [cond_Zopp Z.opp]. split; [intros [K|K]; discriminate | intros [K|[K|[_ K]]]; [discriminate | discriminate | lra]].
    + pose proof (F2R_gt_0 radix2 (Float radix2 (Z.pos m) e) eq_refl) as N. cbn [cond_Zopp Z.opp]. split; intros _; [right; right; split; [reflexivity | lra] | right; reflexivity].
Qed.
Lemma le0_iff : forall x : B, le0 x <-> is_nan x = true \/ x = B754_infinity true \/ (is_finite x = true /\ B2R x <= 0).
Proof.
  intros [s|s| |s m e H]; unfold le0; cbn [is_nan is_finite B2R].
  - split; intros _; [right; right; split; [reflexivity | lra] | right; reflexivity].
  - destruct s; (split; [intros [H|H]; [discriminate|] | intros [H|[H|[H _]]]]); try discriminate; auto.
  - tauto.
  - destruct s.
    + pose proof (F2R_lt_0 radix2 (Float radix2 (Z.neg m) e) eq_refl) as N. cbn [cond_Zopp Z.opp]. split; intros _; [right; right; split; [reflexivity | lra] | right; reflexivity].
    + pose proof (F2R_gt_0 radix2 (Float radix2 (Z.pos m) e) eq_refl) as N. cbn [cond_Zopp Z.opp]. split; [intros [K|K]; discriminate | intros [K|[K|[_ K]]]; [discriminate | discriminate | lra]].
Qed.

Lemma sign_zero : forall x : B, is_finite x = true -> (Bsign x = true -> 0 <= B2R x -> B2R x = 0) /\ (Bsign x = false -> B2R x <= 0 -> B2R x = 0).
Proof.
  intros [s|s| |s m e H] F; try discriminate; cbn [Bsign B2R]; [split; reflexivity|]. split; intros -> K; exfalso; cbn [cond_Zopp Z.opp] in K.
  - pose proof (F2R_lt_0 radix2 (Float radix2 (Z.neg m) e) eq_refl). lra.
  - pose proof (F2R_gt_0 radix2 (Float radix2 (Z.pos m) e) eq_refl). lra.
Qed.

Lemma overflow_inf : forall (x : B) s, B2SF x = binary_overflow prec emax mode_NE s -> x = B754_infinity s.
Proof. intros [s'|s'| |s' m e H] s E; cbn in E; try discriminate; injection E as ->; reflexivity. Qed.

Lemma minus_ge0 : forall a b : B, ge0 a -> le0 b -> ge0 (Bminus mode_NE a b).
Proof.
  intros a b HA HB. apply ge0_iff in HA. apply le0_iff in HB.
  destruct HA as [A|[A|(FA & A)]]; [left; apply nan_minus; auto | |].
  - subst a. destruct HB as [K|[K|(K & _)]]; destruct b as [s|s| |s m e H]; try discriminate; try (injection K as ->); (left; reflexivity) || (right; reflexivity).
  - destruct HB as [K|[K|(FB & K)]]; [left; apply nan_minus; auto | subst b; right; destruct a; try discriminate; reflexivity |].
    pose proof (Bminus_correct prec emax Hp He mode_NE a b FA FB) as P. cbn [round_mode] in P.
    destruct (Rlt_bool_spec (Rabs (rnd (B2R a - B2R b))) (bpow radix2 emax)) as [O|O].
    + destruct P as (V & F & _). apply ge0_iff. right. right. split; [exact F|]. rewrite V. apply (rnd_nonneg prec emax Hp). lra.
    + destruct P as (P & SG). apply overflow_inf in P. rewrite P. destruct (Bsign a) eqn:SA; [exfalso | right; reflexivity].
      destruct (sign_zero a FA) as (Z1 & _). destruct (sign_zero b FB) as (_ & Z2). rewrite (Z1 SA A) in O. destruct (Bsign b) eqn:SB; [discriminate|].
      rewrite (Z2 eq_refl K), Rminus_0_r, round_0, Rabs_R0 in O by auto with typeclass_instances. pose proof (bpow_gt_0 radix2 emax). lra.
Qed.

Lemma mult_le0 : forall a b : B, ge0 a -> le0 b -> le0 (Bmult mode_NE a b).
Proof.
  intros a b HA HB. apply ge0_iff in HA. apply le0_iff in HB.
  destruct HA as [A|[A|(FA & A)]]; [left; apply nan_mult; auto | |].
  - subst a. destruct HB as [K|[K|(K & V)]]; destruct b as [s|s| |s m e H]; try discriminate; try (injection K as ->); try (left; reflexivity); try (right; reflexivity).
    destruct s; [right; reflexivity|]. exfalso. cbn in V. pose proof (F2R_gt_0 radix2 (Float radix2 (Z.pos m) e) eq_refl). lra.
  - destruct HB as [K|[K|(FB & K)]]; [left; apply nan_mult; auto | |].
    + subst b. destruct a as [s|s| |s m e H]; try discriminate; [left; reflexivity|]. destruct s; [|right; reflexivity].
      exfalso. cbn in A. pose proof (F2R_lt_0 radix2 (Float radix2 (Z.neg m) e) eq_refl). lra.
    + pose proof (Bmult_correct prec emax Hp He mode_NE a b) as P. cbn [round_mode] in P.
      destruct (Rlt_bool_spec (Rabs (rnd (B2R a * B2R b))) (bpow radix2 emax)) as [O|O].
      * destruct P as (V & F & _). rewrite FA, FB in F. apply le0_iff. right. right. split; [exact F|]. rewrite V.
        rewrite <- (round_0 radix2 fx ZnearestE). apply round_le; auto with typeclass_instances. nra.
      * apply overflow_inf in P. rewrite P.
        assert (NZ : B2R a * B2R b <> 0).
        { intros Z. rewrite Z, round_0, Rabs_R0 in O by auto with typeclass_instances. pose proof (bpow_gt_0 radix2 emax). lra. }
        destruct (sign_zero a FA) as (Z1 & _). destruct (sign_zero b FB) as (_ & Z2).
        destruct (Bsign a); [exfalso; apply NZ; rewrite (Z1 eq_refl A); ring|]. destruct (Bsign b); [right; reflexivity | exfalso; apply NZ; rewrite (Z2 eq_refl K); ring].
Qed.

Lemma term_le_sum : forall (f : nat -> B) n k, (forall k, (k < n)%nat -> up (f k)) -> is_finite (sum_from (Bplus mode_NE) (Bofz prec emax Hp He 0) f n) = true -> (k < n)%nat ->
  is_finite (f k) = true /\ 0 <= B2R (f k) <= B2R (sum_from (Bplus mode_NE) (Bofz prec emax Hp He 0) f n).
Proof.
  intros f n k. induction n as [|n IH]; intros U F K; [lia|]. rewrite sum_from_S in *. pose proof (Bplus_R prec emax Hp He _ _ F) as V.
  destruct (Bplus_finite_inv prec emax Hp He _ _ F) as (F1 & F2). rewrite V.
  pose proof (up_sum prec emax Hp He L f n ltac:(intros; apply U; lia)) as US. change (sum_from (fadd Fl) (fzero Fl) f n) with (sum_from (Bplus mode_NE) (Bofz prec emax Hp He 0) f n) in US.
  assert (P : forall x : B, is_finite x = true -> up x -> 0 <= B2R x).
  { intros x FX [N|N]; [destruct x; discriminate | now apply sign_val]. }
  pose proof (P _ F1 US) as P1. pose proof (P _ F2 (U n ltac:(lia))) as P2.
  destruct (Nat.eq_dec k n) as [->|NE].
  - repeat split; auto. apply round_ge_generic; auto with typeclass_instances; [apply (generic_format_B2R prec emax) | lra].
  - destruct (IH ltac:(intros; apply U; lia) F1 ltac:(lia)) as (FK & PK & LK). repeat split; auto.
    apply round_ge_generic; auto with typeclass_instances; [apply (generic_format_B2R prec emax) | lra].
Qed.

(** A quotient of a part by the whole. *)
Lemma ratio : forall x y : B, is_finite x = true -> is_finite y = true -> 0 <= B2R x <= B2R y -> 0 < B2R y ->
  is_finite (Bdiv mode_NE x y) = true /\ B2R (Bdiv mode_NE x y) = rnd (B2R x / B2R y) /\ 0 <= B2R (Bdiv mode_NE x y) <= 1.
Proof.
  intros x y FX FY (X0 & XY) Y0. assert (NZ : B2R y <> 0) by lra. pose proof (Bdiv_correct prec emax Hp He mode_NE x y NZ) as P. cbn [round_mode] in P.
  assert (Q : 0 <= B2R x / B2R y <= 1).
  { split; [apply Rmult_le_pos; [lra | left; now apply Rinv_0_lt_compat]|]. apply Rmult_le_reg_r with (B2R y); [lra|]. unfold Rdiv. rewrite Rmult_assoc, Rinv_l; lra. }
  assert (R1 : 0 <= rnd (B2R x / B2R y) <= 1).
  { split; [apply (rnd_nonneg prec emax Hp); lra|]. apply round_le_generic; auto with typeclass_instances; [|lra]. change 1 with (bpow radix2 0). apply generic_format_bpow.
    unfold SpecFloat.fexp, SpecFloat.emin. unfold Prec_gt_0 in Hp. unfold Prec_lt_emax in He. lia. }
  rewrite Rlt_bool_true in P.
  - destruct P as (V & F & _). rewrite FX in F. rewrite V. auto.
  - rewrite Rabs_pos_eq by lra. assert (1 < bpow radix2 emax); [|lra]. change 1 with (bpow radix2 0). apply bpow_lt. unfold Prec_gt_0 in Hp. unfold Prec_lt_emax in He. lia.
Qed.

Lemma minus_sum_ge0 : forall (f : nat -> B) n, (forall k, (k < n)%nat -> le0 (f k)) -> ge0 (sum_from (Bminus mode_NE) (Bofz prec emax Hp He 0) f n).
Proof.
  intros f n. induction n as [|n IH]; intros H; [right; reflexivity|]. rewrite sum_from_S. apply minus_ge0; [apply IH; intros; apply H; lia | apply H; lia].
Qed.

Lemma ce_ge0 : forall t p : list C, nan_in_nan_out L -> log_signs L -> (forall k, (k < Nat.min (length t) (length p))%nat -> ge0 (re (nth k t z0))) ->
  ge0 (norm_ce_loss Fl t p).
Proof.
  intros t p (HN & _) (HE & HL) HT. rewrite ce_terms. apply minus_sum_ge0. intros k K. unfold term. apply mult_le0; [now apply HT|].
  assert (U : forall j, (j < length p)%nat -> up (ek p j)) by (intros j _; apply HE).
  pose proof (up_sum prec emax Hp He L (ek p) (length p) U) as US. change (sum_from (fadd Fl) (fzero Fl) (ek p) (length p)) with (esum p) in US.
  assert (UK : up (ek p k)) by (apply U; lia).
  destruct (is_nan (Bdiv mode_NE (ek p k) (esum p))) eqn:N; [left; now apply HN|].
  assert (G : is_finite (Bdiv mode_NE (ek p k) (esum p)) = true /\ 0 <= B2R (Bdiv mode_NE (ek p k) (esum p)) <= 1); [|destruct G as (G1 & G2); exact (HL _ G1 G2)].
  destruct (is_finite (esum p)) eqn:FS.
  - destruct (term_le_sum (ek p) (length p) k U FS) as (FK & PK); [lia|]. fold (esum p) in PK.
    destruct (Rle_lt_or_eq_dec 0 (B2R (esum p))) as [S0|S0]; [lra | |].
    + destruct (ratio _ _ FK FS PK S0) as (A & _ & A2). auto.
    + exfalso. assert (K0 : B2R (ek p k) = 0) by lra. rewrite (up_zero prec emax _ US FS (eq_sym S0)) in N. rewrite (up_zero prec emax _ UK FK K0) in N. discriminate.
  - destruct US as [US|US]; [rewrite (nan_div prec emax Hp He) in N by auto; discriminate|].
    destruct (esum p) as [s|s| |s m e H]; cbn in FS, US; try discriminate; [subst s | destruct (ek p k); discriminate].
    destruct (ek p k) as [s|s| |s m e H]; cbn in N |- *; try discriminate; (split; [reflexivity | cbn; lra]).
Qed.

(** ** A finite loss *)
Lemma small_format : forall j q, (0 <= j < 2 ^ prec)%Z -> (emin <= q)%Z -> generic_format radix2 fx (IZR j * bpow radix2 q).
Proof.
  intros j q J Q. apply (generic_format_FLT radix2 emin prec). apply (FLT_spec radix2 emin prec _ (Float radix2 j q)); [reflexivity | | exact Q].
  cbn [Fnum]. rewrite Z.abs_eq by lia. exact (proj2 J).
Qed.

Lemma int_format : forall j, (0 <= j < 2 ^ prec)%Z -> generic_format radix2 fx (IZR j).
Proof.
  intros j J. rewrite <- (Rmult_1_r (IZR j)). change 1 with (bpow radix2 0). apply small_format; [exact J|].
  unfold SpecFloat.emin. unfold Prec_gt_0 in Hp. unfold Prec_lt_emax in He. lia.
Qed.

Lemma int_omega : forall j, (0 <= j < 2 ^ prec)%Z -> IZR j < bpow radix2 emax.
Proof.
  intros j J. apply Rlt_trans with (bpow radix2 prec).
  - rewrite <- IZR_Zpower by (unfold Prec_gt_0 in Hp; lia). apply IZR_lt. exact (proj2 J).
  - apply bpow_lt. exact He.
Qed.

Lemma norm_le : forall (z : C) b, (0 <= b)%Z -> (2 * (b * b) < 2 ^ prec)%Z -> cfinite z -> Rabs (B2R (re z)) <= IZR b -> Rabs (B2R (im z)) <= IZR b ->
  is_finite (c_norm_sq Fl z) = true /\ 0 <= B2R (c_norm_sq Fl z : B) <= IZR (2 * (b * b)).
Proof.
  intros z b B0 B1 (F1 & F2) H1 H2. assert (J1 : (0 <= b * b < 2 ^ prec)%Z) by nia. assert (J2 : (0 <= 2 * (b * b) < 2 ^ prec)%Z) by nia.
  assert (Q : forall w : B, is_finite w = true -> Rabs (B2R w) <= IZR b -> is_finite (Bmult mode_NE w w) = true /\ 0 <= B2R (Bmult mode_NE w w) <= IZR (b * b)).
  { intros w FW W. pose proof (Bmult_correct prec emax Hp He mode_NE w w) as P. cbn [round_mode] in P.
    assert (G0 : 0 <= rnd (B2R w * B2R w)) by (apply (rnd_nonneg prec emax Hp); nra).
    assert (G1 : rnd (B2R w * B2R w) <= IZR (b * b)).
    { apply round_le_generic; auto with typeclass_instances; [now apply int_format|]. rewrite mult_IZR. rewrite <- (Rabs_pos_eq (B2R w * B2R w)) by nra.
      rewrite Rabs_mult. apply Rmult_le_compat; auto using Rabs_pos. }
    pose proof (int_omega _ J1). rewrite Rlt_bool_true in P by (rewrite Rabs_pos_eq; lra). destruct P as (V & F & _). rewrite FW in F. rewrite V. auto. }
  destruct (Q _ F1 H1) as (A1 & A2). destruct (Q _ F2 H2) as (A3 & A4).
  pose proof (Bplus_correct prec emax Hp He mode_NE _ _ A1 A3) as P. cbn [round_mode] in P.
  set (u := B2R (Bmult mode_NE (re z) (re z))) in *. set (v := B2R (Bmult mode_NE (im z) (im z))) in *.
  assert (G0 : 0 <= rnd (u + v)) by (apply (rnd_nonneg prec emax Hp); lra).
  assert (G1 : rnd (u + v) <= IZR (2 * (b * b))) by (apply round_le_generic; auto with typeclass_instances; [now apply int_format | rewrite (mult_IZR 2); lra]).
  pose proof (int_omega _ J2). rewrite Rlt_bool_true in P by (rewrite Rabs_pos_eq; lra). destruct P as (V & F & _).
  split; [exact F|]. change (0 <= B2R (Bplus mode_NE (Bmult mode_NE (re z) (re z)) (Bmult mode_NE (im z) (im z))) <= IZR (2 * (b * b))). rewrite V. auto.
Qed.

Lemma sum_le : forall (f : nat -> B) n q, (Z.of_nat n < 2 ^ prec)%Z -> (emin <= q)%Z -> IZR (Z.of_nat n) * bpow radix2 q < bpow radix2 emax ->
  (forall k, (k < n)%nat -> is_finite (f k) = true /\ 0 <= B2R (f k) <= bpow radix2 q) ->
  is_finite (sum_from (Bplus mode_NE) (Bofz prec emax Hp He 0) f n) = true /\
  0 <= B2R (sum_from (Bplus mode_NE) (Bofz prec emax Hp He 0) f n) <= IZR (Z.of_nat n) * bpow radix2 q.
Proof.
  intros f n q. induction n as [|n IH]; intros N Q O H.
  - destruct (zero_val prec emax Hp He) as (ZV & ZF). split; [exact ZF|]. change (sum_from (Bplus mode_NE) (Bofz prec emax Hp He 0) f 0) with (Bofz prec emax Hp He 0). rewrite ZV. cbn. lra.
  - pose proof (bpow_gt_0 radix2 q) as Q0. rewrite Nat2Z.inj_succ, succ_IZR in O |- *.
    destruct IH as (F1 & L1); [lia | exact Q | lra | intros; apply H; lia|]. destruct (H n ltac:(lia)) as (F2 & L2). rewrite sum_from_S.
    pose proof (Bplus_correct prec emax Hp He mode_NE _ _ F1 F2) as P. cbn [round_mode] in P. set (s := B2R (sum_from _ _ _ _)) in *.
    assert (G0 : 0 <= rnd (s + B2R (f n))) by (apply (rnd_nonneg prec emax Hp); lra).
    assert (G1 : rnd (s + B2R (f n)) <= (IZR (Z.of_nat n) + 1) * bpow radix2 q).
    { apply round_le_generic; auto with typeclass_instances; [|lra]. rewrite <- succ_IZR. apply small_format; lia. }
    rewrite Rlt_bool_true in P by (rewrite Rabs_pos_eq; lra). destruct P as (V & F & _). rewrite V. auto.
Qed.

Lemma minus_sum_le : forall (f : nat -> B) n m, (0 <= m)%Z -> (Z.of_nat n * m < 2 ^ prec)%Z -> (forall k, (k < n)%nat -> is_finite (f k) = true /\ Rabs (B2R (f k)) <= IZR m) ->
  is_finite (sum_from (Bminus mode_NE) (Bofz prec emax Hp He 0) f n) = true /\ Rabs (B2R (sum_from (Bminus mode_NE) (Bofz prec emax Hp He 0) f n)) <= IZR (Z.of_nat n * m).
Proof.
  intros f n m M. induction n as [|n IH]; intros N H.
  - destruct (zero_val prec emax Hp He) as (ZV & ZF). split; [exact ZF|]. change (sum_from (Bminus mode_NE) (Bofz prec emax Hp He 0) f 0) with (Bofz prec emax Hp He 0). rewrite ZV, Rabs_R0. cbn. lra.
  - destruct IH as (F1 & L1); [nia | intros; apply H; lia|]. destruct (H n ltac:(lia)) as (F2 & L2). rewrite sum_from_S.
    pose proof (Bminus_correct prec emax Hp He mode_NE _ _ F1 F2) as P. cbn [round_mode] in P. set (s := B2R (sum_from _ _ _ _)) in *.
    assert (G1 : Rabs (rnd (s - B2R (f n))) <= IZR (Z.of_nat (S n) * m)).
    { apply abs_round_le_generic; auto with typeclass_instances; [apply int_format; nia|].
      replace (Z.of_nat (S n) * m)%Z with (Z.of_nat n * m + m)%Z by lia. rewrite plus_IZR. unfold Rminus. eapply Rle_trans; [apply Rabs_triang|]. rewrite Rabs_Ropp. lra. }
    pose proof (int_omega (Z.of_nat (S n) * m) ltac:(nia)). rewrite Rlt_bool_true in P by lra. destruct P as (V & F & _). rewrite V. auto.
Qed.

Lemma exp_mono : forall x y, x <= y -> exp x <= exp y.
Proof. intros x y [H| ->]; [left; now apply exp_increasing | apply Rle_refl]. Qed.

Lemma ce_finite : forall (t p : list C) (b q r : Z), rough L -> (0 <= b)%Z -> (2 * (b * b) < 2 ^ prec)%Z -> 2 * exp (IZR (2 * (b * b))) <= bpow radix2 q ->
  (0 <= q)%Z -> (0 <= r < prec)%Z -> (q + r < emax)%Z -> (emin <= - (1 + q + r))%Z -> (2 ^ r * (2 * (1 + q + r) + 1) < 2 ^ prec)%Z ->
  (Z.of_nat (length p) <= 2 ^ r)%Z ->
  Forall (fun z => cfinite z /\ Rabs (B2R (re z)) <= IZR b /\ Rabs (B2R (im z)) <= IZR b) p ->
  Forall (fun z => is_finite (re z) = true /\ Rabs (B2R (re z)) <= 1) t ->
  is_finite (norm_ce_loss Fl t p) = true /\
  Rabs (B2R (norm_ce_loss Fl t p : B)) <= IZR (Z.of_nat (Nat.min (length t) (length p)) * (2 * (1 + q + r) + 1)).
Proof.
  intros t p b q r (RE & RL) B0 B1 EB Q0 R0 QR EM LB LP HP HT. rewrite ce_terms.
  assert (R2 : (1 <= 2 ^ r)%Z) by (change 1%Z with (2 ^ 0)%Z; apply Z.pow_le_mono_r; lia).
  assert (R3 : (2 ^ r < 2 ^ prec)%Z) by (apply Z.pow_lt_mono_r; lia).
  assert (E : forall k, (k < length p)%nat -> is_finite (ek p k) = true /\ / 2 <= B2R (ek p k) <= bpow radix2 q).
  { intros k K. assert (HK : In (nth k p z0) p) by now apply nth_In. apply (proj1 (Forall_forall _ _) HP) in HK as (HF & H1 & H2).
    destruct (norm_le _ b B0 B1 HF H1 H2) as (NF & N0 & N1). apply exp_mono in N0 as X0. rewrite exp_0 in X0. apply exp_mono in N1 as X1.
    destruct (RE _ NF N0) as (FE & E1 & E2).
    - eapply Rle_lt_trans with (bpow radix2 q); [lra|]. apply bpow_lt. lia.
    - unfold ek. split; [exact FE|]. split; lra. }
  destruct (Nat.eq_dec (length p) 0) as [PZ|PZ].
  { rewrite PZ, Nat.min_0_r. destruct (zero_val prec emax Hp He) as (ZV & ZF). split; [exact ZF|].
    change (sum_from (Bminus mode_NE) (Bofz prec emax Hp He 0) (term t p) 0) with (Bofz prec emax Hp He 0). rewrite ZV, Rabs_R0. cbn. lra. }
  assert (NQ : IZR (Z.of_nat (length p)) * bpow radix2 q <= bpow radix2 (q + r)).
  { rewrite Z.add_comm, bpow_plus. apply Rmult_le_compat_r; [apply bpow_ge_0|]. rewrite <- IZR_Zpower by lia. apply IZR_le. exact LP. }
  destruct (sum_le (ek p) (length p) q) as (FS & S0 & S1).
  - lia.
  - lia.
  - eapply Rle_lt_trans; [exact NQ|]. apply bpow_lt. exact QR.
  - intros k K. destruct (E k K) as (A1 & A2). split; [exact A1 | lra].
  - fold (esum p) in FS, S0, S1.
    assert (U : forall j, (j < length p)%nat -> up (ek p j)).
    { intros j J. right. destruct (E j J) as (F1 & V1 & _). destruct (Bsign (ek p j)) eqn:SG; [|reflexivity]. exfalso. destruct (sign_zero _ F1) as (Z1 & _). specialize (Z1 SG). lra. }
    apply minus_sum_le; [lia | |].
    + eapply Z.le_lt_trans; [|exact LB]. apply Z.mul_le_mono_nonneg_r; lia.
    + intros k K. unfold term. assert (KP : (k < length p)%nat) by lia. destruct (E k KP) as (FK & EK & _).
      destruct (term_le_sum (ek p) (length p) k U FS KP) as (_ & PK). fold (esum p) in PK.
      destruct (ratio _ _ FK FS PK) as (FR & VR & R01); [lra|].
      assert (LR : bpow radix2 (- (1 + q + r)) <= B2R (Bdiv mode_NE (ek p k) (esum p))).
      { rewrite VR. apply round_ge_generic; auto with typeclass_instances.
        - apply generic_format_bpow. unfold SpecFloat.fexp. unfold Prec_gt_0 in Hp. lia.
        - replace (- (1 + q + r))%Z with (-1 + - (q + r))%Z by lia. rewrite bpow_plus, bpow_opp. change (bpow radix2 (-1)) with (/ 2).
          apply Rmult_le_compat; [lra | left; apply Rinv_0_lt_compat, bpow_gt_0 | lra |]. apply Rinv_le_contravar; [lra|]. eapply Rle_trans; [exact S1 | exact NQ]. }
      assert (RP : 0 < B2R (Bdiv mode_NE (ek p k) (esum p))) by (eapply Rlt_le_trans; [apply bpow_gt_0 | exact LR]).
      destruct (RL _ FR RP) as (FL & VL).
      assert (LN : Rabs (ln (B2R (Bdiv mode_NE (ek p k) (esum p)))) <= IZR (1 + q + r)).
      { rewrite Rabs_left1.
        - assert (- IZR (1 + q + r) <= ln (B2R (Bdiv mode_NE (ek p k) (esum p)))); [|lra].
          rewrite <- (ln_exp (- IZR (1 + q + r))). destruct (Rle_lt_or_eq_dec (exp (- IZR (1 + q + r))) (B2R (Bdiv mode_NE (ek p k) (esum p)))) as [X|X].
          + eapply Rle_trans; [|exact LR]. rewrite <- opp_IZR, bpow_exp. rewrite opp_IZR. apply exp_mono.
            assert (0 < ln 2 <= 1). { split; [rewrite <- ln_1; apply ln_increasing; lra|]. rewrite <- (ln_exp 1). destruct (Rle_lt_or_eq_dec 2 (exp 1)) as [X|X]; [pose proof (exp_ineq1 1); lra | left; apply ln_increasing; lra | rewrite <- X; lra]. }
            assert (0 <= IZR (1 + q + r)) by (apply IZR_le; lia). change (IZR radix2) with 2. nra.
          + left. apply ln_increasing; [apply exp_pos | exact X].
          + rewrite <- X. apply Rle_refl.
        - rewrite <- ln_1. destruct (Rle_lt_or_eq_dec _ _ (proj2 R01)) as [X|X]; [left; now apply ln_increasing | rewrite X; apply Rle_refl]. }
      assert (HK : In (nth k t z0) t) by (apply nth_In; lia). apply (proj1 (Forall_forall _ _) HT) in HK as (FT & VT).
      assert (VL2 : Rabs (B2R (l_ln L (Bdiv mode_NE (ek p k) (esum p)))) <= IZR (2 * (1 + q + r) + 1)) by (rewrite plus_IZR, (mult_IZR 2); lra).
      pose proof (Bmult_correct prec emax Hp He mode_NE (re (nth k t z0)) (l_ln L (Bdiv mode_NE (ek p k) (esum p)))) as P. cbn [round_mode] in P.
      assert (J : (0 <= 2 * (1 + q + r) + 1 < 2 ^ prec)%Z) by nia.
      assert (G : Rabs (rnd (B2R (re (nth k t z0)) * B2R (l_ln L (Bdiv mode_NE (ek p k) (esum p))))) <= IZR (2 * (1 + q + r) + 1)).
      { apply abs_round_le_generic; auto with typeclass_instances; [now apply int_format|]. rewrite Rabs_mult.
        eapply Rle_trans; [apply Rmult_le_compat; [apply Rabs_pos | apply Rabs_pos | exact VT | exact VL2]|]. lra. }
      pose proof (int_omega _ J). rewrite Rlt_bool_true in P by lra. destruct P as (V & F & _). rewrite FL in F. rewrite V.
      split; [exact (eq_trans F (f_equal (fun c => c && true)%bool FT)) | exact G].
Qed.

End LossCE.
