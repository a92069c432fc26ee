(** * Sizes of exponentials; a library meeting the assumptions of C72 *)
From Coq Require Import ZArith Reals Lra Psatz.
From Flocq Require Import Core BinarySingleNaN.
From Verif Require Import Base BaseFacts Float Matrix Cplx RFloat BFloat BFacts SpecRound RoundFacts RoundNet SpecNan SpecLossFloat LossFloatCE.
Local Open Scope R_scope.

Lemma exp_nat : forall n x, exp (INR n * x) = exp x ^ n.
Proof.
  intros n x. induction n as [|n IH]; [cbn; rewrite Rmult_0_l; apply exp_0|]. rewrite S_INR, Rmult_plus_distr_r, Rmult_1_l, exp_plus, IH. cbn [pow]. ring.
Qed.

Lemma e_lower : 267 / 100 <= exp 1.
Proof.
  pose proof (exp_ineq1 (1 / 32) ltac:(lra)) as H. replace 1 with (INR 32 * (1 / 32)) by (cbn; lra). rewrite exp_nat.
  apply Rle_trans with ((33 / 32) ^ 32); [|apply pow_incr; lra]. unfold Rdiv. rewrite Rpow_mult_distr, pow_inv, !pow_IZR.
  apply Rmult_le_reg_r with (IZR (32 ^ Z.of_nat 32)); [apply IZR_lt; reflexivity|]. rewrite (Rmult_assoc (IZR (33 ^ _))), Rinv_l by (apply IZR_neq; discriminate).
  apply Rmult_le_reg_r with 100; [lra|]. replace (267 * / 100 * IZR (32 ^ Z.of_nat 32) * 100) with (267 * IZR (32 ^ Z.of_nat 32)) by lra.
  rewrite Rmult_1_r, <- !mult_IZR. apply IZR_le. vm_compute. discriminate.
Qed.

Lemma e_upper : exp 1 <= 274 / 100.
Proof.
  pose proof (exp_ineq1 (- (1 / 64)) ltac:(lra)) as H. rewrite exp_Ropp in H. pose proof (exp_pos (1 / 64)) as P.
  assert (U : exp (1 / 64) <= 64 / 63).
  { apply Rmult_le_reg_r with (/ exp (1 / 64)); [now apply Rinv_0_lt_compat|]. rewrite Rinv_r by lra. lra. }
  replace 1 with (INR 64 * (1 / 64)) by (cbn; lra). rewrite exp_nat.
  apply Rle_trans with ((64 / 63) ^ 64); [apply pow_incr; lra|]. unfold Rdiv. rewrite Rpow_mult_distr, pow_inv, !pow_IZR.
  apply Rmult_le_reg_r with (IZR (63 ^ Z.of_nat 64)); [apply IZR_lt; reflexivity|]. rewrite (Rmult_assoc (IZR (64 ^ _))), Rinv_l by (apply IZR_neq; discriminate).
  apply Rmult_le_reg_r with 100; [lra|]. replace (274 * / 100 * IZR (63 ^ Z.of_nat 64) * 100) with (274 * IZR (63 ^ Z.of_nat 64)) by lra.
  rewrite Rmult_1_r, <- !mult_IZR. apply IZR_le. vm_compute. discriminate.
Qed.

Lemma exp_ge : forall n k : Z, (0 <= n)%Z -> (0 <= k)%Z -> (2 ^ k * 100 ^ n <= 267 ^ n)%Z -> bpow radix2 k <= exp (IZR n).
Proof.
  intros n k N K H. rewrite <- (Z2Nat.id n) by lia. rewrite <- INR_IZR_INZ, <- (Rmult_1_r (INR _)), exp_nat.
  apply Rle_trans with ((267 / 100) ^ Z.to_nat n); [|apply pow_incr; pose proof e_lower; lra]. unfold Rdiv. rewrite Rpow_mult_distr, pow_inv, !pow_IZR, Z2Nat.id by lia.
  apply Rmult_le_reg_r with (IZR (100 ^ n)); [apply IZR_lt; lia|]. rewrite Rmult_assoc, Rinv_l by (apply IZR_neq; lia).
  rewrite <- IZR_Zpower by lia. rewrite Rmult_1_r, <- mult_IZR. apply IZR_le. exact H.
Qed.

Lemma exp_le : forall n k : Z, (0 <= n)%Z -> (0 <= k)%Z -> (2 * 274 ^ n <= 2 ^ k * 100 ^ n)%Z -> 2 * exp (IZR n) <= bpow radix2 k.
Proof.
  intros n k N K H. rewrite <- (Z2Nat.id n) by lia. rewrite <- INR_IZR_INZ, <- (Rmult_1_r (INR _)), exp_nat. pose proof (exp_pos 1).
  apply Rle_trans with (2 * (274 / 100) ^ Z.to_nat n); [apply Rmult_le_compat_l; [lra|]; apply pow_incr; pose proof e_upper; lra|].
  unfold Rdiv. rewrite Rpow_mult_distr, pow_inv, !pow_IZR, Z2Nat.id by lia.
  apply Rmult_le_reg_r with (IZR (100 ^ n)); [apply IZR_lt; lia|]. rewrite !Rmult_assoc, Rinv_l by (apply IZR_neq; lia).
  rewrite <- IZR_Zpower by lia. rewrite Rmult_1_r, <- !mult_IZR. apply IZR_le. exact H.
Qed.

Lemma over32 : omega 128 <= exp (IZR 10 * IZR 10).
Proof. rewrite <- mult_IZR. apply exp_ge; [lia | lia | vm_compute; discriminate]. Qed.
Lemma over64 : omega 1024 <= exp (IZR 27 * IZR 27).
Proof. rewrite <- mult_IZR. apply exp_ge; [lia | lia | vm_compute; discriminate]. Qed.
Lemma under32 : 2 * exp (IZR (2 * (6 * 6))) <= bpow radix2 106.
Proof. apply exp_le; [lia | lia | vm_compute; discriminate]. Qed.
Lemma under64 : 2 * exp (IZR (2 * (18 * 18))) <= bpow radix2 944.
Proof. apply exp_le; [lia | lia | vm_compute; discriminate]. Qed.

(** ** Correctly rounded exponential and logarithm, with overflow, poles and NaN *)
Section Witness.
Context (prec emax : Z) (Hp : Prec_gt_0 prec) (He : Prec_lt_emax prec emax).
Local Notation B := (binary_float prec emax).
Local Notation fx := (SpecFloat.fexp prec emax).
Local Notation rnd := (round radix2 fx ZnearestE).
Local Existing Instance vexp.

Definition exp_full (x : B) : B :=
  match x with
  | B754_nan => B754_nan
  | B754_infinity s => if s then B754_zero false else B754_infinity false
  | _ => if Rlt_dec (rnd (exp (B2R x))) (bpow radix2 emax)
         then let y := Bnear prec emax Hp He (exp (B2R x)) in if Bsign y then B754_zero false else y
         else B754_infinity false
  end.
Definition ln_full (x : B) : B :=
  match x with
  | B754_zero _ => B754_infinity true
  | B754_infinity false => B754_infinity false
  | B754_finite false _ _ _ => Bnear prec emax Hp He (ln (B2R x))
  | _ => B754_nan
  end.
Definition libm_full : libm B :=
  mkLibm B exp_full ln_full (fun x => x) (fun x => x) (fun x => x) (fun x => x) (fun x => x) (Bplus mode_NE) (fun _ => false).

Lemma full_nan : nan_in_nan_out libm_full.
Proof.
  split.
  - intros [s|s| |s m e H] N; try discriminate. repeat split; reflexivity.
  - intros x y H. apply (NanFacts.nan_plus prec emax Hp He). exact H.
Qed.

Lemma exp_full_finite : forall x : B, is_finite x = true -> exp_full x = if Rlt_dec (rnd (exp (B2R x))) (bpow radix2 emax)
         then let y := Bnear prec emax Hp He (exp (B2R x)) in if Bsign y then B754_zero false else y
         else B754_infinity false.
Proof. intros [s|s| |s m e H] F; try discriminate; reflexivity. Qed.

Lemma exp_full_val : forall x : B, is_finite x = true -> rnd (exp (B2R x)) < bpow radix2 emax ->
  is_finite (exp_full x) = true /\ B2R (exp_full x) = rnd (exp (B2R x)).
Proof.
  intros x F H. rewrite exp_full_finite by exact F. destruct (Rlt_dec _ _) as [K|K]; [|contradiction]. pose proof (exp_pos (B2R x)) as P.
  assert (R0 : 0 <= rnd (exp (B2R x))) by (apply (rnd_nonneg prec emax Hp); lra).
  destruct (Bnear_ok prec emax Hp He (exp (B2R x))) as (F1 & V1); [rewrite Rabs_pos_eq; auto|]. cbv zeta. destruct (Bsign _) eqn:SG; [|auto].
  split; [reflexivity|]. cbn [B2R]. rewrite <- V1 in R0 |- *. destruct (sign_zero prec emax _ F1) as (Z1 & _). symmetry. apply Z1; auto.
Qed.

Lemma full_overflows : exp_overflows libm_full.
Proof.
  split; [|reflexivity]. intros x F H. cbn [l_exp libm_full]. rewrite exp_full_finite by exact F. destruct (Rlt_dec _ _) as [K|K]; [exfalso | reflexivity].
  assert (bpow radix2 emax <= rnd (exp (B2R x))); [|lra]. apply round_ge_generic; auto with typeclass_instances. apply generic_format_bpow.
  unfold SpecFloat.fexp, SpecFloat.emin. unfold Prec_gt_0 in Hp. unfold Prec_lt_emax in He. lia.
Qed.

Context (EM : (64 < emax)%Z) (PM : (4 <= prec)%Z).

Lemma ln_full_val : forall x : B, is_finite x = true -> 0 < B2R x -> is_finite (ln_full x) = true /\ B2R (ln_full x) = rnd (ln (B2R x)).
Proof.
  intros [s|s| |s m e H] F P; try discriminate; [cbn in P; lra|]. destruct s; [pose proof (F2R_lt_0 radix2 (Float radix2 (Z.neg m) e) eq_refl); cbn in P; lra|].
  cbn [ln_full]. set (x := B754_finite false m e H) in *. apply Bnear_ok.
  assert (LB : bpow radix2 (SpecFloat.emin prec emax) <= B2R x).
  { pose proof (abs_B2R_ge_emin prec emax x eq_refl) as A. rewrite Rabs_pos_eq in A by lra. exact A. }
  pose proof (abs_B2R_lt_emax prec emax x) as UB. rewrite Rabs_pos_eq in UB by lra.
  assert (L2 : 0 < ln 2 < 1). { split; [rewrite <- ln_1; apply ln_increasing; lra|]. rewrite <- (ln_exp 1). apply ln_increasing; [lra|]. pose proof (exp_ineq1 1); lra. }
  assert (X1 : Rabs (ln (B2R x)) <= IZR (2 * emax)).
  { assert (LE : forall a b, 0 < a -> a <= b -> ln a <= ln b) by (intros a b A [K| ->]; [left; now apply ln_increasing | apply Rle_refl]).
    assert (BL : forall k, ln (bpow radix2 k) = IZR k * ln 2) by (intros k; rewrite bpow_exp, ln_exp; reflexivity).
    assert (E0 : 0 < IZR emax) by (apply IZR_lt; lia). rewrite mult_IZR. apply Rabs_le. split.
    - apply Rle_trans with (IZR (SpecFloat.emin prec emax) * ln 2); [|rewrite <- BL; apply LE; [apply bpow_gt_0 | exact LB]].
      assert (- (2 * emax) <= SpecFloat.emin prec emax)%Z as EE by (unfold SpecFloat.emin; unfold Prec_lt_emax in He; lia). apply IZR_le in EE. rewrite opp_IZR, mult_IZR in EE.
      assert (IZR (SpecFloat.emin prec emax) <= 0) by (apply IZR_le; unfold SpecFloat.emin; unfold Prec_gt_0 in Hp; unfold Prec_lt_emax in He; lia). nra.
    - apply Rle_trans with (IZR emax * ln 2); [rewrite <- BL; apply LE; lra | nra]. }
  eapply Rle_lt_trans with (bpow radix2 (emax - 1)); [|apply bpow_lt; lia].
  apply abs_round_le_generic; auto with typeclass_instances.
  - apply generic_format_bpow. unfold SpecFloat.fexp, SpecFloat.emin. unfold Prec_gt_0 in Hp. unfold Prec_lt_emax in He. lia.
  - eapply Rle_trans; [exact X1|]. rewrite <- IZR_Zpower by lia. apply IZR_le. change (radix_val radix2) with 2%Z.
    assert (forall k, 8 <= k -> 2 * k <= 2 ^ (k - 1))%Z as G; [|apply G; lia].
    intros k K. pattern k. apply Zlt_lower_bound_ind with 8%Z; [|exact K]. intros j IH J. destruct (Z.eq_dec j 8) as [->|]; [vm_compute; discriminate|].
    specialize (IH (j - 1)%Z ltac:(lia)). replace (j - 1)%Z with (1 + (j - 1 - 1))%Z at 1 by lia. rewrite Z.pow_add_r by lia. lia.
Qed.

Lemma full_signs : log_signs libm_full.
Proof.
  split; cbn [l_exp l_ln libm_full].
  - intros x. destruct (is_finite x) eqn:F.
    + right. rewrite exp_full_finite by exact F. destruct (Rlt_dec _ _); [|reflexivity]. cbv zeta. destruct (Bsign (Bnear _ _ _ _ _)) eqn:SG; [reflexivity | exact SG].
    + destruct x as [s|s| |s m e H]; try discriminate; [destruct s; right; reflexivity | left; reflexivity].
  - intros x F (X0 & X1). destruct (Rle_lt_or_eq_dec _ _ X0) as [P|P].
    + destruct (ln_full_val x F P) as (F1 & V1). apply (le0_iff prec emax). right. right. split; [exact F1|]. rewrite V1.
      rewrite <- (round_0 radix2 fx ZnearestE). apply round_le; auto with typeclass_instances. rewrite <- ln_1.
      destruct (Rle_lt_or_eq_dec _ _ X1) as [K|K]; [left; now apply ln_increasing | rewrite K; apply Rle_refl].
    + destruct x as [s|s| |s m e H]; try discriminate; [right; reflexivity|]. exfalso. cbn in P.
      destruct s; [pose proof (F2R_lt_0 radix2 (Float radix2 (Z.neg m) e) eq_refl) | pose proof (F2R_gt_0 radix2 (Float radix2 (Z.pos m) e) eq_refl)]; cbn in P; lra.
Qed.

Lemma full_rough : rough libm_full.
Proof.
  assert (U : 0 < uu prec <= / 8).
  { split; [apply uu_pos|]. unfold uu. assert (bpow radix2 (- prec + 1) <= bpow radix2 (-2)) by (apply bpow_le; lia). change (bpow radix2 (-2)) with (/ 4) in *. lra. }
  assert (E : 0 < eta prec emax <= / 8).
  { split; [apply eta_pos|]. unfold eta. assert (bpow radix2 (SpecFloat.emin prec emax) <= bpow radix2 (-2)) by (apply bpow_le; unfold SpecFloat.emin; unfold Prec_gt_0 in Hp; unfold Prec_lt_emax in He; lia).
    change (bpow radix2 (-2)) with (/ 4) in *. lra. }
  split; cbn [l_exp l_ln libm_full].
  - intros x F X0 O. assert (E1 : 1 <= exp (B2R x)) by (rewrite <- exp_0; now apply exp_mono).
    destruct (round_any prec emax Hp (exp (B2R x))) as (e & h & He1 & Hh & RS). apply Rabs_le_inv in He1, Hh.
    assert (R1 : exp (B2R x) / 2 <= rnd (exp (B2R x)) <= 2 * exp (B2R x)) by (rewrite RS; split; nra).
    destruct (exp_full_val x F) as (F1 & V1); [unfold omega in O; lra|]. rewrite V1. auto.
  - intros x F P. destruct (ln_full_val x F P) as (F1 & V1). split; [exact F1|]. rewrite V1.
    destruct (round_any prec emax Hp (ln (B2R x))) as (e & h & He1 & Hh & RS). rewrite RS.
    eapply Rle_trans; [apply Rabs_triang|]. rewrite Rabs_mult. assert (Rabs (1 + e) <= 2) by (eapply Rle_trans; [apply Rabs_triang|]; rewrite Rabs_R1; lra).
    pose proof (Rabs_pos (ln (B2R x))). nra.
Qed.
End Witness.

(** ** Losses of data sets; statements over pairs of entries *)
From Verif Require Import Input Loss Dense Layer Dataset Network SpecMatrix CFacts LossFacts LossFloatFacts.

Lemma net_loss_inv : forall Fl p (n : network Fl) data f v, net_loss Fl p n data f = Ret (Ok v) ->
  exists a vs, v = fdiv Fl (fold_left (fadd Fl) vs a) (fofnat Fl (length (a :: vs))) /\
    Forall (fun w => exists t y, loss Fl t y f = Ok w) (a :: vs).
Proof.
  intros Fl p n [ins tgs] f v E. unfold net_loss in E. cbn [ds_points_iter ds_inputs ds_target] in E.
  apply obind_inv in E as (vals & EV & E). destruct vals as [|a vs]; [discriminate|]. cbn [reduce unwrap_opt obind] in E. injection E as <-.
  exists a, vs. split; [reflexivity|]. apply mapM_inv in EV. clear - EV. revert EV. generalize (a :: vs). intros l H.
  induction H as [|q w lq l H _ IH]; constructor; [|exact IH].
  apply obind_inv in H as ([y|e] & _ & H); cbn in H; [|discriminate]. destruct (loss Fl (snd q) y f) eqn:E; cbn in H; [injection H as <-; eauto | discriminate].
Qed.

Lemma net_loss_up : forall prec emax Hp He (L : libm (binary_float prec emax)) p (n : network (BOps prec emax Hp He L)) data v,
  net_loss (BOps prec emax Hp He L) p n data MeanSquare = Ret (Ok v) -> is_nan v = true \/ Bsign v = false.
Proof.
  intros prec emax Hp He L p n data v E. apply net_loss_inv in E as (a & vs & -> & H).
  assert (G : forall l, Forall (fun w => exists t y, loss (BOps prec emax Hp He L) t y MeanSquare = Ok w) l -> Forall (up prec emax) l).
  { intros l F. eapply Forall_impl; [|exact F]. intros w ([t|t] & [y|y] & K); cbn in K; try discriminate; injection K as <-; apply mean_sq_up. }
  apply G in H. inversion H as [|? ? H1 H2]; subst. apply up_div; [|apply up_nat]. clear - H1 H2. revert a H1. induction H2 as [|x l HX _ IH]; intros a H1; cbn [fold_left]; [exact H1|].
  apply IH. now apply up_plus.
Qed.

Lemma pairs_nth : forall {A} (d : A) l r k, (k < Nat.min (length l) (length r))%nat -> In (nth k l d, nth k r d) (combine l r).
Proof. intros A d l r k K. rewrite (combine_nth_seq d d). apply in_map_iff. exists k. split; [reflexivity|]. apply in_seq. lia. Qed.
