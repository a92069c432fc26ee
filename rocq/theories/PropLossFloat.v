(** * C72: the losses in single and double precision *)
From Coq Require Import ZArith Reals Lra.
From Flocq Require Import Core BinarySingleNaN.
From Verif Require Import Base Float Matrix Cplx Input Loss Layer Dataset Network RFloat BFloat CFacts SpecMatrix SpecLoss SpecRound SpecNan SpecLossFloat
  RoundFacts LossFloatFacts LossFloatCE LossFloatCalc.
Local Notation re := Cplx.re. Local Notation im := Cplx.im.
Local Open Scope R_scope.

(** The mean-square loss is a NaN or has its sign bit clear, for any entries
    whatever; so has the loss of a data set. *)
Theorem C72_nonneg : forall prec emax Hp He (L : libm (binary_float prec emax)) (t y : IOType (cplx (binary_float prec emax))) v,
  loss (BOps prec emax Hp He L) t y MeanSquare = Ok v -> is_nan v = true \/ Bsign v = false.
Proof. intros prec emax Hp He L [t|t] [y|y] v E; cbn in E; try discriminate; injection E as <-; apply mean_sq_up. Qed.
Print Assumptions C72_nonneg.

Theorem C72_network : forall prec emax Hp He (L : libm (binary_float prec emax)) p (n : network (BOps prec emax Hp He L)) data v,
  net_loss (BOps prec emax Hp He L) p n data MeanSquare = Ret (Ok v) -> is_nan v = true \/ Bsign v = false.
Proof. exact net_loss_up. Qed.
Print Assumptions C72_network.

(** The loss is exactly +0 if all parts differ by at most 2^e, where the square
    of 2^e is at most half the smallest positive number: e = -75 in single and
    e = -538 in double precision. *)
Theorem C72_vanishes : forall prec emax Hp He (L : libm (binary_float prec emax)) (t y : list (cplx (binary_float prec emax))) e,
  (2 <= Nat.min (length t) (length y))%nat -> Forall cfinite t -> Forall cfinite y ->
  (SpecFloat.emin prec emax <= e)%Z -> (2 * e < SpecFloat.emin prec emax)%Z ->
  (forall a b, In (a, b) (combine t y) -> Rabs (B2R (re a) - B2R (re b)) <= bpow radix2 e /\ Rabs (B2R (im a) - B2R (im b)) <= bpow radix2 e) ->
  loss (BOps prec emax Hp He L) (IOScalar t) (IOScalar y) MeanSquare = Ok (B754_zero false).
Proof.
  intros prec emax Hp He L t y e N FT FY E1 E2 H. cbn [loss release_loss]. f_equal.
  apply (mean_sq_zero prec emax Hp He L t y e); auto. intros k K. apply H, pairs_nth, K.
Qed.
Print Assumptions C72_vanishes.

(** In particular it is +0 on a perfect prediction. *)
Theorem C72_perfect : forall prec emax Hp He (L : libm (binary_float prec emax)) (t : list (cplx (binary_float prec emax))),
  (1 < prec)%Z -> (2 <= length t)%nat -> Forall cfinite t -> loss (BOps prec emax Hp He L) (IOScalar t) (IOScalar t) MeanSquare = Ok (B754_zero false).
Proof.
  intros prec emax Hp He L t P N F. apply (C72_vanishes prec emax Hp He L t t (SpecFloat.emin prec emax)); auto.
  - now rewrite Nat.min_id.
  - apply Z.le_refl.
  - unfold SpecFloat.emin. unfold Prec_lt_emax in He. lia.
  - intros a b H. assert (a = b) as ->. { clear - H. induction t as [|x t IH]; cbn in H; [easy|]. destruct H as [E|H]; [congruence | auto]. }
    unfold Rminus. rewrite !Rplus_opp_r, Rabs_R0. pose proof (bpow_gt_0 radix2 (SpecFloat.emin prec emax)). lra.
Qed.
Print Assumptions C72_perfect.

(** But not only on a perfect prediction: 0 instead of 2^-75 is no error. *)
Theorem C72_perfect_refuted : exists t y : list (cplx b32), Forall cfinite t /\ Forall cfinite y /\ map cval t <> map cval y /\
  forall L, loss (B32Ops L) (IOScalar t) (IOScalar y) MeanSquare = Ok (B754_zero false).
Proof.
  set (z := mkC (B754_zero false) (B754_zero false) : cplx b32).
  set (s := mkC (@B754_finite 24 128 false 8388608 (-98) eq_refl) (B754_zero false) : cplx b32).
  assert (FZ : cfinite z) by (split; reflexivity). assert (FS : cfinite s) by (split; reflexivity).
  assert (VS : B2R (re s) = bpow radix2 (-75)) by (cbn; unfold F2R; cbn; lra).
  exists [s; z], [z; z]. split; [auto|]. split; [auto|]. split.
  - intros E. apply (f_equal (fun l => re (nth 0 l 0%RC))) in E. change (B2R (re s) = 0) in E. rewrite VS in E. pose proof (bpow_gt_0 radix2 (-75)). lra.
  - intros L. apply (C72_vanishes 24 128 prec24 emax128 L _ _ (-75)); auto; try (vm_compute; discriminate); try reflexivity.
    intros a b [E|[E|[]]]; injection E as <- <-; rewrite ?VS; cbn [re im z s B2R]; rewrite ?Rminus_0_r; [rewrite (Rabs_pos_eq (bpow _ _)) by apply bpow_ge_0|];
      rewrite Rabs_R0; pose proof (bpow_gt_0 radix2 (-75)); lra.
Qed.
Print Assumptions C72_perfect_refuted.

(** The rounding error of the mean-square loss of n entries: n + 5 roundings and
    five half-units of underflow, as long as the sum stays in range and the
    count is exact. *)
Theorem C72_error : forall prec emax Hp He (L : libm (binary_float prec emax)) (t y : list (cplx (binary_float prec emax))),
  let n := Nat.min (length t) (length y) in
  let exact_loss := sse (map cval t) (map cval y) / (INR n - 1) in
  let grow := (1 + uu prec) ^ (n + 5) in
  (2 <= n)%nat -> (Z.of_nat n <= 2 ^ prec)%Z -> Forall cfinite t -> Forall cfinite y ->
  grow * (sse (map cval t) (map cval y) + (2 * INR n + 1) * eta prec emax) < omega emax ->
  loss ROps (IOScalar (map cval t)) (IOScalar (map cval y)) MeanSquare = Ok exact_loss /\
  exists v : binary_float prec emax, loss (BOps prec emax Hp He L) (IOScalar t) (IOScalar y) MeanSquare = Ok v /\ is_finite v = true /\
    Rabs (B2R v - exact_loss) <= (grow - 1) * exact_loss + grow * (5 * eta prec emax).
Proof.
  intros prec emax Hp He L t y n x g N1 N2 FT FY O. split.
  - destruct (PropLoss.C33_exact (map cval t) (map cval y)) as (l & E & V & _); [rewrite !map_length; exact N1|].
    rewrite E, V, !map_length. reflexivity.
  - destruct (mean_sq_close prec emax Hp He L t y N1 N2 FT FY O) as (F & _ & _ & H). eexists. split; [reflexivity|]. split; [exact F|].
    eapply Rle_trans; [exact H|]. right. unfold g, x, n. ring.
Qed.
Print Assumptions C72_error.

(** The cross entropy is NaN as soon as one prediction has a part of 10 or more
    (single precision), 27 or more (double precision), or a part that is not
    finite, whatever the targets. *)
Theorem C72_blowup : (forall (L : libm b32) (t y : list (cplx b32)) k z, nan_in_nan_out L -> exp_overflows L ->
     (k < length t)%nat -> nth_error y k = Some z ->
     10 <= Rabs (B2R (re z)) \/ 10 <= Rabs (B2R (im z)) \/ is_finite (re z) = false \/ is_finite (im z) = false ->
     exists v, loss (B32Ops L) (IOScalar t) (IOScalar y) NormCrossEntropy = Ok v /\ is_nan v = true) /\
  (forall (L : libm b64) (t y : list (cplx b64)) k z, nan_in_nan_out L -> exp_overflows L ->
     (k < length t)%nat -> nth_error y k = Some z ->
     27 <= Rabs (B2R (re z)) \/ 27 <= Rabs (B2R (im z)) \/ is_finite (re z) = false \/ is_finite (im z) = false ->
     exists v, loss (B64Ops L) (IOScalar t) (IOScalar y) NormCrossEntropy = Ok v /\ is_nan v = true).
Proof.
  split; intros L t y k z HN HO K E H; (assert (KL : (k < length y)%nat) by (apply nth_error_Some; congruence)); eexists; (split; [reflexivity|]).
  - apply (ce_big 24 128 prec24 emax128 L t y 10 k HN HO); [lia | vm_compute; discriminate | exact over32 | lia|]. now rewrite (nth_error_nth y k _ E).
  - apply (ce_big 53 1024 prec53 emax1024 L t y 27 k HN HO); [lia | vm_compute; discriminate | exact over64 | lia|]. now rewrite (nth_error_nth y k _ E).
Qed.
Print Assumptions C72_blowup.

(** With nonnegative targets it is NaN or not negative. *)
Theorem C72_ce_nonneg : forall prec emax Hp He (L : libm (binary_float prec emax)) (t y : list (cplx (binary_float prec emax))) v, nan_in_nan_out L -> log_signs L ->
  Forall (fun z => Bleb (B754_zero false) (re z) = true) t ->
  loss (BOps prec emax Hp He L) (IOScalar t) (IOScalar y) NormCrossEntropy = Ok v -> is_nan v = true \/ Bleb (B754_zero false) v = true.
Proof.
  intros prec emax Hp He L t y v HN HS HT E. cbn in E. injection E as <-. apply ce_ge0; auto. intros k K. right.
  apply (proj1 (Forall_forall _ _) HT), nth_In. lia.
Qed.
Print Assumptions C72_ce_nonneg.

(** With targets between -1 and 1 and predictions whose parts stay within 6
    (single) or 18 (double precision) it is an ordinary number, whatever the
    predictions, for up to 2^16 and 2^40 of them. *)
Theorem C72_ce_finite : (forall (L : libm b32) (t y : list (cplx b32)), rough L -> (Z.of_nat (length y) <= 2 ^ 16)%Z ->
     Forall (fun z => cfinite z /\ Rabs (B2R (re z)) <= 6 /\ Rabs (B2R (im z)) <= 6) y ->
     Forall (fun z => is_finite (re z) = true /\ Rabs (B2R (re z)) <= 1) t ->
     exists v : b32, loss (B32Ops L) (IOScalar t) (IOScalar y) NormCrossEntropy = Ok v /\ is_finite v = true) /\
  (forall (L : libm b64) (t y : list (cplx b64)), rough L -> (Z.of_nat (length y) <= 2 ^ 40)%Z ->
     Forall (fun z => cfinite z /\ Rabs (B2R (re z)) <= 18 /\ Rabs (B2R (im z)) <= 18) y ->
     Forall (fun z => is_finite (re z) = true /\ Rabs (B2R (re z)) <= 1) t ->
     exists v : b64, loss (B64Ops L) (IOScalar t) (IOScalar y) NormCrossEntropy = Ok v /\ is_finite v = true).
Proof.
  split; intros L t y HR N HY HT; eexists; (split; [reflexivity|]).
  - apply (ce_finite 24 128 prec24 emax128 L t y 6 106 16); auto; try lia; try (vm_compute; try split; (reflexivity || discriminate)). exact under32.
  - apply (ce_finite 53 1024 prec53 emax1024 L t y 18 944 40); auto; try lia; try (vm_compute; try split; (reflexivity || discriminate)). exact under64.
Qed.
Print Assumptions C72_ce_finite.

(** A library as assumed exists in both precisions; entries too. *)
Example C72_ex : (exists L : libm b32, nan_in_nan_out L /\ exp_overflows L /\ log_signs L /\ rough L) /\
  (exists L : libm b64, nan_in_nan_out L /\ exp_overflows L /\ log_signs L /\ rough L) /\
  (exists z : cplx b32, cfinite z /\ 10 <= Rabs (B2R (re z))) /\
  (exists t y : list (cplx b32), let n := Nat.min (length t) (length y) in (2 <= n)%nat /\ (Z.of_nat n <= 2 ^ 24)%Z /\ Forall cfinite t /\ Forall cfinite y /\
     sse (map cval t) (map cval y) = 4 /\
     (1 + uu 24) ^ (n + 5) * (sse (map cval t) (map cval y) + (2 * INR n + 1) * eta 24 128) < omega 128).
Proof.
  split; [|split; [|split]].
  - exists (libm_full 24 128 prec24 emax128). split; [apply full_nan|]. split; [apply full_overflows|]. split; [apply full_signs | apply full_rough]; lia.
  - exists (libm_full 53 1024 prec53 emax1024). split; [apply full_nan|]. split; [apply full_overflows|]. split; [apply full_signs | apply full_rough]; lia.
  - exists (mkC (@B754_finite 24 128 false 10485760 (-20) eq_refl) (B754_zero false)). split; [split; reflexivity|]. cbn. unfold F2R. cbn. rewrite Rabs_pos_eq; lra.
  - set (z := mkC (B754_zero false) (B754_zero false) : cplx b32). set (s := mkC (@B754_finite 24 128 false 8388608 (-22) eq_refl) (B754_zero false) : cplx b32).
    assert (FZ : cfinite z) by (split; reflexivity). assert (FS : cfinite s) by (split; reflexivity).
    exists [s; z], [z; z]. cbv zeta. split; [cbn; auto|]. split; [vm_compute; discriminate|]. split; [auto|]. split; [auto|].
    assert (E : sse (map cval [s; z]) (map cval [z; z]) = 4).
    { unfold sse. cbn [map length Nat.min]. unfold sum_from. cbn. unfold F2R. cbn. lra. }
    split; [exact E|]. rewrite E. unfold uu, eta, omega. cbn [length Nat.min Nat.add].
    assert (bpow radix2 (- (24) + 1) <= 1) by (change 1 with (bpow radix2 0); apply bpow_le; lia). pose proof (bpow_gt_0 radix2 (- (24) + 1)).
    assert (bpow radix2 (SpecFloat.emin 24 128) <= 1) by (change 1 with (bpow radix2 0); apply bpow_le; vm_compute; discriminate). pose proof (bpow_gt_0 radix2 (SpecFloat.emin 24 128)).
    set (a := bpow radix2 (- (24) + 1)) in *. set (b := bpow radix2 (SpecFloat.emin 24 128)) in *. clearbody a b. change (INR 2) with 2.
    apply Rle_lt_trans with (2 ^ 7 * (4 + 5)).
    + apply Rmult_le_compat; [apply pow_le; lra | lra | apply pow_incr; lra | lra].
    + apply Rlt_le_trans with (bpow radix2 12); [cbn; lra | apply bpow_le; lia].
Qed.
