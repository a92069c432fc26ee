(** * Lemmas about the IEEE instance *)
From Coq Require Import ZArith Reals Lra Psatz.
From Flocq Require Import Core BinarySingleNaN.
From Verif Require Import Base Float Cplx BFloat.
Local Open Scope R_scope.

Section BF.
Context (prec emax : Z) (Hp : Prec_gt_0 prec) (He : Prec_lt_emax prec emax).
Local Notation B := (binary_float prec emax).
Local Notation fexp := (SpecFloat.fexp prec emax).
Local Notation emin := (SpecFloat.emin prec emax).
Local Notation rnd := (round radix2 fexp ZnearestE).

Lemma vexp : Valid_exp fexp.
Proof. apply (fexp_correct prec emax Hp). Qed.
Local Existing Instance vexp.

Lemma Beqb_zero : forall x : B, Beqb x (Bofz prec emax Hp He 0) = true <-> is_finite x = true /\ B2R x = 0.
Proof.
  intros x. unfold Beqb, Bofz. destruct x as [s|s| |s m e H]; simpl.
  - split; auto.
  - destruct s; split; intros; try discriminate; tauto.
  - split; intros; try discriminate; tauto.
  - split.
    + destruct s; discriminate.
    + intros [_ E]. exfalso. destruct s; simpl in E.
      * pose proof (F2R_lt_0 radix2 (Float radix2 (Z.neg m) e) eq_refl). lra.
      * pose proof (F2R_gt_0 radix2 (Float radix2 (Z.pos m) e) eq_refl). lra.
Qed.

Lemma Bmult_finite_inv : forall (x y : B), is_finite (Bmult mode_NE x y) = true -> is_finite x = true /\ is_finite y = true.
Proof. intros [s|s| |s m e H] [s'|s'| |s' m' e' H']; simpl; try discriminate; auto. Qed.

Lemma Bplus_finite_inv : forall (x y : B), is_finite (Bplus mode_NE x y) = true -> is_finite x = true /\ is_finite y = true.
Proof.
  intros [s|s| |s m e H] [s'|s'| |s' m' e' H']; simpl; try discriminate; auto.
  - now destruct s, s'.
Qed.

Lemma overflow_not_finite : forall (x : B) s, B2SF x = binary_overflow prec emax mode_NE s -> is_finite x = false.
Proof. intros [s|s| |s m e H] b E; unfold binary_overflow in E; simpl in E; auto; discriminate. Qed.

Lemma Bmult_R : forall x y : B, is_finite (Bmult mode_NE x y) = true ->
  B2R (Bmult mode_NE x y) = rnd (B2R x * B2R y).
Proof.
  intros x y Fxy. pose proof (Bmult_correct prec emax Hp He mode_NE x y) as H. cbn [round_mode] in H.
  destruct (Rlt_bool _ _); [tauto|]. apply overflow_not_finite in H. congruence.
Qed.

Lemma Bplus_R : forall x y : B, is_finite (Bplus mode_NE x y) = true ->
  B2R (Bplus mode_NE x y) = rnd (B2R x + B2R y).
Proof.
  intros x y Fxy. destruct (Bplus_finite_inv x y Fxy) as [Fx Fy].
  pose proof (Bplus_correct prec emax Hp He mode_NE x y Fx Fy) as H. cbn [round_mode] in H.
  destruct (Rlt_bool _ _); [tauto|]. destruct H as [H _]. apply overflow_not_finite in H. congruence.
Qed.

(** A non-negative real rounds to zero iff it is at most half the smallest
    positive number. *)
Lemma emin_format : generic_format radix2 fexp (bpow radix2 emin).
Proof.
  apply generic_format_bpow. unfold SpecFloat.fexp. unfold Prec_gt_0 in Hp.
  rewrite Z.max_lub_iff. lia.
Qed.

Lemma round_zero_iff : forall t, 0 <= t -> (rnd t = 0 <-> t <= bpow radix2 (emin - 1)).
Proof.
  intros t Ht. assert (Hb : 0 < bpow radix2 emin) by apply bpow_gt_0.
  assert (Hh : bpow radix2 (emin - 1) = / 2 * bpow radix2 emin).
  { rewrite (Rmult_comm (/2)). change (/ 2) with (bpow radix2 (-1)). rewrite <- bpow_plus. reflexivity. }
  destruct (Rle_lt_dec (bpow radix2 emin) t) as [Big|Small].
  - assert (bpow radix2 emin <= rnd t).
    { rewrite <- (round_generic radix2 fexp ZnearestE (bpow radix2 emin)) by apply emin_format.
      apply round_le; auto with typeclass_instances. }
    split; intros; lra.
  - destruct (Req_dec t 0) as [->|Nz].
    + rewrite round_0 by auto with typeclass_instances. split; intros; auto.
      rewrite Hh. lra.
    + assert (Hc : cexp radix2 fexp t = emin).
      { unfold cexp, SpecFloat.fexp. apply Z.max_r.
        assert (mag radix2 t <= emin)%Z. { apply mag_le_bpow; auto. rewrite Rabs_pos_eq; auto. }
        unfold Prec_gt_0 in Hp. lia. }
      unfold round, scaled_mantissa. rewrite Hc. unfold F2R. cbn [Fnum Fexp].
      set (u := t * bpow radix2 (- emin)).
      assert (Hu : t = u * bpow radix2 emin).
      { unfold u. rewrite Rmult_assoc, <- bpow_plus, Z.add_opp_diag_l. simpl. ring. }
      assert (u < 1) by nra. assert (0 < u) by nra.
      destruct (Rle_lt_dec u (/2)) as [L|L].
      * assert (ZnearestE u = 0%Z).
        { destruct L as [L|L].
          - apply Znearest_imp. rewrite Rminus_0_r, Rabs_pos_eq; lra.
          - rewrite L. unfold Znearest. replace (Zfloor (/ 2)) with 0%Z by (symmetry; apply Zfloor_imp; simpl; lra).
            rewrite Rcompare_Eq by (simpl; lra). reflexivity. }
        rewrite H1. split; intros; [|simpl; ring]. rewrite Hh, Hu. nra.
      * assert (ZnearestE u = 1%Z).
        { apply Znearest_imp. apply Rabs_lt. simpl. lra. }
        rewrite H1. split; intros E; [exfalso; simpl in E; lra | exfalso].
        rewrite Hh, Hu in E. nra.
Qed.

Lemma rnd_nonneg : forall t, 0 <= t -> 0 <= rnd t.
Proof.
  intros t H. rewrite <- (round_0 radix2 fexp ZnearestE). apply round_le; auto with typeclass_instances.
Qed.

(** The squared modulus as the code computes it is zero iff both squares are at
    most half the smallest positive number. *)
Lemma norm_sq_zero : forall x y : B,
  Beqb (Bplus mode_NE (Bmult mode_NE x x) (Bmult mode_NE y y)) (Bofz prec emax Hp He 0) = true <->
  is_finite x = true /\ is_finite y = true /\
  B2R x * B2R x <= bpow radix2 (emin - 1) /\ B2R y * B2R y <= bpow radix2 (emin - 1).
Proof.
  intros x y. rewrite Beqb_zero. split.
  - intros [F E]. pose proof (Bplus_R _ _ F) as R. destruct (Bplus_finite_inv _ _ F) as [F1 F2].
    pose proof (Bmult_R _ _ F1) as R1. pose proof (Bmult_R _ _ F2) as R2.
    destruct (Bmult_finite_inv _ _ F1) as [Fx _]. destruct (Bmult_finite_inv _ _ F2) as [Fy _].
    rewrite E in R. symmetry in R.
    assert (P1 : 0 <= B2R x * B2R x) by nra. assert (P2 : 0 <= B2R y * B2R y) by nra.
    apply rnd_nonneg in P1 as Q1. apply rnd_nonneg in P2 as Q2. rewrite <- R1 in Q1. rewrite <- R2 in Q2.
    assert (G1 : B2R (Bmult mode_NE x x) <= 0).
    { rewrite <- R. rewrite <- (round_generic radix2 fexp ZnearestE (B2R (Bmult mode_NE x x))) at 1.
      - apply round_le; auto with typeclass_instances. lra.
      - apply generic_format_B2R. }
    assert (G2 : B2R (Bmult mode_NE y y) <= 0).
    { rewrite <- R. rewrite <- (round_generic radix2 fexp ZnearestE (B2R (Bmult mode_NE y y))) at 1.
      - apply round_le; auto with typeclass_instances. lra.
      - apply generic_format_B2R. }
    repeat split; auto; apply round_zero_iff; auto; lra.
  - intros [Fx [Fy [Lx Ly]]].
    assert (K : forall z : B, is_finite z = true -> B2R z * B2R z <= bpow radix2 (emin - 1) ->
       is_finite (Bmult mode_NE z z) = true /\ B2R (Bmult mode_NE z z) = 0).
    { intros z Fz Lz. pose proof (Bmult_correct prec emax Hp He mode_NE z z) as H. cbn [round_mode] in H.
      assert (P : 0 <= B2R z * B2R z) by nra.
      pose proof (proj2 (round_zero_iff _ P) Lz) as Z. rewrite Z in H.
      rewrite Rlt_bool_true in H by (rewrite Rabs_R0; apply bpow_gt_0).
      destruct H as [H1 [H2 _]]. rewrite Fz in H2. auto. }
    destruct (K x Fx Lx) as [F1 E1]. destruct (K y Fy Ly) as [F2 E2].
    pose proof (Bplus_correct prec emax Hp He mode_NE _ _ F1 F2) as H. cbn [round_mode] in H.
    rewrite E1, E2, Rplus_0_r, round_0 in H by auto with typeclass_instances.
    rewrite Rlt_bool_true in H by (rewrite Rabs_R0; apply bpow_gt_0). tauto.
Qed.

Lemma Bofz_exact : forall z, (Z.abs z <= 2 ^ prec)%Z ->
  B2R (Bofz prec emax Hp He z) = IZR z /\ is_finite (Bofz prec emax Hp He z) = true.
Proof.
  intros z Hz. pose proof (binary_normalize_correct prec emax Hp He mode_NE z 0 false) as H.
  cbn [round_mode] in H. replace (F2R (Float radix2 z 0)) with (IZR z) in H by (unfold F2R; simpl; ring).
  unfold Prec_gt_0 in Hp. unfold Prec_lt_emax in He.
  assert (G : generic_format radix2 fexp (IZR z)).
  { destruct (Z.eq_dec (Z.abs z) (2 ^ prec)) as [E|N].
    - assert (Ez : IZR z = bpow radix2 prec \/ IZR z = - bpow radix2 prec).
      { assert (IZR (2 ^ prec) = bpow radix2 prec).
        { rewrite <- IZR_Zpower by lia. reflexivity. }
        destruct (Z.abs_spec z) as [[_ A]|[_ A]]; [left | right]; rewrite <- H0, <- E.
        - now rewrite A. - rewrite A. rewrite opp_IZR. ring. }
      assert (generic_format radix2 fexp (bpow radix2 prec)).
      { apply generic_format_bpow. unfold SpecFloat.fexp, SpecFloat.emin. lia. }
      destruct Ez as [->| ->]; [auto | now apply generic_format_opp].
    - replace (IZR z) with (F2R (Float radix2 z 0)) by (unfold F2R; simpl; ring).
      apply generic_format_F2R. intros Nz. cbn [Fnum Fexp]. unfold cexp, SpecFloat.fexp, SpecFloat.emin.
      assert (mag radix2 (F2R (Float radix2 z 0)) <= prec)%Z.
      { apply mag_le_bpow.
        - unfold F2R. simpl. rewrite Rmult_1_r. now apply IZR_neq.
        - unfold F2R. simpl. rewrite Rmult_1_r, <- abs_IZR.
          rewrite <- IZR_Zpower by lia. apply IZR_lt. change (radix2 ^ prec)%Z with (2 ^ prec)%Z. lia. }
      lia. }
  rewrite (round_generic radix2 fexp ZnearestE (IZR z)) in H by auto.
  rewrite Rlt_bool_true in H; [tauto|].
  rewrite <- abs_IZR. apply Rle_lt_trans with (bpow radix2 prec).
  - rewrite <- IZR_Zpower by lia. now apply IZR_le.
  - apply bpow_lt. lia.
Qed.

End BF.

(** In f32 a modulus that is not zero has a square that is not zero either. *)
Lemma norm_divisible : forall L (z : cplx (F (B32Ops L))), let m := c_norm (B32Ops L) z in
  feqb (B32Ops L) m (fzero (B32Ops L)) = false ->
  feqb (B32Ops L) (fadd (B32Ops L) (fsq (B32Ops L) m) (fsq (B32Ops L) (fzero (B32Ops L)))) (fzero (B32Ops L)) = false.
Proof.
  intros L z m. unfold m, c_norm. set (x := fadd _ _ _). clearbody x. clear m z.
  change (fsqrt (B32Ops L) x) with (@Bsqrt 24 128 prec24 emax128 mode_NE x). change (fzero (B32Ops L)) with (Bofz 24 128 prec24 emax128 0).
  change (feqb (B32Ops L)) with (@Beqb 24 128). change (fadd (B32Ops L)) with (@Bplus 24 128 prec24 emax128 mode_NE).
  unfold fsq. change (fmul (B32Ops L)) with (@Bmult 24 128 prec24 emax128 mode_NE). change (F (B32Ops L)) with b32 in x.
  intros H. destruct (Beqb _ _) eqn:E in |- *; [exfalso|reflexivity].
  apply norm_sq_zero in E as (Fm & _ & E & _). change (SpecFloat.emin 24 128 - 1)%Z with (-150)%Z in E.
  destruct (Bsqrt_correct 24 128 prec24 emax128 mode_NE x) as (R & Fi & _). cbn [round_mode] in R. rewrite Fm in Fi. symmetry in Fi.
  assert (S : Beqb (Bsqrt mode_NE x) (Bofz 24 128 prec24 emax128 0) = true \/ bpow radix2 (-149) <= B2R x).
  { destruct x as [s|s| |[|] mx ex Hx]; try discriminate; right.
    pose proof (abs_B2R_ge_emin 24 128 (B754_finite false mx ex Hx) eq_refl) as A. rewrite Rabs_pos_eq in A; [exact A|].
    cbn. apply F2R_ge_0. cbn. lia. }
  destruct S as [S|S]; [congruence|].
  set (u := 11 * bpow radix2 (-78)).
  assert (U : u <= B2R (Bsqrt mode_NE x)).
  { rewrite R. apply round_ge_generic; [apply vexp; exact prec24 | apply valid_rnd_N | |].
    - apply generic_format_FLT. exists (Float radix2 11 (-78)); unfold F2R; cbn; try lia. reflexivity.
    - apply Rle_trans with (sqrt (u * u)); [rewrite sqrt_square; [lra|unfold u; pose proof (bpow_gt_0 radix2 (-78)); lra]|].
      apply sqrt_le_1_alt. eapply Rle_trans; [|exact S]. unfold u.
      replace (bpow radix2 (-149)) with (128 * (bpow radix2 (-78) * bpow radix2 (-78))).
      + pose proof (bpow_gt_0 radix2 (-78)). nra.
      + rewrite <- bpow_plus. change 128 with (bpow radix2 7). rewrite <- bpow_plus. reflexivity. }
  replace (bpow radix2 (-150)) with (64 * (bpow radix2 (-78) * bpow radix2 (-78))) in E.
  - pose proof (bpow_gt_0 radix2 (-78)). unfold u in U. nra.
  - rewrite <- bpow_plus. change 64 with (bpow radix2 6). rewrite <- bpow_plus. reflexivity.
Qed.
