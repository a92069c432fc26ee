(** * Properties C01-C05: complex numbers *)
From Coq Require Import ZArith Reals Lra Psatz.
From Coquelicot Require Import Coquelicot.
From Flocq Require Import Core BinarySingleNaN.
From Verif Require Import Base Float Matrix Cplx RFloat BFloat CFacts BFacts.
Local Open Scope R_scope.
Local Notation P32 := Float.P32.
Local Notation P64 := Float.P64.
Local Notation re := Cplx.re.
Local Notation im := Cplx.im.

(** The textbook complex number (Coquelicot's [C]) a model value denotes. *)
Definition toC (z : RC) : C := (re z, im z).

(** ** C01 *)
Theorem C01_operations : forall a b : RC,
  toC (c_add ROps a b) = Cplus (toC a) (toC b) /\
  toC (c_sub ROps a b) = Cminus (toC a) (toC b) /\
  toC (c_mul ROps a b) = Cmult (toC a) (toC b) /\
  toC (c_conj ROps a) = Cconj (toC a) /\
  c_norm ROps a = Cmod (toC a) /\
  c_norm_sq ROps a = (Cmod (toC a)) ^ 2 /\
  toC (c_default ROps) = RtoC 0 /\ toC (c_unit ROps) = RtoC 1 /\ toC (c_iunit ROps) = Ci.
Proof.
  intros [ax ay] [bx by_]. unfold toC. repeat split; simpl; auto; try (unfold Cmult, Cplus, Cminus, Copp; simpl; f_equal; ring).
  - unfold c_norm, Cmod, fsq. simpl. f_equal. ring.
  - rewrite Rmult_1_r. unfold Cmod. rewrite sqrt_sqrt; simpl; [ring | nra].
Qed.
Print Assumptions C01_operations.

Lemma den_zero : forall b : RC, fsq ROps (re b) + fsq ROps (im b) = 0 <-> b = mkC 0 0.
Proof.
  intros [x y]. unfold fsq; simpl. split.
  - intros H. assert (x = 0) by nra. assert (y = 0) by nra. now subst.
  - intros H. inversion H. ring.
Qed.

Theorem C01_division : forall a b : RC,
  (c_div ROps a b = Panic <-> toC b = RtoC 0) /\
  (toC b <> RtoC 0 -> exists q, c_div ROps a b = Ret q /\ toC q = Cdiv (toC a) (toC b)
                                /\ c_mul ROps q b = a).
Proof.
  intros a b. assert (T : toC b = RtoC 0 <-> b = mkC 0 0).
  { destruct b as [x y]; unfold toC, RtoC; simpl; split; intros H; inversion H; auto. }
  rewrite T. unfold c_div. cbn [feqb ROps fadd].
  change (fzero ROps) with 0%R. destruct (Reqb _ 0) eqn:E.
  - apply Reqb_eq in E. apply den_zero in E. split; [tauto|]. intros N. contradiction.
  - apply Reqb_neq in E. assert (N : b <> mkC 0 0) by (intros H; apply E, den_zero, H).
    split; [split; [discriminate | contradiction]|]. intros _.
    eexists. split; [reflexivity|]. unfold fsq in *. destruct a as [ax ay], b as [x y]; simpl in *.
    split.
    + unfold Cdiv, Cinv, Cmult, toC; simpl. rewrite !Rmult_1_r.
      apply injective_projections; simpl; field; assumption.
    + unfold c_mul. simpl. f_equal; field; assumption.
Qed.
Print Assumptions C01_division.

Theorem C01_norm_mult : forall a b : RC,
  c_norm ROps (c_mul ROps a b) = c_norm ROps a * c_norm ROps b.
Proof.
  intros a b. destruct (C01_operations a b) as [_ [_ [M [_ [N _]]]]].
  destruct (C01_operations (c_mul ROps a b) b) as [_ [_ [_ [_ [N' _]]]]].
  destruct (C01_operations b b) as [_ [_ [_ [_ [N'' _]]]]].
  rewrite N, N', N'', M. apply Cmod_mult.
Qed.
Print Assumptions C01_norm_mult.

Example C01_ex : c_mul ROps (mkC 1 2) (mkC 3 4) = mkC (-5) 10 /\ toC (mkC 3 4) <> RtoC 0
  /\ c_norm ROps (mkC 3 4) = 5.
Proof.
  split; [|split].
  - unfold c_mul; simpl. f_equal; ring.
  - intros H. inversion H. lra.
  - unfold c_norm, fsq; simpl. replace (3 * 3 + 4 * 4) with (5 * 5) by ring. apply sqrt_square. lra.
Qed.

(** ** C02 *)
Theorem C02_add_sub_assign : forall (Fl : FloatOps) (a b : cplx (F Fl)),
  c_add_assign Fl a b = c_add Fl a b /\ c_sub_assign Fl a b = c_sub Fl a b.
Proof. intros. split; reflexivity. Qed.
Print Assumptions C02_add_sub_assign.

Theorem C02_mul_assign : forall a b : RC,
  c_mul_assign ROps a b = c_mul ROps a b <-> im b = 0 \/ re (c_mul ROps a b) = re a.
Proof.
  intros [ax ay] [bx by_]. unfold c_mul_assign, c_mul. cbn -[Rplus Rminus Rmult]. split.
  - intros H. inversion H as [E]. destruct (Req_dec by_ 0); [auto|right].
    apply Rplus_eq_reg_r in E. apply Rmult_eq_reg_r in E; auto.
  - intros [->|E]; f_equal; [ring|]. rewrite E. reflexivity.
Qed.
Print Assumptions C02_mul_assign.

Theorem C02_mul_assign_real : forall (a : RC) (c : R),
  c_mul_assign ROps a (mkC c 0) = mkC (c * re a) (c * im a).
Proof. intros [ax ay] c. unfold c_mul_assign. simpl. f_equal; ring. Qed.
Print Assumptions C02_mul_assign_real.

Theorem C02_div_assign : forall a b : RC,
  c_div_assign ROps a b = c_div ROps a b <->
  b = mkC 0 0 \/ im b = 0 \/ (forall q, c_div ROps a b = Ret q -> re q = re a).
Proof.
  intros a b. unfold c_div_assign, c_div. cbn [feqb ROps fadd]. change (fzero ROps) with 0%R.
  destruct (Reqb _ 0) eqn:E.
  - apply Reqb_eq in E. apply den_zero in E. tauto.
  - apply Reqb_neq in E. assert (N : b <> mkC 0 0) by (intros H; apply E, den_zero, H).
    unfold fsq in *. destruct a as [ax ay], b as [x y]. cbn -[Rplus Rminus Rmult Rdiv] in *.
    set (den := x * x + y * y) in *. set (q := (ax * x + ay * y) / den). split.
    + intros H. inversion H as [E']. destruct (Req_dec y 0) as [Y|Y]; [auto|right; right].
      intros q' Hq. inversion Hq. cbn -[Rplus Rminus Rmult Rdiv]. fold q.
      unfold Rdiv in E'. apply Rmult_eq_reg_r in E'; [|now apply Rinv_neq_0_compat]. nra.
    + intros [H|[H|H]].
      * contradiction.
      * subst y. do 2 f_equal. unfold Rdiv. ring.
      * specialize (H _ eq_refl). cbn -[Rplus Rminus Rmult Rdiv] in H. fold q in H. rewrite H. reflexivity.
Qed.
Print Assumptions C02_div_assign.

(** [i *= i] gives -1 - i, although i * i = -1. *)
Theorem C02_refuted : exists a b : RC, c_mul_assign ROps a b <> c_mul ROps a b
  /\ c_div_assign ROps a b <> c_div ROps a b.
Proof.
  exists (mkC 1 0), (mkC 0 1). split.
  - rewrite C02_mul_assign. simpl. intros [H|H]; lra.
  - rewrite C02_div_assign. simpl. intros [H|[H|H]]; [inversion H; lra | lra |].
    unfold c_div in H. cbn [feqb ROps fadd] in H. change (fzero ROps) with 0%R in H.
    destruct (Reqb _ 0) eqn:E.
    + apply Reqb_eq in E. unfold fsq in E. simpl in E. lra.
    + specialize (H _ eq_refl). unfold fsq in H. simpl in H. unfold Rdiv in H.
      rewrite Rmult_0_r, Rmult_0_l, Rplus_0_r, Rmult_0_l in H. lra.
Qed.
Print Assumptions C02_refuted.

(** ** C03 *)
(** What the comparison operators answer, as a function of [partial_cmp]. *)
Definition consistent (Fl : FloatOps) : Prop := forall a b : cplx (F Fl),
  c_lt Fl a b = match c_partial_cmp Fl a b with Some Lt => true | _ => false end /\
  c_le Fl a b = match c_partial_cmp Fl a b with Some Lt | Some Eq => true | _ => false end /\
  c_gt Fl a b = match c_partial_cmp Fl a b with Some Gt => true | _ => false end /\
  c_ge Fl a b = match c_partial_cmp Fl a b with Some Gt | Some Eq => true | _ => false end /\
  c_partial_cmp Fl b a = option_map CompOpp (c_partial_cmp Fl a b).

Theorem C03_exact : consistent ROps /\
  (forall a b : RC, exists c, c_partial_cmp ROps a b = Some c) /\
  (forall a b : RC, c_le ROps a b = true <-> Cmod (toC a) <= Cmod (toC b)) /\
  (forall a b : RC, c_lt ROps a b = true <-> Cmod (toC a) < Cmod (toC b)).
Proof.
  assert (S : forall a b : RC, c_norm_sq ROps a <= c_norm_sq ROps b <-> Cmod (toC a) <= Cmod (toC b)).
  { intros a b. destruct (C01_operations a b) as [_ [_ [_ [_ [_ [-> _]]]]]].
    destruct (C01_operations b b) as [_ [_ [_ [_ [_ [-> _]]]]]].
    pose proof (Cmod_ge_0 (toC a)). pose proof (Cmod_ge_0 (toC b)). split; intros; nra. }
  assert (L : forall a b : RC, c_le ROps a b = true <-> Cmod (toC a) <= Cmod (toC b)).
  { intros a b. rewrite <- S. apply Rleb_le. }
  split; [|split; [|split]]; auto.
  - intros a b. unfold c_lt, c_le, c_gt, c_ge, c_partial_cmp, fcmp. cbn [fleb fltb ROps].
    generalize (c_norm_sq ROps a) (c_norm_sq ROps b). intros x y.
    unfold Rltb, Rleb. destruct (Rle_dec x y), (Rle_dec y x), (Rlt_dec x y), (Rlt_dec y x); repeat split; auto; exfalso; lra.
  - intros a b. unfold c_partial_cmp, fcmp. cbn [fleb ROps]. unfold Rleb.
    destruct (Rle_dec (c_norm_sq ROps a) (c_norm_sq ROps b)), (Rle_dec (c_norm_sq ROps b) (c_norm_sq ROps a)); eauto.
    exfalso; lra.
  - intros a b. unfold c_lt. cbn [fltb ROps]. rewrite Rltb_lt. pose proof (S b a). lra.
Qed.
Print Assumptions C03_exact.

(** IEEE: the same consistency for every rounding, NaN and signed zero
    included, and [None] exactly when one of the squared moduli is NaN. *)
Theorem C03_ieee : forall pr em Hp He L, consistent (BOps pr em Hp He L) /\
  (forall a b : cplx (F (BOps pr em Hp He L)),
     c_partial_cmp _ a b = None <->
     is_nan (c_norm_sq (BOps pr em Hp He L) a) = true \/ is_nan (c_norm_sq (BOps pr em Hp He L) b) = true).
Proof.
  intros pr em Hp He L.
  assert (K : forall x y : binary_float pr em, fcmp (BOps pr em Hp He L) x y = Bcompare x y).
  { intros x y. unfold fcmp. cbn [fleb BOps]. unfold Bleb, Bcompare, SpecFloat.SFleb.
    change (SpecFloat.SFcompare (B2SF x) (B2SF y)) with (Bcompare x y).
    change (SpecFloat.SFcompare (B2SF y) (B2SF x)) with (Bcompare y x).
    rewrite (Bcompare_swap _ _ x y). now destruct (Bcompare x y) as [[]|]. }
  split.
  - intros a b. unfold c_lt, c_le, c_gt, c_ge, c_partial_cmp. rewrite !K. cbn [fleb fltb BOps].
    generalize (c_norm_sq (BOps pr em Hp He L) a) (c_norm_sq (BOps pr em Hp He L) b).
    intros x y. cbn [F BOps] in x, y. unfold Bltb, Bleb, SpecFloat.SFltb, SpecFloat.SFleb.
    change (SpecFloat.SFcompare (B2SF x) (B2SF y)) with (Bcompare x y).
    change (SpecFloat.SFcompare (B2SF y) (B2SF x)) with (Bcompare y x).
    rewrite (Bcompare_swap _ _ x y). destruct (Bcompare x y) as [[]|]; repeat split.
  - intros a b. unfold c_partial_cmp. rewrite K.
    generalize (c_norm_sq (BOps pr em Hp He L) a) (c_norm_sq (BOps pr em Hp He L) b).
    intros [s|s| |s m e H] [s'|s'| |s' m' e' H']; unfold Bcompare; simpl; split; intros; auto;
      repeat match goal with
      | H : _ \/ _ |- _ => destruct H
      | H : ?x = _ |- _ => try discriminate H; match x with context [if ?c then _ else _] => destruct c end; try discriminate
      | H : _ = true |- _ => discriminate
      end.
Qed.
Print Assumptions C03_ieee.

(** Numbers of equal modulus compare [Equal], also if they are different as 1
    and i are. *)
Theorem C03_equal_but_different :
  (forall a b : RC, c_partial_cmp ROps a b = Some Eq <-> Cmod (toC a) = Cmod (toC b)) /\
  (forall a b : RC, c_eqb ROps a b = true <-> a = b) /\
  exists a b : RC, c_partial_cmp ROps a b = Some Eq /\ c_eqb ROps a b = false.
Proof.
  split; [|split].
  - intros a b. destruct C03_exact as (K & T & L & _). destruct (K a b) as (_ & KL & _ & KG & KO). destruct (K b a) as (_ & KL' & _). pose proof (L a b) as L1. pose proof (L b a) as L2.
    rewrite KL in L1. rewrite KL', KO in L2. destruct (T a b) as (c & E). rewrite E in *. destruct c; cbn in L1, L2; split; intros H; try discriminate.
    + apply Rle_antisym; [now apply L1 | now apply L2].
    + reflexivity.
    + assert (X : Cmod (toC b) <= Cmod (toC a)) by (rewrite H; apply Rle_refl). apply L2 in X. discriminate.
    + assert (X : Cmod (toC a) <= Cmod (toC b)) by (rewrite H; apply Rle_refl). apply L1 in X. discriminate.
  - intros [a1 a2] [b1 b2]. unfold c_eqb. cbn [feqb ROps re im]. rewrite Bool.andb_true_iff, !Reqb_eq. split; [intros (-> & ->); reflexivity | intros E; injection E; auto].
  - exists (mkC 1 0), (mkC 0 1). unfold c_partial_cmp, fcmp, c_eqb, c_norm_sq, fsq. cbn [fleb feqb ROps re im fadd fmul].
    rewrite (proj2 (Rleb_le _ _)), (proj2 (Rleb_le _ _)), (proj2 (Reqb_neq 1 0)) by lra. auto.
Qed.
Print Assumptions C03_equal_but_different.

Example C03_ex : c_lt ROps (mkC 1 0) (mkC (-1) (-1)) = true.
Proof. unfold c_lt, c_norm_sq, fsq. cbn [fltb ROps re im fadd fmul]. apply Rltb_lt. lra. Qed.

(** ** C04 *)
Lemma norm_pos : forall z : RC, z <> mkC 0 0 -> 0 < c_norm_sq ROps z.
Proof.
  intros [x y] H. unfold c_norm_sq, fsq. simpl.
  destruct (Req_dec x 0), (Req_dec y 0); subst; try nra. now contradiction H.
Qed.

Lemma atan_polar : forall x y, x <> 0 ->
  sqrt (x * x + y * y) * cos (atan (y / x)) = Rabs x /\
  sqrt (x * x + y * y) * sin (atan (y / x)) = Rabs x * (y / x).
Proof.
  intros x y H. assert (P : 0 < 1 + (y / x)²) by (pose proof (Rle_0_sqr (y / x)); lra).
  assert (E : sqrt (x * x + y * y) = Rabs x * sqrt (1 + (y / x)²)).
  { replace (x * x + y * y) with ((Rabs x) ^ 2 * (1 + (y / x)²)).
    - rewrite sqrt_mult; [|apply pow2_ge_0|lra]. f_equal. apply sqrt_pow2, Rabs_pos.
    - rewrite RPow_abs, Rabs_pos_eq by apply pow2_ge_0. unfold Rsqr. field. assumption. }
  pose proof (sqrt_lt_R0 _ P) as Q. rewrite cos_atan, sin_atan, E. unfold Rdiv at 2.
  split; field; lra.
Qed.

Theorem C04_cf32 : forall z : RC, z <> mkC 0 0 ->
  c_newe ROps (c_norm ROps z) (c_phase ROps P32 z) = z /\
  - PI < c_phase ROps P32 z <= PI.
Proof.
  intros z Hz. pose proof (norm_pos z Hz) as Np. pose proof PI_RGT_0 as PP.
  destruct z as [x y]. unfold c_newe, c_norm, c_phase, fsq. cbn [fatan2 ROps re im fadd fmul fsqrt fcos fsin].
  unfold c_norm_sq, fsq in Np. cbn [ROps re im fadd fmul] in Np. unfold Ratan2.
  destruct (Rlt_dec 0 x) as [X|X].
  - destruct (atan_polar x y ltac:(lra)) as [C S]. rewrite C, S, Rabs_pos_eq by lra.
    pose proof (atan_bound (y / x)). split; [f_equal; field; lra | lra].
  - destruct (Rlt_dec x 0) as [X'|X'].
    + destruct (atan_polar x y ltac:(lra)) as [C S]. rewrite Rabs_left in C, S by lra.
      pose proof (atan_bound (y / x)). destruct (Rle_dec 0 y) as [Y|Y].
      * rewrite neg_cos, neg_sin, !Ropp_mult_distr_r_reverse, C, S.
        split; [f_equal; [ring | field; lra]|].
        assert (y / x <= 0). { unfold Rdiv. apply Rinv_lt_0_compat in X'. nra. }
        destruct H0 as [H0|H0]; [apply atan_increasing in H0; rewrite atan_0 in H0; lra | rewrite H0, atan_0; lra].
      * assert (K : cos (atan (y / x) - PI) = - cos (atan (y / x))).
        { rewrite cos_minus, cos_PI, sin_PI. ring. }
        assert (K' : sin (atan (y / x) - PI) = - sin (atan (y / x))).
        { rewrite sin_minus, cos_PI, sin_PI. ring. }
        rewrite K, K', !Ropp_mult_distr_r_reverse, C, S.
        split; [f_equal; [ring | field; lra]|].
        assert (0 < y / x). { unfold Rdiv. apply Rinv_lt_0_compat in X'. nra. }
        apply atan_increasing in H0. rewrite atan_0 in H0. lra.
    + assert (x = 0) by lra. subst x. replace (0 * 0 + y * y) with (y * y) in * by ring.
      destruct (Rlt_dec 0 y) as [Y|Y].
      * rewrite cos_PI2, sin_PI2, sqrt_square by lra. split; [f_equal; ring | lra].
      * destruct (Rlt_dec y 0) as [Y'|Y'].
        -- rewrite cos_neg, sin_neg, cos_PI2, sin_PI2. replace (y * y) with ((- y) * (- y)) by ring.
           rewrite sqrt_square by lra. split; [f_equal; ring | lra].
        -- assert (y = 0) by lra. subst. exfalso; lra.
Qed.
Print Assumptions C04_cf32.

Theorem C04_cf64 : forall z : RC,
  (0 < re z -> c_newe ROps (c_norm ROps z) (c_phase ROps P64 z) = z) /\
  (re z < 0 -> c_newe ROps (c_norm ROps z) (c_phase ROps P64 z) = c_opp z).
Proof.
  intros [x y]. unfold c_newe, c_norm, c_phase, fsq, c_opp. cbn [fatan fdiv ROps re im fadd fmul fsqrt fcos fsin].
  split; intros X; destruct (atan_polar x y ltac:(lra)) as [C S]; rewrite C, S.
  - rewrite Rabs_pos_eq by lra. f_equal. field. lra.
  - rewrite Rabs_left by lra. f_equal. field. lra.
Qed.
Print Assumptions C04_cf64.

Theorem C04_cf64_refuted : exists z : RC, z <> mkC 0 0 /\
  c_newe ROps (c_norm ROps z) (c_phase ROps P64 z) <> z.
Proof.
  exists (mkC (-1) 0). split; [intros H; inversion H; lra|].
  rewrite (proj2 (C04_cf64 (mkC (-1) 0))) by (simpl; lra). intros H. unfold c_opp in H. inversion H. lra.
Qed.
Print Assumptions C04_cf64_refuted.

Example C04_ex : c_phase ROps P32 (mkC (-1) 0) = PI.
Proof.
  unfold c_phase. cbn [fatan2 ROps re im]. unfold Ratan2. destruct (Rlt_dec 0 (-1)); [exfalso; lra|].
  destruct (Rlt_dec (-1) 0); [|exfalso; lra]. destruct (Rle_dec 0 0); [|exfalso; lra].
  unfold Rdiv. rewrite Rmult_0_l, atan_0. apply Rplus_0_l.
Qed.

(** ** C05 *)
(** [tiny x]: x is finite and its square is at most half the smallest positive
    number of the format (2^-150 for f32, 2^-1075 for f64), so that it rounds
    to zero. *)
Definition tiny {pr em} (x : binary_float pr em) : Prop :=
  is_finite x = true /\ (B2R x) ^ 2 <= bpow radix2 (3 - em - pr - 1).

Theorem C05_division_panics_iff : forall pr em Hp He L (z w : cplx (F (BOps pr em Hp He L))),
  c_div (BOps pr em Hp He L) z w = Panic <->
  tiny (re w : binary_float pr em) /\ tiny (im w : binary_float pr em).
Proof.
  intros. unfold c_div, tiny. change (fzero (BOps pr em Hp He L)) with (Bofz pr em Hp He 0).
  pose proof (norm_sq_zero pr em Hp He (re w) (im w)) as H. simpl pow. rewrite !Rmult_1_r.
  unfold SpecFloat.emin in H. unfold fsq. cbn [feqb fadd fmul BOps].
  destruct (Beqb _ _); split; intros; try discriminate; try tauto.
  exfalso. assert (false = true) by tauto. discriminate.
Qed.
Print Assumptions C05_division_panics_iff.

(** The number 2^-75 as an f32, and 2^-538 as an f64. *)
Definition tiny32 : b32 := binary_normalize 24 128 _ _ mode_NE 1 (-75) false.
Definition tiny64 : b64 := binary_normalize 53 1024 _ _ mode_NE 1 (-538) false.

Theorem C05_nonzero_divisor_panics : forall L32 L64 (z32 : cplx b32) (z64 : cplx b64),
  B2R tiny32 <> 0 /\ c_div (B32Ops L32) z32 (mkC tiny32 tiny32) = Panic /\
  B2R tiny64 <> 0 /\ c_div (B64Ops L64) z64 (mkC tiny64 tiny64) = Panic.
Proof.
  intros. assert (Z : forall pr em (x : binary_float pr em) s m e, B2SF x = SpecFloat.S754_finite s m e -> B2R x <> 0).
  { intros pr em x s m e H. destruct x; try discriminate. simpl. destruct s0.
    - pose proof (F2R_lt_0 radix2 (Float radix2 (Z.neg m0) e0) eq_refl). simpl. lra.
    - pose proof (F2R_gt_0 radix2 (Float radix2 (Z.pos m0) e0) eq_refl). simpl. lra. }
  split; [|split; [|split]].
  - apply (Z _ _ _ false 8388608%positive (-98)%Z). vm_compute. reflexivity.
  - vm_compute. reflexivity.
  - apply (Z _ _ _ false 4503599627370496%positive (-590)%Z). vm_compute. reflexivity.
  - vm_compute. reflexivity.
Qed.
Print Assumptions C05_nonzero_divisor_panics.

Example C05_ex : forall L (z : cplx b32), c_div (B32Ops L) z (mkC (Bofz 24 128 _ _ 3) (Bofz 24 128 _ _ 4)) <> Panic.
Proof.
  intros L z H. apply (C05_division_panics_iff 24 128 prec24 emax128 L) in H. destruct H as [[_ H] _].
  cbn [re] in H. rewrite (proj1 (Bofz_exact 24 128 _ _ 3 ltac:(discriminate))) in H.
  assert (bpow radix2 (3 - 128 - 24 - 1) <= bpow radix2 0) by (apply bpow_le; discriminate).
  simpl (bpow radix2 0) in H0. lra.
Qed.
