(** * Initial weights in IEEE arithmetic *)
From Coq Require Import ZArith Reals Lra Psatz.
From Flocq Require Import Core BinarySingleNaN Relative Mult_error.
From Verif Require Import Base Float Matrix Cplx Random Act RFloat BFloat BFacts CFacts SpecRound RoundFacts RoundNet SpecLayer SpecInit PropRandom.
Local Notation re := Cplx.re. Local Notation im := Cplx.im.
Local Notation P32 := Float.P32. Local Notation P64 := Float.P64.
Local Open Scope R_scope.

Section Init.
Context (prec emax : Z) (Hp : Prec_gt_0 prec) (He : Prec_lt_emax prec emax) (L : libm (binary_float prec emax)).
Context (Hprec : (24 <= prec)%Z) (Hemax : (128 <= emax)%Z).
Local Notation B := (binary_float prec emax).
Local Notation Fl := (BOps prec emax Hp He L).
Local Notation fx := (SpecFloat.fexp prec emax).
Local Notation emin := (SpecFloat.emin prec emax).
Local Notation rnd := (round radix2 fx ZnearestE).
Local Existing Instance vexp.
Local Notation uu := (SpecRound.uu prec).

Definition fmt (a : R) : Prop := generic_format radix2 fx a /\ Rabs a < bpow radix2 emax.
Definition rng (lo hi : R) (x : B) : Prop := is_finite x = true /\ lo <= B2R x <= hi.

Lemma fmt_bpow : forall k, (-126 <= k <= 127)%Z -> fmt (bpow radix2 k).
Proof.
  intros k K. split.
  - apply generic_format_bpow. unfold SpecFloat.fexp, SpecFloat.emin. lia.
  - rewrite Rabs_pos_eq by apply bpow_ge_0. apply bpow_lt. lia.
Qed.
Lemma fmt_0 : fmt 0.
Proof. split; [apply generic_format_0 | rewrite Rabs_R0; apply bpow_gt_0]. Qed.
Lemma fmt_opp : forall a, fmt a -> fmt (- a).
Proof. intros a (G & H). split; [now apply generic_format_opp | now rewrite Rabs_Ropp]. Qed.
Lemma fmt_B : forall x : B, fmt (B2R x).
Proof. intros x. split; [apply generic_format_B2R | apply abs_B2R_lt_emax]. Qed.
Lemma fmt_1 : fmt 1.
Proof. exact (fmt_bpow 0 ltac:(lia)). Qed.
Lemma fmt_scale : forall a e, generic_format radix2 fx a -> (0 <= e <= 60)%Z -> 0 <= a <= bpow radix2 65 -> fmt (a * bpow radix2 e).
Proof.
  intros a e G E A. split.
  - now apply (mult_bpow_pos_exact_FLT radix2 emin prec).
  - pose proof (bpow_ge_0 radix2 e). rewrite Rabs_pos_eq by (apply Rmult_le_pos; lra).
    apply Rle_lt_trans with (bpow radix2 65 * bpow radix2 e); [apply Rmult_le_compat_r; lra|].
    rewrite <- bpow_plus. apply bpow_lt. lia.
Qed.

Lemma rnd_rng : forall lo hi t, fmt lo -> fmt hi -> lo <= t <= hi -> lo <= rnd t <= hi /\ Rabs (rnd t) < bpow radix2 emax.
Proof.
  intros lo hi t (GL & BL) (GH & BH) T.
  assert (Q : lo <= rnd t <= hi) by (split; [apply round_ge_generic | apply round_le_generic]; auto with typeclass_instances; lra).
  split; [exact Q|]. apply Rabs_def2 in BL. apply Rabs_def2 in BH. apply Rabs_def1; lra.
Qed.

Lemma mul_rng : forall lo hi (x y : B), is_finite x = true -> is_finite y = true -> fmt lo -> fmt hi ->
  lo <= B2R x * B2R y <= hi -> rng lo hi (Bmult mode_NE x y).
Proof.
  intros lo hi x y X Y GL GH H. destruct (rnd_rng lo hi _ GL GH H) as (Q & O).
  pose proof (Bmult_correct prec emax Hp He mode_NE x y) as C. cbn [round_mode] in C. rewrite (Rlt_bool_true _ _ O) in C.
  destruct C as (C1 & C2 & _). split; [now rewrite C2, X, Y | now rewrite C1].
Qed.
Lemma sub_rng : forall lo hi (x y : B), is_finite x = true -> is_finite y = true -> fmt lo -> fmt hi ->
  lo <= B2R x - B2R y <= hi -> rng lo hi (Bminus mode_NE x y).
Proof.
  intros lo hi x y X Y GL GH H. destruct (rnd_rng lo hi _ GL GH H) as (Q & O).
  pose proof (Bminus_correct prec emax Hp He mode_NE x y X Y) as C. cbn [round_mode] in C. rewrite (Rlt_bool_true _ _ O) in C.
  destruct C as (C1 & C2 & _). split; [exact C2 | now rewrite C1].
Qed.
Lemma div_rng : forall lo hi (x y : B), is_finite x = true -> B2R y <> 0 -> fmt lo -> fmt hi ->
  lo <= B2R x / B2R y <= hi -> rng lo hi (Bdiv mode_NE x y) /\ B2R (Bdiv mode_NE x y) = rnd (B2R x / B2R y).
Proof.
  intros lo hi x y X Y GL GH H. destruct (rnd_rng lo hi _ GL GH H) as (Q & O).
  pose proof (Bdiv_correct prec emax Hp He mode_NE x y Y) as C. cbn [round_mode] in C. rewrite (Rlt_bool_true _ _ O) in C.
  destruct C as (C1 & C2 & _). split; [split; [now rewrite C2 | now rewrite C1] | exact C1].
Qed.
Lemma sqrt_rng : forall lo hi (x : B), is_finite x = true -> 0 <= B2R x -> fmt lo -> fmt hi ->
  lo <= sqrt (B2R x) <= hi -> rng lo hi (Bsqrt mode_NE x) /\ B2R (Bsqrt mode_NE x) = rnd (sqrt (B2R x)).
Proof.
  intros lo hi x X P GL GH H. destruct (rnd_rng lo hi _ GL GH H) as (Q & O).
  pose proof (Bsqrt_correct prec emax Hp He mode_NE x) as C. cbn [round_mode] in C. destruct C as (C1 & C2 & _).
  split; [split|]; [|now rewrite C1 | exact C1]. rewrite C2. destruct x as [| | |[|] m e E]; try discriminate; auto.
  exfalso. cbn [B2R] in P. assert (F2R (Float radix2 (cond_Zopp true (Zpos m)) e) < 0) by (apply F2R_lt_0; reflexivity). lra.
Qed.
Lemma ofz_rng : forall lo hi z, fmt lo -> fmt hi -> lo <= IZR z <= hi ->
  rng lo hi (Bofz prec emax Hp He z) /\ B2R (Bofz prec emax Hp He z) = rnd (IZR z).
Proof.
  intros lo hi z GL GH H. destruct (rnd_rng lo hi _ GL GH H) as (Q & O).
  pose proof (binary_normalize_correct prec emax Hp He mode_NE z 0 false) as C. cbn [round_mode] in C.
  replace (F2R (Float radix2 z 0)) with (IZR z) in C by (unfold F2R; simpl; ring). rewrite (Rlt_bool_true _ _ O) in C.
  destruct C as (C1 & C2 & _). unfold Bofz. split; [split; [exact C2 | now rewrite C1] | exact C1].
Qed.

Lemma rel : forall t, bpow radix2 (-126) <= t -> (1 - uu) * t <= rnd t <= (1 + uu) * t.
Proof.
  intros t T. pose proof (bpow_gt_0 radix2 (-126)) as P0.
  pose proof (relative_error_N_FLT radix2 emin prec Hp (fun z => negb (Z.even z)) t) as Q.
  rewrite (Rabs_pos_eq t) in Q by lra. specialize (Q ltac:(eapply Rle_trans; [apply bpow_le | exact T]; unfold SpecFloat.emin; lia)).
  change (round radix2 (FLT_exp emin prec) (Znearest (fun z => negb (Z.even z))) t) with (rnd t) in Q.
  apply Rabs_le_inv in Q. unfold SpecRound.uu. lra.
Qed.

Lemma lit_small : forall z, (Z.abs z <= 2 ^ 24)%Z -> B2R (Bofz prec emax Hp He z) = IZR z /\ is_finite (Bofz prec emax Hp He z) = true.
Proof.
  intros z H. apply Bofz_exact. eapply Z.le_trans; [exact H|]. apply Z.pow_le_mono_r; lia.
Qed.

(** ** Draws *)
Lemma draw_rng : forall pr seed s u, lcgf Fl pr seed = Ret (s, u) ->
  rng 0 1 u /\ (s <> 0%N -> / 2147483648 <= B2R (u : B)).
Proof.
  intros pr seed s u H. pose proof (proj1 (C06_range _ _ _ 0 _) _ H) as Hs. change (2 ^ 31 - 2)%N with 2147483646%N in Hs.
  unfold lcgf in H. destruct (lcg_next pr seed) as [s'|]; [|discriminate]. cbn [obind] in H.
  assert (E1 : s' = s) by congruence. subst s'.
  assert (E2 : u = fdiv Fl (fofN Fl s) (fofN Fl lcg_m)) by congruence.
  change (fdiv Fl (fofN Fl s) (fofN Fl lcg_m)) with (Bdiv mode_NE (Bofz prec emax Hp He (Z.of_N s)) (Bofz prec emax Hp He 2147483648)) in E2.
  clear H. rewrite E2. clear E2 u.
  assert (D : fmt 2147483648) by (exact (fmt_bpow 31 ltac:(lia))).
  destruct (ofz_rng 2147483648 2147483648 2147483648 D D ltac:(lra)) as ((Fy & Ry) & _).
  set (y := Bofz prec emax Hp He 2147483648) in *. assert (Ey : B2R y = 2147483648) by lra. clear Ry.
  assert (S0 : 0 <= IZR (Z.of_N s) <= 2147483648) by (split; apply IZR_le; lia).
  destruct (ofz_rng 0 2147483648 (Z.of_N s) fmt_0 D S0) as ((Fx & Rx) & _).
  split.
  - apply div_rng; auto using fmt_0, fmt_1; rewrite Ey; lra.
  - intros N. assert (S1 : 1 <= IZR (Z.of_N s) <= 2147483648) by (split; apply IZR_le; lia).
    destruct (ofz_rng 1 2147483648 (Z.of_N s) fmt_1 D S1) as ((_ & Rx1) & _).
    assert (T : fmt (/ 2147483648)) by (exact (fmt_bpow (-31) ltac:(lia))).
    assert (Q : rng (/ 2147483648) 1 (Bdiv mode_NE (Bofz prec emax Hp He (Z.of_N s)) y)).
    { apply div_rng; auto using fmt_1; rewrite Ey; lra. }
    apply Q.
Qed.

Context (Hpi : rng 0 4 (Bpi prec emax Hp He)) (HL : sane L).

Lemma two_val : B2R (ftwo Fl : B) = 2 /\ is_finite (ftwo Fl : B) = true.
Proof. exact (lit_small 2 ltac:(discriminate)). Qed.

Lemma phase_fin : forall pr seed s phi, draw_phase Fl pr seed = Ret (s, phi) -> is_finite (phi : B) = true.
Proof.
  intros pr seed s phi H. unfold draw_phase in H. destruct (lcgf Fl pr seed) as [[s' u]|] eqn:E; [|discriminate]. cbn [obind] in H.
  destruct (draw_rng _ _ _ _ E) as ((Fu & Ru) & _).
  assert (E2 : phi = fmul Fl (fmul Fl (ftwo Fl) u) (fpi Fl)) by congruence.
  change (fmul Fl (fmul Fl (ftwo Fl) u) (fpi Fl)) with (Bmult mode_NE (Bmult mode_NE (ftwo Fl : B) (u : B)) (Bpi prec emax Hp He)) in E2.
  rewrite E2. clear H E2. destruct two_val as (T1 & T2). destruct Hpi as (Fp & Rp).
  assert (F2 : fmt 2) by (exact (fmt_bpow 1 ltac:(lia))). assert (F8 : fmt 8) by (exact (fmt_bpow 3 ltac:(lia))).
  assert (Q : rng 0 2 (Bmult mode_NE (ftwo Fl : B) (u : B))) by (apply mul_rng; auto using fmt_0; rewrite T1; lra).
  destruct Q as (Q1 & Q2). assert (Q : rng 0 8 (Bmult mode_NE (Bmult mode_NE (ftwo Fl : B) (u : B)) (Bpi prec emax Hp He))).
  { apply mul_rng; auto using fmt_0. clear - Q2 Rp. nra. }
  apply Q.
Qed.

(** A bounded number times a cosine or sine. *)
Lemma times_unit : forall a (r c : B), fmt a -> rng (- a) a r -> rng (-1) 1 c -> rng (- a) a (Bmult mode_NE r c).
Proof.
  intros a r c G (Fr & Rr) (Fc & Rc). apply mul_rng; auto using fmt_opp. clear - Rr Rc. nra.
Qed.

(** The radius of a uniform method, in both precisions. *)
Lemma radius32 : forall a u : B, rng 0 1 u -> is_finite a = true -> 0 <= B2R a ->
  rng (- B2R a) (B2R a) (Bmult mode_NE a u) /\ rng (- B2R a) (B2R a) (Bmult mode_NE u a).
Proof.
  intros a u (Fu & Ru) Fa A. split; apply mul_rng; auto using fmt_opp, fmt_B; clear - Ru A; nra.
Qed.
Lemma radius64 : forall a u : B, rng 0 1 u -> is_finite a = true -> 0 <= B2R a <= bpow radix2 64 ->
  rng (- B2R a) (B2R a) (Bminus mode_NE (Bmult mode_NE (Bmult mode_NE (ftwo Fl : B) a) u) a) /\
  rng (- B2R a) (B2R a) (Bminus mode_NE (Bmult mode_NE (Bmult mode_NE (ftwo Fl : B) u) a) a).
Proof.
  intros a u (Fu & Ru) Fa A. destruct two_val as (T1 & T2).
  assert (F2 : fmt 2) by (exact (fmt_bpow 1 ltac:(lia))).
  assert (FA : fmt (B2R a * 2)).
  { apply (fmt_scale (B2R a) 1); [apply generic_format_B2R | lia|]. assert (bpow radix2 64 <= bpow radix2 65) by (apply bpow_le; lia). lra. }
  assert (Q1 : rng 0 (B2R a * 2) (Bmult mode_NE (ftwo Fl : B) a)) by (apply mul_rng; auto using fmt_0; rewrite T1; lra).
  assert (Q2 : rng 0 2 (Bmult mode_NE (ftwo Fl : B) u)) by (apply mul_rng; auto using fmt_0; rewrite T1; lra).
  destruct Q1 as (Q1 & R1), Q2 as (Q2 & R2).
  assert (Q3 : rng 0 (B2R a * 2) (Bmult mode_NE (Bmult mode_NE (ftwo Fl : B) a) u)) by (apply mul_rng; auto using fmt_0; clear - R1 Ru; nra).
  assert (Q4 : rng 0 (B2R a * 2) (Bmult mode_NE (Bmult mode_NE (ftwo Fl : B) u) a)) by (apply mul_rng; auto using fmt_0; clear - R2 A; nra).
  destruct Q3 as (Q3 & R3), Q4 as (Q4 & R4).
  split; apply sub_rng; auto using fmt_opp, fmt_B; lra.
Qed.

(** ** Amplitudes *)
Definition famp (m : InitMethod) : B :=
  match m with
  | Uniform scale => fofnat Fl scale
  | XavierGlorotU n => fsqrt Fl (fdiv Fl (flit Fl 6 1) (fofnat Fl n))
  | Xavier n => fsqrt Fl (fmul Fl (fdiv Fl (fone Fl) (fofnat Fl n)) (flit Fl 12 1))
  | XavierGlorotN n | HeInit n => fsqrt Fl (fdiv Fl (ftwo Fl) (fofnat Fl n))
  end.

Lemma uu_small : 0 < uu <= / 16777216.
Proof.
  split; [apply uu_pos|]. unfold SpecRound.uu. assert (bpow radix2 (- prec + 1) <= bpow radix2 (-23)) by (apply bpow_le; lia).
  change (bpow radix2 (-23)) with (/ 8388608) in H. lra.
Qed.

Lemma count_val : forall n, (1 <= Z.of_nat n < 2 ^ 64)%Z ->
  rng 1 (bpow radix2 64) (fofnat Fl n) /\ (1 - uu) * INR n <= B2R (fofnat Fl n : B) <= (1 + uu) * INR n.
Proof.
  intros n H. assert (V : INR n = IZR (Z.of_nat n)) by apply INR_IZR_INZ.
  assert (S1 : 1 <= IZR (Z.of_nat n) <= bpow radix2 64).
  { change (bpow radix2 64) with (IZR (2 ^ 64)). split; apply IZR_le; lia. }
  destruct (ofz_rng 1 (bpow radix2 64) (Z.of_nat n) fmt_1 (fmt_bpow 64 ltac:(lia)) S1) as (Q & E).
  unfold fofnat. cbn [fofN BOps]. rewrite nat_N_Z. split; [exact Q|]. rewrite E, V. apply rel.
  assert (bpow radix2 (-126) <= bpow radix2 0) by (apply bpow_le; lia). change (bpow radix2 0) with 1 in H0. lra.
Qed.

(** The square root of a quotient of a small integer [k] and a count, through
    a float [q] close to it. *)
Lemma root_amp : forall k n (q : B), 1 <= k <= 12 -> (1 <= Z.of_nat n < 2 ^ 64)%Z -> is_finite q = true ->
  0 <= B2R q <= 12 -> B2R q <= (1 + uu) ^ 4 * (k / INR n) ->
  rng 0 4 (fsqrt Fl q) /\ B2R (fsqrt Fl q : B) <= (1 + uu) ^ 3 * sqrt (k / INR n).
Proof.
  intros k n q K Hn Fq Rq Bq. pose proof uu_small as U.
  assert (N1 : 1 <= INR n) by (rewrite INR_IZR_INZ; apply IZR_le; lia).
  assert (N2 : INR n <= bpow radix2 64) by (rewrite INR_IZR_INZ; change (bpow radix2 64) with (IZR (2 ^ 64)); apply IZR_le; lia).
  assert (F4 : fmt 4) by (exact (fmt_bpow 2 ltac:(lia))).
  assert (S4 : 0 <= sqrt (B2R q) <= 4).
  { split; [apply sqrt_pos|]. replace 4 with (sqrt 16) by (replace 16 with (4 * 4) by ring; apply sqrt_square; lra). apply sqrt_le_1_alt. lra. }
  destruct (sqrt_rng 0 4 q Fq (proj1 Rq) fmt_0 F4 S4) as (Q & E). split; [exact Q|].
  change (fsqrt Fl q) with (Bsqrt mode_NE q : B). rewrite E.
  set (t := (1 + uu) ^ 2 * sqrt (k / INR n)).
  assert (I0 : 0 < / INR n) by (apply Rinv_0_lt_compat; lra).
  assert (T : sqrt (B2R q) <= t).
  { unfold t. replace ((1 + uu) ^ 2) with (sqrt ((1 + uu) ^ 4)).
    - rewrite <- sqrt_mult_alt by (apply pow_le; lra). apply sqrt_le_1_alt. exact Bq.
    - replace ((1 + uu) ^ 4) with ((1 + uu) ^ 2 * (1 + uu) ^ 2) by ring. apply sqrt_square. apply pow_le. lra. }
  assert (LB : bpow radix2 (-126) <= t).
  { apply Rle_trans with (bpow radix2 (-32)); [apply bpow_le; lia|].
    replace (bpow radix2 (-32)) with (1 * sqrt (bpow radix2 (-64))).
    - unfold t. apply Rmult_le_compat; [lra | apply sqrt_pos | apply pow_R1_Rle; lra|]. apply sqrt_le_1_alt.
      change (bpow radix2 (-64)) with (/ bpow radix2 64). apply Rle_trans with (1 * / INR n).
      + rewrite Rmult_1_l. apply Rinv_le; lra.
      + unfold Rdiv. apply Rmult_le_compat_r; lra.
    - rewrite Rmult_1_l. change (-64)%Z with (-32 + -32)%Z. rewrite bpow_plus. apply sqrt_square. apply bpow_ge_0. }
  apply Rle_trans with (rnd t); [apply round_le; auto with typeclass_instances|].
  replace ((1 + uu) ^ 3 * sqrt (k / INR n)) with ((1 + uu) * t) by (unfold t; ring). apply rel. exact LB.
Qed.

Lemma quot_amp : forall k n (c : B), 1 <= k <= 6 -> B2R c = k -> is_finite c = true -> (1 <= Z.of_nat n < 2 ^ 64)%Z ->
  let q := Bdiv mode_NE c (fofnat Fl n : B) in
  rng 0 8 q /\ B2R q <= k /\ B2R q <= (1 + uu) ^ 3 * (k / INR n).
Proof.
  intros k n c K Ec Fc Hn q. pose proof uu_small as U. destruct (count_val n Hn) as ((Fn & Rn) & Vn).
  assert (N1 : 1 <= INR n) by (rewrite INR_IZR_INZ; apply IZR_le; lia).
  set (y := (fofnat Fl n : B)) in *. assert (Y0 : B2R y <> 0) by lra.
  assert (I0 : 0 < / B2R y) by (apply Rinv_0_lt_compat; lra).
  assert (I1 : / B2R y <= 1) by (rewrite <- Rinv_1; apply Rinv_le; lra).
  assert (Fk : fmt k) by (rewrite <- Ec; apply fmt_B).
  assert (RG : 0 <= B2R c / B2R y <= k) by (rewrite Ec; unfold Rdiv; clear - I0 I1 K; nra).
  destruct (div_rng 0 k c y Fc Y0 fmt_0 Fk RG) as ((Q1 & Q2) & E). fold q in Q1, Q2, E.
  split; [split; [exact Q1 | lra]|]. split; [lra|].
  assert (W : 0 < 1 - uu) by lra.
  assert (T : k / B2R y <= (1 + uu) ^ 2 * (k / INR n)).
  { unfold Rdiv. replace ((1 + uu) ^ 2 * (k * / INR n)) with (k * ((1 + uu) ^ 2 * / INR n)) by ring. apply Rmult_le_compat_l; [lra|].
    apply Rle_trans with (/ ((1 - uu) * INR n)).
    - apply Rinv_le; [apply Rmult_lt_0_compat; lra | lra].
    - rewrite Rinv_mult_distr by lra. apply Rmult_le_compat_r; [left; apply Rinv_0_lt_compat; lra|].
      apply Rmult_le_reg_r with (1 - uu); [lra|]. rewrite Rinv_l by lra. clear - U. nra. }
  assert (LB : bpow radix2 (-126) <= k / B2R y).
  { apply Rle_trans with (bpow radix2 (-64)); [apply bpow_le; lia|]. change (bpow radix2 (-64)) with (/ bpow radix2 64).
    apply Rle_trans with (1 * / B2R y); [rewrite Rmult_1_l; apply Rinv_le; lra|]. apply Rmult_le_compat_r; lra. }
  rewrite E, Ec. pose proof (rel _ LB) as RE.
  assert (Z : (1 + uu) * (k / B2R y) <= (1 + uu) * ((1 + uu) ^ 2 * (k / INR n))) by (apply Rmult_le_compat_l; lra).
  replace ((1 + uu) ^ 3 * (k / INR n)) with ((1 + uu) * ((1 + uu) ^ 2 * (k / INR n))) by ring. lra.
Qed.

Lemma amp_val : forall m, sized m ->
  rng 0 (bpow radix2 64) (famp m) /\ B2R (famp m) <= (1 + uu) ^ 3 * amplitude m.
Proof.
  intros m Hm. pose proof uu_small as U.
  assert (F64 : 4 <= bpow radix2 64) by (change 4 with (bpow radix2 2); apply bpow_le; lia).
  assert (W : forall k n q, 1 <= k <= 12 -> (1 <= Z.of_nat n < 2 ^ 64)%Z -> is_finite q = true ->
     0 <= B2R q <= 12 -> B2R q <= (1 + uu) ^ 4 * (k / INR n) ->
     rng 0 (bpow radix2 64) (fsqrt Fl q) /\ B2R (fsqrt Fl q : B) <= (1 + uu) ^ 3 * sqrt (k / INR n)).
  { intros k n q K Hn Fq Rq Bq. destruct (root_amp k n q K Hn Fq Rq Bq) as ((Q1 & Q2) & Q3).
    split; [split; [exact Q1 | lra] | exact Q3]. }
  assert (V : forall k n (c : B), 1 <= k <= 6 -> B2R c = k -> is_finite c = true -> (1 <= Z.of_nat n < 2 ^ 64)%Z ->
     rng 0 (bpow radix2 64) (fsqrt Fl (fdiv Fl c (fofnat Fl n))) /\ B2R (fsqrt Fl (fdiv Fl c (fofnat Fl n)) : B) <= (1 + uu) ^ 3 * sqrt (k / INR n)).
  { intros k n c K Ec Fc Hn. destruct (quot_amp k n c K Ec Fc Hn) as ((Q1 & Q2) & Q4 & Q3).
    change (fdiv Fl c (fofnat Fl n)) with (Bdiv mode_NE c (fofnat Fl n : B)). apply W; auto; try lra.
    replace ((1 + uu) ^ 4 * (k / INR n)) with ((1 + uu) * ((1 + uu) ^ 3 * (k / INR n))) by ring.
    assert (0 <= B2R (Bdiv mode_NE c (fofnat Fl n : B))) by lra. clear - Q3 H U. nra. }
  destruct m as [n|n|n|n|n]; cbn [famp amplitude sized] in *.
  - destruct (Nat.eq_dec n 0) as [->|N0].
    + destruct (ofz_rng 0 0 0 fmt_0 fmt_0 ltac:(lra)) as ((Q1 & Q2) & _). change (fofnat Fl 0) with (Bofz prec emax Hp He 0 : B).
      split; [split; [exact Q1 | lra]|]. simpl INR. lra.
    + destruct (count_val n ltac:(lia)) as ((Fn & Rn) & Vn). split; [split; [exact Fn | lra]|].
      assert (0 <= INR n) by apply pos_INR. assert (P1 : 1 + uu <= (1 + uu) ^ 3) by (clear - U; nra).
      assert (Q := Rmult_le_compat_r _ _ _ H P1). lra.
  - destruct (lit_small 6 ltac:(discriminate)) as (E & Fc). apply (V 6 n _ ltac:(lra) E Fc Hm).
  - destruct two_val as (E & Fc). apply (V 2 n _ ltac:(lra) E Fc Hm).
  - destruct (lit_small 1 ltac:(discriminate)) as (E1 & F1). destruct (lit_small 12 ltac:(discriminate)) as (E12 & F12).
    destruct (quot_amp 1 n _ ltac:(lra) E1 F1 Hm) as ((Q1 & Q2) & Q4 & Q3).
    set (q := Bdiv mode_NE (Bofz prec emax Hp He 1) (fofnat Fl n : B)) in *.
    change (fmul Fl (fdiv Fl (fone Fl) (fofnat Fl n)) (flit Fl 12 1)) with (Bmult mode_NE q (Bofz prec emax Hp He 12)).
    set (c := Bofz prec emax Hp He 12) in *. assert (F12' : fmt 12) by (rewrite <- E12; apply fmt_B).
    assert (RG : 0 <= B2R q * B2R c <= 12) by (rewrite E12; lra).
    destruct (mul_rng 0 12 q c Q1 F12 fmt_0 F12' RG) as (M1 & M2).
    apply W; auto; try lra.
    destruct (rnd_rng 0 12 _ fmt_0 F12' RG) as (_ & O).
    pose proof (Bmult_correct prec emax Hp He mode_NE q c) as C. cbn [round_mode] in C. rewrite (Rlt_bool_true _ _ O) in C.
    destruct C as (C1 & _). rewrite C1, E12.
    set (t := (1 + uu) ^ 3 * (12 / INR n)).
    assert (N1 : 1 <= INR n) by (rewrite INR_IZR_INZ; apply IZR_le; lia).
    assert (N2 : INR n <= bpow radix2 64) by (rewrite INR_IZR_INZ; change (bpow radix2 64) with (IZR (2 ^ 64)); apply IZR_le; lia).
    assert (LB : bpow radix2 (-126) <= t).
    { apply Rle_trans with (bpow radix2 (-64)); [apply bpow_le; lia|]. change (bpow radix2 (-64)) with (/ bpow radix2 64).
      assert (/ bpow radix2 64 <= / INR n) by (apply Rinv_le; lra).
      assert (1 <= (1 + uu) ^ 3) by (apply pow_R1_Rle; lra). unfold t, Rdiv. pose proof (bpow_gt_0 radix2 64).
      assert (0 < / bpow radix2 64) by (now apply Rinv_0_lt_compat).
      assert (/ bpow radix2 64 <= 12 * / INR n) by lra. clear - H0 H3 H2 H. set (x := 12 * / INR n) in *. clearbody x.
      set (y := / bpow radix2 64) in *. clearbody y. generalize dependent ((1 + uu) ^ 3). intros w Hw. nra. }
    apply Rle_trans with (rnd t); [apply round_le; auto with typeclass_instances; unfold t; unfold Rdiv in *; lra|].
    replace ((1 + uu) ^ 4 * (12 / INR n)) with ((1 + uu) * t) by (unfold t; ring). apply rel. exact LB.
  - destruct two_val as (E & Fc). apply (V 2 n _ ltac:(lra) E Fc Hm).
Qed.

(** ** Weights *)
Definition reach (m : InitMethod) : R := (if gaussian m then 8 else 1) * B2R (famp m).

Lemma polar_rng : forall a (r phi : B), fmt a -> rng (- a) a r -> is_finite phi = true ->
  rng (- a) a (Bmult mode_NE r (l_cos L phi)) /\ rng (- a) a (Bmult mode_NE r (l_sin L phi)).
Proof.
  intros a r phi G R Ph. destruct HL as (HS & HC & _ & _). destruct (HS phi Ph) as (S1 & S2), (HC phi Ph) as (C1 & C2).
  split; apply times_unit; auto; split; auto.
Qed.

Lemma uniform_weight : forall (p : Float.prec) (r32 r64 phi : B) m, gaussian m = false -> is_finite phi = true ->
  rng (- B2R (famp m)) (B2R (famp m)) r32 -> rng (- B2R (famp m)) (B2R (famp m)) r64 ->
  let r := match p with P32 => r32 | P64 => r64 end in
  rng (- reach m) (reach m) (Bmult mode_NE r (l_cos L phi)) /\ rng (- reach m) (reach m) (Bmult mode_NE r (l_sin L phi)).
Proof.
  intros p r32 r64 phi m G Ph R1 R2 r. unfold reach. rewrite G, Rmult_1_l.
  apply polar_rng; auto using fmt_B. unfold r. destruct p; assumption.
Qed.

Lemma normal_weight : forall pr m n seed s1 u s' z, gaussian m = true -> sized m ->
  fsqrt Fl (fdiv Fl (ftwo Fl) (fofnat Fl n)) = famp m ->
  lcgf Fl pr seed = Ret (s1, u) -> gen_normal Fl pr seed n = Ret (s', z) -> s1 <> 0%N ->
  rng (- reach m) (reach m) (re z) /\ rng (- reach m) (reach m) (im z).
Proof.
  intros pr m n seed s1 u s' z G Hm Ea E1 H N0. unfold gen_normal in H. rewrite Ea, E1 in H. cbn [obind] in H.
  destruct (draw_phase Fl pr s1) as [[s2 phi1]|] eqn:E2; [|discriminate]. cbn [obind] in H.
  destruct (draw_phase Fl pr s2) as [[s3 phi]|] eqn:E3; [|discriminate]. cbn [obind] in H.
  destruct (amp_val m Hm) as ((Fa & Ra) & _). pose proof (phase_fin _ _ _ _ E2) as P1. pose proof (phase_fin _ _ _ _ E3) as P2.
  destruct (draw_rng _ _ _ _ E1) as ((Fu & Ru) & Lu). specialize (Lu N0).
  pose proof HL as (_ & HC & HN & _). destruct (HN u Fu ltac:(lra)) as (Fn & Rn). destruct (HC phi1 P1) as (C1 & C2).
  set (ln := (l_ln L u : B)) in *. set (cs := (l_cos L phi1 : B)) in *.
  destruct two_val as (T1 & T2).
  assert (F64 : fmt 64) by (exact (fmt_bpow 6 ltac:(lia))). assert (F8 : fmt 8) by (exact (fmt_bpow 3 ltac:(lia))).
  set (mt := (fneg Fl (ftwo Fl) : B)). assert (M1 : B2R mt = -2) by (unfold mt; change (fneg Fl (ftwo Fl)) with (Bopp (ftwo Fl : B)); rewrite B2R_Bopp, T1; ring).
  assert (M2 : is_finite mt = true) by (unfold mt; change (fneg Fl (ftwo Fl)) with (Bopp (ftwo Fl : B)); now rewrite is_finite_Bopp).
  assert (Q1 : rng 0 64 (Bmult mode_NE mt ln)) by (apply mul_rng; auto using fmt_0; rewrite M1; lra).
  destruct Q1 as (Q1 & R1). set (q1 := Bmult mode_NE mt ln) in *.
  assert (S8 : 0 <= sqrt (B2R q1) <= 8).
  { split; [apply sqrt_pos|]. replace 8 with (sqrt 64) by (replace 64 with (8 * 8) by ring; apply sqrt_square; lra). apply sqrt_le_1_alt. lra. }
  destruct (sqrt_rng 0 8 q1 Q1 (proj1 R1) fmt_0 F8 S8) as ((Q2 & R2) & _). set (q2 := Bsqrt mode_NE q1) in *.
  assert (Q3 : rng (- (8)) 8 (Bmult mode_NE q2 cs)) by (apply mul_rng; auto using fmt_opp; clear - R2 C2; nra).
  destruct Q3 as (Q3 & R3). set (q3 := Bmult mode_NE q2 cs) in *.
  assert (FA : fmt (8 * B2R (famp m))).
  { rewrite Rmult_comm. apply (fmt_scale (B2R (famp m)) 3); [apply generic_format_B2R | lia|].
    assert (bpow radix2 64 <= bpow radix2 65) by (apply bpow_le; lia). lra. }
  assert (Q4 : rng (- (8 * B2R (famp m))) (8 * B2R (famp m)) (Bmult mode_NE q3 (famp m))).
  { apply mul_rng; auto using fmt_opp; clear - R3 Ra; nra. }
  unfold reach. rewrite G.
  assert (Ez : z = mkC (fmul Fl (Bmult mode_NE q3 (famp m)) (fcos Fl phi)) (fmul Fl (Bmult mode_NE q3 (famp m)) (fsin Fl phi))).
  { symmetry. cut (Ret (s3, mkC (fmul Fl (Bmult mode_NE q3 (famp m)) (fcos Fl phi)) (fmul Fl (Bmult mode_NE q3 (famp m)) (fsin Fl phi))) = Ret (s', z)).
    - congruence.
    - exact H. }
  rewrite Ez. cbn [re im]. apply polar_rng; auto.
Qed.

Lemma weight_rng : forall p pr m seed s1 u s' z, sized m -> lcgf Fl pr seed = Ret (s1, u) ->
  init_gen Fl p pr m seed = Ret (s', z) -> ~ (gaussian m = true /\ s1 = 0%N) ->
  rng (- reach m) (reach m) (re z) /\ rng (- reach m) (reach m) (im z).
Proof.
  intros p pr m seed s1 u s' z Hm E1 H NG.
  destruct (gaussian m) eqn:G.
  - assert (N0 : s1 <> 0%N) by tauto.
    destruct m as [n|n|n|n|n]; try discriminate; cbn [init_gen] in H; apply (normal_weight pr _ n seed s1 u s' z); auto.
  - destruct (amp_val m Hm) as ((Fa & Ra) & _). destruct (draw_rng _ _ _ _ E1) as (Ru & _).
    destruct (radius32 (famp m) u Ru Fa (proj1 Ra)) as (A1 & A2). destruct (radius64 (famp m) u Ru Fa Ra) as (B1 & B2).
    destruct m as [n|n|n|n|n]; try discriminate; cbn [init_gen] in H; unfold c_gen, gen_xa, gen_xagu in H; rewrite E1 in H; cbn [obind] in H;
      (destruct (draw_phase Fl pr s1) as [[s2 phi]|] eqn:E2; [|discriminate]); cbn [obind] in H;
      pose proof (phase_fin _ _ _ _ E2) as Ph.
    + pose proof (uniform_weight p _ _ phi (Uniform n) G Ph A1 B1) as Q.
      assert (Ez : forall x, Ret (s2, x) = Ret (s', z) -> z = x) by congruence. rewrite (Ez _ H). destruct p; exact Q.
    + pose proof (uniform_weight p _ _ phi (XavierGlorotU n) G Ph A2 B2) as Q.
      assert (Ez : forall x, Ret (s2, x) = Ret (s', z) -> z = x) by congruence. rewrite (Ez _ H). destruct p; exact Q.
    + pose proof (uniform_weight p _ _ phi (Xavier n) G Ph A2 B2) as Q.
      assert (Ez : forall x, Ret (s2, x) = Ret (s', z) -> z = x) by congruence. rewrite (Ez _ H). destruct p; exact Q.
Qed.

(** The zero draw of the normal methods. *)
Context (Hz : Bdiv mode_NE (Bofz prec emax Hp He 0) (Bofz prec emax Hp He 2147483648) = B754_zero false).
Context (Hi : Bsqrt mode_NE (Bmult mode_NE (Bopp (Bofz prec emax Hp He 2)) (B754_infinity true)) = B754_infinity false).

Lemma zero_draw : forall p pr m seed u s' z, gaussian m = true -> lcgf Fl pr seed = Ret (0%N, u) ->
  init_gen Fl p pr m seed = Ret (s', z) -> is_finite (re z : B) = false /\ is_finite (im z : B) = false.
Proof.
  intros p pr m seed u s' z G E1 H.
  assert (Eu : u = (B754_zero false : B)).
  { unfold lcgf in E1. destruct (lcg_next pr seed) as [s|]; [|discriminate]. cbn [obind] in E1.
    assert (s = 0%N) by congruence. subst s. assert (u = fdiv Fl (fofN Fl 0) (fofN Fl lcg_m)) by congruence. rewrite H0. exact Hz. }
  assert (HG : exists n, gen_normal Fl pr seed n = Ret (s', z)) by (destruct m as [n|n|n|n|n]; try discriminate; exists n; exact H).
  clear H. destruct HG as (n & H). unfold gen_normal in H. rewrite E1 in H. cbn [obind] in H.
  destruct (draw_phase Fl pr 0) as [[s2 phi1]|]; [|discriminate]. cbn [obind] in H.
  destruct (draw_phase Fl pr s2) as [[s3 phi]|]; [|discriminate]. cbn [obind] in H.
  assert (S : fsqrt Fl (fmul Fl (fneg Fl (ftwo Fl)) (fln Fl u)) = (B754_infinity false : B)).
  { rewrite Eu. destruct HL as (_ & _ & _ & HN). cbn [fln fmul fneg fsqrt BOps]. rewrite HN. exact Hi. }
  rewrite S in H.
  assert (Ez : forall x, Ret (s3, x) = Ret (s', z) -> z = x) by congruence. rewrite (Ez _ H). cbn [re im].
  split; repeat apply Bmult_nf_l; reflexivity.
Qed.
End Init.

(** ** Layers *)
Lemma iter_plus : forall (a b : nat) (x : N), Nat.iter (a + b) next x = Nat.iter a next (Nat.iter b next x).
Proof.
  induction a as [|a IH]; intros b x; [reflexivity|].
  change (next (Nat.iter (a + b) next x) = next (Nat.iter a next (Nat.iter b next x))). now rewrite IH.
Qed.
Lemma draws_finite : forall {A} (g : N -> outcome (N * A)) (Q : A -> Prop) (bad : N -> Prop) k seed l s',
  (forall s, (s < P)%N -> exists a, g s = Ret (Nat.iter k next s, a)) ->
  (forall s s' a, (s < P)%N -> g s = Ret (s', a) -> (Q a <-> ~ bad (next s))) ->
  (0 < k)%nat -> (seed < P)%N -> draws g seed l s' ->
  (Forall Q l <-> forall i, (i < length l)%nat -> ~ bad (Nat.iter (k * i + 1) next seed)).
Proof.
  intros A g Q bad k seed l s' HG HQ K. revert seed s'. induction l as [|a l IH]; intros seed s' Hs D.
  - split; [intros _ i Hi; cbn in Hi; lia | constructor].
  - inversion D as [|? s1 ? ? ? E D']; subst. destruct (HG seed Hs) as (a' & E'). rewrite E' in E. injection E as <- <-.
    assert (Hs1 : (Nat.iter k next seed < P)%N) by (destruct k; [lia | apply next_lt]).
    specialize (IH _ _ Hs1 D'). specialize (HQ _ _ _ Hs E'). rewrite Forall_cons_iff, HQ, IH.
    assert (SH : forall i, Nat.iter (k * i + 1) next (Nat.iter k next seed) = Nat.iter (k * S i + 1) next seed).
    { intros i. replace (k * S i + 1)%nat with ((k * i + 1) + k)%nat by lia. symmetry. apply iter_plus. }
    split.
    + intros (H1 & H2) [|i] Hi.
      * rewrite Nat.mul_0_r. exact H1.
      * rewrite <- SH. apply H2. cbn in Hi. lia.
    + intros H. split.
      * specialize (H O ltac:(cbn; lia)). rewrite Nat.mul_0_r in H. exact H.
      * intros i Hi. rewrite SH. apply H. cbn. lia.
Qed.

Lemma init_steps : forall Fl p pr m s, (s < P)%N ->
  exists a, init_gen Fl p pr m s = Ret (Nat.iter (if gaussian m then 3 else 2) next s, a).
Proof.
  intros Fl p pr m s H. destruct m; cbn [init_gen gaussian]; unfold c_gen, gen_xagu, gen_xagn, gen_xa, gen_he, gen_normal, draw_phase, lcgf;
    rewrite lcg_next_small by auto; cbn [obind]; rewrite lcg_next_small by apply next_lt; cbn [obind];
    try (rewrite lcg_next_small by apply next_lt; cbn [obind]); eexists; reflexivity.
Qed.

(** ** A platform that qualifies *)
Definition libm_ieee prec emax (Hp : Prec_gt_0 prec) (He : Prec_lt_emax prec emax) : libm (binary_float prec emax) :=
  let N f x := Bnear prec emax Hp He (f (B2R x)) in
  mkLibm _ (N exp) (fun x => match x with B754_zero _ => B754_infinity true | _ => N ln x end) (N sin) (N cos) (N tanh) (N cosh) (N atan)
    (fun x _ => x) (fun _ => false).

Lemma ieee_sane : forall prec emax (Hp : Prec_gt_0 prec) (He : Prec_lt_emax prec emax), (24 <= prec)%Z -> (128 <= emax)%Z ->
  sane (libm_ieee prec emax Hp He).
Proof.
  intros prec emax Hp He H1 H2. pose proof (vexp prec emax Hp) as VE.
  assert (N : forall lo hi t, fmt prec emax lo -> fmt prec emax hi -> lo <= t <= hi ->
     is_finite (Bnear prec emax Hp He t) = true /\ lo <= B2R (Bnear prec emax Hp He t) <= hi).
  { intros lo hi t GL GH T. destruct (rnd_rng prec emax Hp lo hi t GL GH T) as (Q & O).
    destruct (Bnear_ok prec emax Hp He t O) as (F & V). split; [exact F | now rewrite V]. }
  assert (F1 : fmt prec emax 1) by (apply fmt_1; assumption).
  assert (Fm : fmt prec emax (-1)) by (replace (-1) with (- (1)) by ring; now apply fmt_opp).
  split; [|split; [|split]].
  - intros x _. apply N; auto. apply SIN_bound.
  - intros x _. apply N; auto. apply COS_bound.
  - intros x Fx Rx.
    assert (E : l_ln (libm_ieee prec emax Hp He) x = Bnear prec emax Hp He (ln (B2R x))).
    { destruct x; auto. cbn [B2R] in Rx. lra. }
    rewrite E.
    assert (L1 : ln (B2R x) <= 0) by (rewrite <- ln_1; destruct (Req_dec (B2R x) 1) as [->|]; [lra | left; apply ln_increasing; lra]).
    assert (L2 : -31 <= ln (B2R x)).
    { assert (Q : ln (/ 2147483648) <= ln (B2R x)).
      { destruct (Req_dec (/ 2147483648) (B2R x)) as [->|]; [lra | left; apply ln_increasing; lra]. }
      assert (Q2 : ln (/ 2147483648) = - (31 * ln 2)).
      { rewrite ln_Rinv by lra. replace 2147483648 with (2 ^ 31) by lra. rewrite ln_pow by lra. simpl INR. lra. }
      assert (Q3 : ln 2 <= 1).
      { rewrite <- (ln_exp 1). left. apply ln_increasing; [lra|]. pose proof (exp_ineq1 1 ltac:(lra)). lra. }
      lra. }
    assert (F31 : fmt prec emax 31).
    { destruct (Bofz_exact prec emax Hp He 31) as (V & _).
      - assert (2 ^ 24 <= 2 ^ prec)%Z by (apply Z.pow_le_mono_r; lia). lia.
      - rewrite <- V. apply fmt_B. }
    destruct (N (- (31)) 0 (ln (B2R x)) ltac:(now apply fmt_opp) ltac:(apply fmt_0) ltac:(lra)) as (Q1 & Q2). split; [exact Q1 | lra].
  - reflexivity.
Qed.

(** ** The two precisions *)
Lemma Rle_bool_true' : forall x y, Rle_bool x y = true -> x <= y.
Proof. intros x y H. destruct (Rle_bool_spec x y); [assumption | discriminate]. Qed.
Lemma rng_check : forall prec emax (Hp : Prec_gt_0 prec) (He : Prec_lt_emax prec emax) (x : binary_float prec emax), (24 <= prec)%Z -> (128 <= emax)%Z ->
  is_finite x = true -> Bleb (Bofz prec emax Hp He 0) x = true -> Bleb x (Bofz prec emax Hp He 4) = true -> rng prec emax 0 4 x.
Proof.
  intros prec emax Hp He x H1 H2 F A1 A2. assert (2 ^ 24 <= 2 ^ prec)%Z by (apply Z.pow_le_mono_r; lia).
  destruct (Bofz_exact prec emax Hp He 0) as (V0 & F0); [lia|]. destruct (Bofz_exact prec emax Hp He 4) as (V4 & F4); [lia|].
  rewrite Bleb_correct in A1, A2 by assumption. rewrite V0 in A1. rewrite V4 in A2.
  split; [exact F|]. split; [apply (Rle_bool_true' _ _ A1) | apply (Rle_bool_true' _ _ A2)].
Qed.
Lemma pi32 : rng 24 128 0 4 (Bpi 24 128 prec24 emax128).
Proof. apply (rng_check 24 128 prec24 emax128); try lia; vm_compute; reflexivity. Qed.
Lemma pi64 : rng 53 1024 0 4 (Bpi 53 1024 prec53 emax1024).
Proof. apply (rng_check 53 1024 prec53 emax1024); try lia; vm_compute; reflexivity. Qed.

Definition weight_claim (pc em : Z) (Hp : Prec_gt_0 pc) (He : Prec_lt_emax pc em) (p : Float.prec) (L : libm (binary_float pc em)) : Prop :=
  forall pr m seed s1 u s' z, sized m ->
  lcgf (BOps pc em Hp He L) pr seed = Ret (s1, u) -> init_gen (BOps pc em Hp He L) p pr m seed = Ret (s', z) ->
  let far := (if gaussian m then 8 else 1) * ((1 + uu pc) ^ 3 * amplitude m) in
  (cfinite (prec := pc) (emax := em) z <-> ~ (gaussian m = true /\ s1 = 0%N)) /\
  (cfinite (prec := pc) (emax := em) z -> Rabs (B2R (re z : binary_float pc em)) <= far /\ Rabs (B2R (im z : binary_float pc em)) <= far).

Lemma weight_all : forall pc em Hp He p L, (24 <= pc)%Z -> (128 <= em)%Z -> rng pc em 0 4 (Bpi pc em Hp He) -> sane L ->
  Bdiv mode_NE (Bofz pc em Hp He 0) (Bofz pc em Hp He 2147483648) = B754_zero false ->
  Bsqrt mode_NE (Bmult mode_NE (Bopp (Bofz pc em Hp He 2)) (B754_infinity true)) = B754_infinity false ->
  weight_claim pc em Hp He p L.
Proof.
  intros pc em Hp He p L H1 H2 HPi HL Hz Hi pr m seed s1 u s' z Hm E1 E far.
  assert (NF : gaussian m = true /\ s1 = 0%N -> ~ cfinite (prec := pc) (emax := em) z).
  { intros (G & ->) (F1 & F2). destruct (zero_draw pc em Hp He L HL Hz Hi p pr m seed u s' z G E1 E) as (Q1 & _). exact (Bool.eq_true_false_abs _ F1 Q1). }
  pose proof (weight_rng pc em Hp He L H1 H2 HPi HL p pr m seed s1 u s' z Hm E1 E) as W.
  split.
  - split; [tauto|]. intros N. destruct (W N) as ((Q1 & _) & (Q2 & _)). split; assumption.
  - intros F. assert (N : ~ (gaussian m = true /\ s1 = 0%N)) by tauto. destruct (W N) as ((_ & Q1) & (_ & Q2)).
    destruct (amp_val pc em Hp He L H1 H2 m Hm) as ((_ & A0) & A).
    assert (K : reach pc em Hp He L m <= far).
    { unfold reach, far. apply Rmult_le_compat_l; [destruct (gaussian m); lra | exact A]. }
    split; apply Rabs_le; lra.
Qed.

Lemma layer_weights : forall pc em Hp He p L pr m seed l s', weight_claim pc em Hp He p L -> sized m -> (seed < P)%N ->
  draws (init_gen (BOps pc em Hp He L) p pr m) seed l s' ->
  (Forall (cfinite (prec := pc) (emax := em)) l <->
     (gaussian m = true -> forall i, (i < length l)%nat -> Nat.iter (3 * i + 1) next seed <> 0%N)).
Proof.
  intros pc em Hp He p L pr m seed l s' W Hm Hs D.
  rewrite (draws_finite (init_gen (BOps pc em Hp He L) p pr m) (cfinite (prec := pc) (emax := em)) (fun s => gaussian m = true /\ s = 0%N)
     (if gaussian m then 3 else 2)%nat seed l s'); auto.
  - destruct (gaussian m) eqn:G.
    + split; [intros H _ i Hi E; apply (H i Hi); auto | intros H i Hi (_ & E); exact (H eq_refl i Hi E)].
    + split; [discriminate | intros _ i Hi (E & _); discriminate].
  - intros s Hs'. now apply init_steps.
  - intros s s1 a Hs' E.
    assert (E1 : lcgf (BOps pc em Hp He L) pr s = Ret (next s, fdiv (BOps pc em Hp He L) (fofN (BOps pc em Hp He L) (next s)) (fofN (BOps pc em Hp He L) lcg_m))).
    { unfold lcgf. now rewrite lcg_next_small. }
    apply (proj1 (W pr m s _ _ s1 a Hm E1 E)).
  - destruct (gaussian m); lia.
Qed.

Lemma zeros_finite : forall pc em Hp He L n, Forall (cfinite (prec := pc) (emax := em)) (repeat (c_default (BOps pc em Hp He L)) n).
Proof.
  intros pc em Hp He L n. apply Forall_forall. intros z Hz. apply repeat_spec in Hz. subst z.
  destruct (Bofz_exact pc em Hp He 0) as (_ & F); [apply Z.pow_nonneg; lia|]. split; exact F.
Qed.
