(** * Lemmas about the class predicted in floating point *)
From Coq Require Import ZArith Reals Lra Psatz.
From Flocq Require Import Core BinarySingleNaN.
From Verif Require Import Base BaseFacts Float Matrix Cplx Act Input Dense Conv Layer Dataset Network RFloat BFloat BFacts CFacts SpecMatrix SpecGeom SpecRound SpecLip SpecEval
  RoundFacts RoundAct RoundNet LipFacts LipNum PropEval SpecClass.
Local Notation re := Cplx.re. Local Notation im := Cplx.im.
Local Open Scope R_scope.

Section Class.
Context (prec emax : Z) (Hp : Prec_gt_0 prec) (He : Prec_lt_emax prec emax) (L : libm (binary_float prec emax)).
Local Notation B := (binary_float prec emax).
Local Notation Fl := (BOps prec emax Hp He L).
Local Notation u := (uu prec).
Local Notation eta := (SpecRound.eta prec emax).
Local Notation omega := (SpecRound.omega emax).
Local Notation hi := (sq_above prec emax).
Local Notation lo := (sq_below prec emax).
Context (U4 : u <= / 4).

Lemma hi_mono : forall a b, 0 <= a <= b -> hi a <= hi b.
Proof. intros a b H. unfold sq_above. apply Rmult_le_compat_l; [pose proof (pw1 prec 2); lra|]. assert (a * a <= b * b) by (apply Rmult_le_compat; lra). lra. Qed.
Lemma lo_mono : forall a b, 0 <= a <= b -> lo a <= lo b.
Proof. intros a b H. unfold sq_below. pose proof (uu_pos prec). assert ((1 + u) ^ 2 <= 2) by (generalize dependent u; intros v V1 V2; cbn [pow]; nra).
  assert (a * a <= b * b) by (apply Rmult_le_compat; lra). apply Rplus_le_compat_r, Rmult_le_compat_l; lra. Qed.
Lemma hi_above : forall m, m * m < hi m.
Proof. intros m. unfold sq_above. pose proof (pw1 prec 2). pose proof (eta_pos prec emax). nra. Qed.
Lemma lo_below : forall m, lo m < m * m.
Proof. intros m. unfold sq_below. pose proof (pw1 prec 2). pose proof (eta_pos prec emax). nra. Qed.

(** The computed squared modulus. *)
Lemma norm_sq_close : forall z : cplx B, cfinite z -> hi (modulus (cval z)) < omega ->
  is_finite (c_norm_sq Fl z) = true /\ lo (modulus (cval z)) <= B2R (c_norm_sq Fl z) <= hi (modulus (cval z)).
Proof.
  intros [a b] (FA & FB) O. cbn [Cplx.re Cplx.im] in *. unfold sq_above, sq_below in *.
  assert (M : modulus (cval (mkC a b)) * modulus (cval (mkC a b)) = B2R a * B2R a + B2R b * B2R b).
  { unfold modulus, cval. cbn [Cplx.re Cplx.im]. apply sqrt_sqrt. nra. }
  rewrite M in *. clear M. pose proof (uu_pos prec). pose proof (eta_pos prec emax). pose proof (pw1 prec 1) as P1. pose proof (pwS prec 1) as P2.
  assert (SQ : forall x : B, Rabs (B2R x) * Rabs (B2R x) = B2R x * B2R x) by (intros x; rewrite <- Rabs_mult; apply Rabs_pos_eq; nra).
  assert (Z : forall x : B, 0 <= B2R x * B2R x) by (intros; nra). pose proof (Z a) as ZA. pose proof (Z b) as ZB.
  assert (CL : forall x : B, is_finite x = true -> (1 + u) ^ 1 * (B2R x * B2R x + eta) < omega -> close prec emax 1 (B2R x * B2R x) eta (Bmult mode_NE x x) (B2R x * B2R x)).
  { intros x FX OX. pose proof (close_mult prec emax Hp He 0 (Rabs (B2R x)) 0 x x (B2R x) FX (close_exact prec emax x FX)) as C.
    rewrite SQ, Rmult_0_r, Rplus_0_l in C. apply C. exact OX. }
  cbn [pow] in *. rewrite Rmult_1_r in *.
  assert (OA : (1 + u) * (B2R a * B2R a + eta) < omega) by nra. assert (OB : (1 + u) * (B2R b * B2R b + eta) < omega) by nra.
  pose proof (close_plus prec emax Hp He 1 _ _ _ _ _ _ _ _ (CL a FA ltac:(lra)) (CL b FB ltac:(lra))) as C.
  assert (O2 : (1 + u) ^ 2 * (B2R a * B2R a + B2R b * B2R b + (eta + eta)) < omega) by (cbn [pow]; rewrite Rmult_1_r; lra).
  specialize (C O2). destruct C as (F & _ & _ & E). change (c_norm_sq Fl (mkC a b)) with (Bplus mode_NE (Bmult mode_NE a a) (Bmult mode_NE b b)).
  split; [exact F|]. cbn [pow] in E. rewrite Rmult_1_r in E. set (v := B2R (Bplus mode_NE (Bmult mode_NE a a) (Bmult mode_NE b b))) in *.
  apply Rabs_le_inv in E. split; lra.
Qed.

(** A clear lead is seen. *)
Lemma modulus_within : forall b i (y : cplx B) r, within prec emax b i y r ->
  modulus r - radius prec b i <= modulus (cval y) <= modulus r + radius prec b i.
Proof.
  intros b i y r (_ & E1 & E2). cbv zeta in *.
  assert (D : modulus (cval y - r)%RC <= radius prec b i).
  { unfold radius. cbv zeta. apply modulus_le; cbn [Cplx.re Cplx.im c_sub cval fsub ROps]; (eapply Rle_trans; [eassumption | apply Rle_abs]). }
  pose proof (modulus_diff (cval y) r). pose proof (modulus_diff r (cval y)) as D2. rewrite modulus_sym in D2. lra.
Qed.

Lemma leads_index : forall b (y : list (cplx B)) r i, length y = length r ->
  (forall j, (j < length r)%nat -> within prec emax b j (nth j y (c_default Fl)) (nth j r 0%RC)) -> leads prec emax b r i ->
  max_index Fl y = i /\ max_index ROps r = i.
Proof.
  intros b y r i LY W (I & RI & OI & LD). split.
  - assert (CF : forall z, In z y -> cfinite z).
    { intros z Hz. apply In_nth with (d := c_default Fl) in Hz as (j & J & <-). destruct (W j ltac:(rewrite <- LY; exact J)) as (F & _). exact F. }
    destruct (C56_index_ieee prec emax Hp He L y) as (K & M & _).
    { intros E0. rewrite E0 in LY. cbn [length] in LY. rewrite <- LY in I. inversion I. }
    { intros z Hz. destruct (CF z Hz) as (F1 & F2). split; [destruct (re z); auto; discriminate | destruct (im z); auto; discriminate]. }
    set (k := max_index Fl y) in *. destruct (Nat.eq_dec k i) as [E|N]; [exact E|]. exfalso.
    assert (KR : (k < length r)%nat) by (rewrite <- LY; exact K). assert (IY : (i < length y)%nat) by (rewrite LY; exact I). specialize (LD k KR N).
    destruct (modulus_within b k _ _ (W k KR)) as (_ & A1). destruct (modulus_within b i _ _ (W i I)) as (B0 & B1).
    pose proof (modulus_pos (cval (nth k y (c_default Fl)))) as PK. pose proof (modulus_pos (cval (nth i y (c_default Fl)))) as PI.
    pose proof (hi_mono _ _ (Logic.conj PK A1)) as HK. pose proof (hi_mono _ _ (Logic.conj PI B1)) as HI.
    assert (LI : lo (modulus (nth i r 0%RC) - radius prec b i) <= lo (modulus (cval (nth i y (c_default Fl))))) by (apply lo_mono; lra).
    pose proof (lo_below (modulus (cval (nth i y (c_default Fl))))) as X1. pose proof (hi_above (modulus (cval (nth i y (c_default Fl))))) as X2.
    destruct (norm_sq_close (nth i y (c_default Fl))) as (FI & NI & _); [apply CF, nth_In; exact IY | lra |].
    destruct (norm_sq_close (nth k y (c_default Fl))) as (FK & _ & NK); [apply CF, nth_In; exact K | lra |].
    specialize (M i (nth i y (c_default Fl)) (nth k y (c_default Fl)) (nth_error_nth' y _ IY) (nth_error_nth' y _ K)).
    change (fltb Fl) with (@Bltb prec emax) in M. rewrite Bltb_correct in M by assumption. rewrite Rlt_bool_true in M by lra. discriminate.
  - apply leader; [exact I|]. intros j J N. specialize (LD j J N). pose proof (hi_above (modulus (nth j r 0%RC) + radius prec b j)) as X1.
    pose proof (lo_below (modulus (nth i r 0%RC) - radius prec b i)) as X2. pose proof (modulus_pos (nth j r 0%RC)). 
    assert (0 <= radius prec b j) by apply modulus_pos. assert (0 <= radius prec b i) by apply modulus_pos. nra.
Qed.

Lemma comparison : forall a b : cplx B, cfinite a -> cfinite b -> hi (modulus (cval b)) < omega -> hi (modulus (cval a)) < lo (modulus (cval b)) -> c_lt Fl a b = true.
Proof.
  intros a b FA FB O H. pose proof (lo_below (modulus (cval b))) as X1. pose proof (hi_above (modulus (cval b))) as X2.
  destruct (norm_sq_close a FA ltac:(lra)) as (NA & _ & UA). destruct (norm_sq_close b FB O) as (NB & LB & _).
  unfold c_lt. change (fltb Fl) with (@Bltb prec emax). rewrite Bltb_correct by assumption. apply Rlt_bool_true. lra.
Qed.

(** ** Networks *)
Context (p : Float.prec) (et ee : R) (LIT : literals prec emax Hp He L p).

Lemma class_round : forall n g k x, (Exists (uses_libm prec emax Hp He L) n -> libm_within prec emax L et ee) -> n <> [] -> fit_all Fl n g (Vec k) ->
  Forall (covered prec emax Hp He L) n -> clear_input prec emax Hp He L p et ee n g x ->
  exists y r i, predicts Fl p n x y /\ predicts ROps p (map (exact_layer prec emax Hp He L) n) (ioval x) r /\ (i < k)%nat /\ length y = k /\ length r = k /\
    max_index Fl y = i /\ max_index ROps r = i.
Proof.
  intros n g k x HL NE HF CV (G & FX & HR & CL).
  destruct (network_round prec emax Hp He L p et ee LIT n g (Vec k) x NE HF CV HL G FX HR) as (y & r & E & E' & GY & GR & N).
  destruct y as [y|]; [|contradiction]. destruct r as [r|]; [|contradiction]. cbn [has_geom gsize vals] in *.
  destruct (CL r E') as (i & LD). exists y, r, i. split; [exact E|]. split; [exact E'|].
  assert (W : forall j, (j < length r)%nat -> within prec emax (net_budget prec emax Hp He L p et ee n g (input_budget prec emax x)) j (nth j y (c_default Fl)) (nth j r 0%RC)).
  { intros j J. apply near_within. apply N. rewrite <- GR. exact J. }
  destruct (leads_index _ y r i (eq_trans GY (eq_sym GR)) W LD) as (M1 & M2).
  destruct LD as (I & _). rewrite GR in I. repeat split; auto.
Qed.

Lemma target_class : forall t, clear_target prec emax t -> max_index Fl t = max_index ROps (map cval t).
Proof.
  intros t (F & i & LD). destruct (leads_index (input_budget prec emax (IOScalar t)) t (map cval t) i) as (-> & ->); auto; [now rewrite map_length|].
  intros j J. rewrite map_length in J. rewrite Forall_forall in F.
  rewrite (nth_indep _ 0%RC (cval (c_default Fl))), map_nth by now rewrite map_length.
  split; [apply F, nth_In; exact J|]. cbn [input_budget order mag slack vals]. cbn [pow].
  assert (Z0 : nth j (map (fun _ : cplx B => 0%RC) t) 0%RC = 0%RC) by (clear; revert j; induction t as [|a t IH]; intros [|j]; cbn; auto).
  rewrite Z0. cbn [Cplx.re Cplx.im cval c_default].
  change (fzero ROps) with 0. unfold Rminus. rewrite !Rplus_opp_r, Rabs_R0. split; right; ring.
Qed.

Lemma agreements_le : forall xs ys, (agreements xs ys <= length xs)%nat.
Proof. induction xs as [|x xs IH]; intros [|y ys]; cbn; try lia. specialize (IH ys). destruct (x =? y)%nat; lia. Qed.

Lemma accuracy_round : forall n g k d targs, (Exists (uses_libm prec emax Hp He L) n -> libm_within prec emax L et ee) -> n <> [] -> fit_all Fl n g (Vec k) ->
  Forall (covered prec emax Hp He L) n -> Forall (clear_input prec emax Hp He L p et ee n g) (ds_inputs d) ->
  ds_target d = map (@IOScalar _) targs -> Forall (clear_target prec emax) targs -> length targs = length (ds_inputs d) ->
  exists c, (c <= length targs)%nat /\
    net_max_pred_test Fl p n d = Ret (fdiv Fl (fofnat Fl c) (fofnat Fl (length targs))) /\
    net_max_pred_test ROps p (map (exact_layer prec emax Hp He L) n) (exact_data prec emax d) = Ret (INR c / INR (length targs)).
Proof.
  intros n g k d targs HL NE HF CV HI ET HT LT.
  assert (G : exists ps rs, Forall2 (predicts Fl p n) (ds_inputs d) ps /\ Forall2 (predicts ROps p (map (exact_layer prec emax Hp He L) n)) (map ioval (ds_inputs d)) rs /\
    map (max_index Fl) ps = map (max_index ROps) rs).
  { clear ET LT. induction HI as [|x xs X HI IH]; [exists [], []; repeat split; constructor|]. destruct IH as (ps & rs & A & C & M).
    destruct (class_round n g k x HL NE HF CV X) as (y & r & i & P & P' & _ & _ & _ & M1 & M2).
    exists (y :: ps), (r :: rs). split; [now constructor|]. split; [now constructor|]. cbn [map]. congruence. }
  destruct G as (ps & rs & A & C & M). pose proof (Forall2_len _ _ _ A) as LA. pose proof (Forall2_len _ _ _ C) as LC. rewrite map_length in LC.
  assert (MT : map (max_index Fl) targs = map (max_index ROps) (map (map cval) targs)).
  { rewrite map_map. apply map_ext_in. intros t I. rewrite Forall_forall in HT. now apply target_class, HT. }
  exists (agreements (map (max_index Fl) ps) (map (max_index Fl) targs)). split.
  { eapply Nat.le_trans; [apply agreements_le|]. rewrite map_length. exact (Nat.eq_le_incl _ _ (eq_trans (eq_sym LA) (eq_sym LT))). }
  split; [apply (C56_accuracy Fl p n d ps targs A ET); exact (eq_trans LT LA)|].
  rewrite (C56_accuracy ROps p _ (exact_data prec emax d) rs (map (map cval) targs)).
  - rewrite map_length, MT, M, !LossFacts.fofnat_R. reflexivity.
  - exact C.
  - unfold exact_data. cbn [ds_target]. rewrite ET, !map_map. reflexivity.
  - rewrite map_length. exact (eq_trans LT LC).
Qed.

(** The quotient of two small numbers, rounded once. *)
Lemma quotient : forall c n, (1 <= n)%nat -> (c <= n)%nat -> (Z.of_nat n <= 2 ^ prec)%Z ->
  is_finite (fdiv Fl (fofnat Fl c) (fofnat Fl n)) = true /\
  B2R (fdiv Fl (fofnat Fl c) (fofnat Fl n)) = round radix2 (SpecFloat.fexp prec emax) ZnearestE (INR c / INR n).
Proof.
  intros c n N C H. 
  assert (FN0 : forall k, fofnat Fl k = Bofz prec emax Hp He (Z.of_nat k)) by (intros k; unfold fofnat; cbn [fofN BOps]; now rewrite nat_N_Z). rewrite !FN0.
  destruct (Bofz_exact prec emax Hp He (Z.of_nat c)) as (VC & FC); [lia|]. destruct (Bofz_exact prec emax Hp He (Z.of_nat n)) as (VN & FN); [lia|].
  rewrite !INR_IZR_INZ. rewrite <- VC, <- VN. change (fdiv Fl) with (@Bdiv prec emax Hp He mode_NE).
  assert (N0 : 0 < IZR (Z.of_nat n)) by (apply IZR_lt; lia). assert (CN : IZR (Z.of_nat c) <= IZR (Z.of_nat n)) by (apply IZR_le; lia). assert (C0 : 0 <= IZR (Z.of_nat c)) by (apply IZR_le; lia).
  pose proof (Bdiv_correct prec emax Hp He mode_NE (Bofz prec emax Hp He (Z.of_nat c)) (Bofz prec emax Hp He (Z.of_nat n))) as D.
  rewrite VC, VN in *. specialize (D ltac:(lra)). cbn [round_mode] in D.
  rewrite Rlt_bool_true in D; [destruct D as (D1 & D2 & _); split; [congruence | exact D1]|].
  assert (Q : 0 <= IZR (Z.of_nat c) / IZR (Z.of_nat n) <= 1).
  { split; [apply Rmult_le_pos; [lra | left; now apply Rinv_0_lt_compat]|]. apply Rmult_le_reg_r with (IZR (Z.of_nat n)); [lra|]. field_simplify; lra. }
  assert (R1 : round radix2 (SpecFloat.fexp prec emax) ZnearestE 1 = 1).
  { apply round_generic; [apply valid_rnd_N|]. change 1 with (bpow radix2 0). apply generic_format_bpow. unfold SpecFloat.fexp, SpecFloat.emin, FLT_exp. unfold Prec_gt_0, Prec_lt_emax in *. lia. }
  assert (V := fexp_correct prec emax Hp).
  assert (X : 0 <= round radix2 (SpecFloat.fexp prec emax) ZnearestE (IZR (Z.of_nat c) / IZR (Z.of_nat n)) <= 1).
  { split; [rewrite <- (round_0 radix2 (SpecFloat.fexp prec emax) ZnearestE); apply (round_le radix2 (SpecFloat.fexp prec emax) ZnearestE 0 _); exact (proj1 Q) |
     eapply Rle_trans; [apply (round_le radix2 (SpecFloat.fexp prec emax) ZnearestE _ 1); exact (proj2 Q) | rewrite R1; apply Rle_refl]]. }
  rewrite Rabs_pos_eq by exact (proj1 X). eapply Rle_lt_trans; [exact (proj2 X)|]. change 1 with (bpow radix2 0). apply bpow_lt. unfold Prec_gt_0, Prec_lt_emax in *. lia.
Qed.

Lemma accuracy_exact : forall n g k d targs, (Exists (uses_libm prec emax Hp He L) n -> libm_within prec emax L et ee) -> n <> [] -> fit_all Fl n g (Vec k) ->
  Forall (covered prec emax Hp He L) n -> Forall (clear_input prec emax Hp He L p et ee n g) (ds_inputs d) ->
  ds_target d = map (@IOScalar _) targs -> Forall (clear_target prec emax) targs -> length targs = length (ds_inputs d) -> (1 <= length targs <= Z.to_nat (2 ^ prec))%nat ->
  exists a e, net_max_pred_test Fl p n d = Ret a /\
    net_max_pred_test ROps p (map (exact_layer prec emax Hp He L) n) (exact_data prec emax d) = Ret e /\
    is_finite a = true /\ B2R a = round radix2 (SpecFloat.fexp prec emax) ZnearestE e.
Proof.
  intros n g k d targs HL NE HF CV HI ET HT LT (N1 & N2).
  destruct (accuracy_round n g k d targs HL NE HF CV HI ET HT LT) as (c & C & E1 & E2).
  destruct (quotient c (length targs) N1 C) as (Q1 & Q2). { apply Nat2Z.inj_le in N2. rewrite Z2Nat.id in N2 by (apply Z.pow_nonneg; lia). exact N2. }
  eexists _, _. split; [exact E1|]. split; [exact E2|]. split; [exact Q1 | exact Q2].
Qed.
End Class.
