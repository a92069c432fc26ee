(** * The rounding of a training step: proofs *)
From Coq Require Import ZArith Reals Lra Psatz.
From Flocq Require Import Core BinarySingleNaN.
From Verif Require Import Base BaseFacts Float Matrix Cplx Act Input Loss Dense Conv Layer Dataset Network RFloat BFloat CFacts SpecMatrix MatrixFacts
  SpecLayer SpecConv SpecNet SpecGeom LayerFacts SpecRound SpecBack SpecStill RoundFacts RoundAct RoundNet PropDense PropLoss TrainFacts GradFacts2 TrainLaws PropTrain.
Local Open Scope nat_scope.
Local Notation re := Cplx.re. Local Notation im := Cplx.im.

Section Back.
Context (prec emax : Z) (Hp : Prec_gt_0 prec) (He : Prec_lt_emax prec emax) (L : libm (binary_float prec emax)) (p : Float.prec).
Local Notation B := (binary_float prec emax).
Local Notation Fl := (BOps prec emax Hp He L).
Local Notation z := (c_default Fl).
Local Notation uu := (SpecRound.uu prec).
Local Notation eta := (SpecRound.eta prec emax).
Local Notation omega := (SpecRound.omega emax).
Local Notation close := (RoundFacts.close prec emax).
Local Notation cclose := (RoundFacts.cclose prec emax).
Local Notation fit := (RoundFacts.fit prec emax).
Local Notation t3 := (both (3 * eta)%R).
Local Notation tiny := (SpecBack.tiny prec emax).
Local Notation off_by := (SpecBack.off_by prec emax).
Local Notation room := (SpecBack.room prec emax).

(** The slopes of a rectifier: their sum and difference, halved. *)
Definition slope (b : bool) : F Fl := if b then fzero Fl else fone Fl.
Definition slope_r (b : bool) : R := if b then 0%R else 1%R.
Definition slopes : Prop := (is_finite (fone Fl) = true /\ B2R (fone Fl : B) = 1%R) /\ forall s t,
  let a := fmul Fl (fadd Fl (slope s) (slope t)) (fhalf Fl) in let b := fmul Fl (fsub Fl (slope s) (slope t)) (fhalf Fl) in
  is_finite a = true /\ is_finite b = true /\ B2R (a : B) = ((slope_r s + slope_r t) / 2)%R /\ B2R (b : B) = ((slope_r s - slope_r t) / 2)%R.
Context (HS : slopes).

Lemma close_off : forall k M c y r, cclose k M c y r <-> off_by k M c y r.
Proof.
  intros k M c y r. split.
  - intros ((F1 & A1 & A2 & E1) & (F2 & A3 & A4 & E2)). split; [auto|]. split; [split; assumption|]. split; (eapply Rle_trans; [eassumption|]); right; ring.
  - intros ((A1 & A2 & A3 & A4) & (F1 & F2) & E1 & E2). split; (split; [assumption|]; split; [assumption|]; split; [assumption|]); (eapply Rle_trans; [eassumption|]); right; ring.
Qed.
Lemma exact_off : forall y, cfinite y -> off_by 0 (cabs (cval y)) 0%RC y (cval y).
Proof. intros y F. apply close_off, cclose_exact, F. Qed.

Lemma scale_le : forall a b : R, (0 <= b -> 0 <= a -> a <= 1 -> 0 <= a * b <= b)%R.
Proof. intros a b H1 H2 H3. nra. Qed.
Lemma scale2 : forall a b c : R, (0 <= c -> a + b <= 1 -> a * c + b * c <= c)%R.
Proof. intros a b c H1 H2. nra. Qed.
Lemma slope_sum : forall a b (x : R), (((slope_r a + slope_r b) / 2 + (slope_r a - slope_r b) / 2) * x = if a then 0 else x)%R.
Proof. intros a b x. destruct a, b; cbn [slope_r]; field. Qed.
Lemma slope_diff : forall a b (x : R), (((slope_r a + slope_r b) / 2 - (slope_r a - slope_r b) / 2) * x = if b then 0 else x)%R.
Proof. intros a b x. destruct a, b; cbn [slope_r]; field. Qed.
(** What comes back through the activation. *)
Lemma gate_close : forall f q k M c g r, gated f -> cclose k M c g r -> room (k + 3) M (c + tiny 6)%RC -> exists d dc,
  d_activate Fl p f q = Ret d /\ d_conj_activate Fl p f q = Ret dc /\
  cclose (k + 3) M (c + tiny 6)%RC (c_add Fl (c_mul Fl d g) (c_mul Fl (c_conj Fl dc) (c_conj Fl g))) (gate prec emax Hp He L f q r).
Proof.
  intros f q k M c g r HF FG HR. destruct HS as ((O1 & O2) & HV).
  assert (MAIN : forall d dc : cplx B, cfinite d -> cfinite dc -> im (cval d) = 0%R -> im (cval dc) = 0%R -> (Rabs (re (cval d)) + Rabs (re (cval dc)) <= 1)%R ->
    cclose (k + 3) M (c + tiny 6)%RC (c_add Fl (c_mul Fl d g) (c_mul Fl (c_conj Fl dc) (c_conj Fl g)))
      (mkC ((re (cval d) + re (cval dc)) * re r)%R ((re (cval d) - re (cval dc)) * im r)%R)).
  { intros d dc FD FC I1 I2 LE. pose proof (eta_pos prec emax) as EP. destruct HR as (R1 & R2). cbn [c_add fadd ROps SpecBack.tiny both re im] in R1, R2.
    assert (FC' : cfinite (c_conj Fl dc)) by (destruct FC as (F1 & F2); split; [exact F1 | cbn; rewrite is_finite_Bopp; exact F2]).
    assert (FG' : cclose k M c (c_conj Fl g) (conj r)) by (destruct FG as (F1 & F2); split; [exact F1 | apply close_opp; exact F2]).
    assert (VC : forall w : cplx B, cval (c_conj Fl w) = mkC (re (cval w)) (- im (cval w))%R) by (intros w; unfold cval; cbn; rewrite B2R_Bopp; reflexivity).
    pose proof (Rabs_pos (re (cval d))) as A1. pose proof (Rabs_pos (re (cval dc))) as A2.
    destruct (cclose_nneg prec emax _ _ _ _ _ FG) as ((A3 & A4) & (A5 & A6)). change (0 <= re M)%R in A3. change (0 <= im M)%R in A4. change (0 <= re c)%R in A5. change (0 <= im c)%R in A6.
    assert (X : forall (w x : cplx B) s, cfinite w -> cclose k M c x s -> im (cval w) = 0%R -> (Rabs (re (cval w)) <= 1)%R ->
      cclose (k + 2) (mkC (Rabs (re (cval w)) * re M)%R (Rabs (re (cval w)) * im M)%R) (mkC (Rabs (re (cval w)) * re c + 3 * eta)%R (Rabs (re (cval w)) * im c + 3 * eta)%R) (c_mul Fl w x) (cval w * s)%RC).
    { intros w x s FW FX IW LW.
      assert (AM : amul (cval w) M = mkC (Rabs (re (cval w)) * re M)%R (Rabs (re (cval w)) * im M)%R) by (unfold amul; rewrite IW, Rabs_R0; f_equal; ring).
      assert (AZ : (amul (cval w) c + t3)%RC = mkC (Rabs (re (cval w)) * re c + 3 * eta)%R (Rabs (re (cval w)) * im c + 3 * eta)%R) by (unfold amul; rewrite IW, Rabs_R0; apply c_ext; cbn; ring).
      destruct (cclose_mul prec emax Hp He L k M c w x s FW FX) as (Q & _).
      - rewrite AM, AZ. pose proof (Rabs_pos (re (cval w))) as A7.
        pose proof (scale_le _ _ A3 A7 LW) as S1. pose proof (scale_le _ _ A4 A7 LW) as S2. pose proof (scale_le _ _ A5 A7 LW) as S3. pose proof (scale_le _ _ A6 A7 LW) as S4.
        pose proof (pw1 prec (k + 2)). pose proof (pw_mono prec (k + 2) (k + 3) ltac:(lia)). split; cbn [re im both];
          [eapply Rle_lt_trans; [|exact R1] | eapply Rle_lt_trans; [|exact R2]]; (apply Rmult_le_compat; [lra | lra | assumption | lra]).
      - rewrite AM, AZ in Q. exact Q. }
    pose proof (X d g r FD FG I1 ltac:(lra)) as X1.
    pose proof (X (c_conj Fl dc) (c_conj Fl g) (conj r) FC' FG') as X2. rewrite !VC in X2. cbn [re im] in X2. specialize (X2 ltac:(lra) ltac:(lra)).
    pose proof (cclose_add prec emax Hp He L _ _ _ _ _ _ _ _ _ X1 X2) as Y. replace (S (k + 2)) with (k + 3) in Y by lia.
    pose proof (scale2 _ _ _ A3 LE) as T1. pose proof (scale2 _ _ _ A4 LE) as T2. pose proof (scale2 _ _ _ A5 LE) as T3. pose proof (scale2 _ _ _ A6 LE) as T4.
    eapply cclose_weaken; [|apply le_n | |].
    - replace (mkC _ _ : RC) with (cval d * r + mkC (re (cval dc)) (- im (cval dc))%R * conj r)%RC.
      2: { apply c_ext; cbn in *; rewrite I1, I2; ring. }
      apply Y. pose proof (pw1 prec (k + 3)). split; cbn [c_add re im both fadd ROps]; [eapply Rle_lt_trans; [|exact R1] | eapply Rle_lt_trans; [|exact R2]]; (apply Rmult_le_compat_l; lra).
    - split; cbn [c_add re im fadd ROps]; assumption.
    - split; cbn [c_add re im fadd ROps SpecBack.tiny both]; lra. }
  assert (Z1 : cfinite (mkC (fzero Fl) (fzero Fl) : cplx B)) by (split; reflexivity). assert (Z2 : cval (mkC (fzero Fl) (fzero Fl) : cplx B) = mkC 0%R 0%R) by reflexivity.
  destruct HF as [-> | [-> | ->]]; cbn [d_activate d_conj_activate gate].
  - exists (c_unit Fl), z. split; [reflexivity|]. split; [reflexivity|].
    pose proof (MAIN (c_unit Fl) z) as MM. replace r with (mkC ((re (cval (c_unit Fl : cplx B)) + re (cval (z : cplx B))) * re r)%R ((re (cval (c_unit Fl : cplx B)) - re (cval (z : cplx B))) * im r)%R).
    + apply MM; [split; [exact O1 | reflexivity] | exact Z1 | reflexivity | reflexivity|]. unfold cval. cbn [c_unit c_default re im]. rewrite O2, Rabs_R1. change (B2R (fzero Fl : B)) with 0%R. rewrite Rabs_R0. lra.
    + unfold cval. cbn [c_unit c_default re im]. rewrite O2. change (B2R (fzero Fl : B)) with 0%R. clear. destruct r as [rr ri]. apply c_ext; cbn; ring.
  - exists (d_ritrelu Fl q), (d_conj_ritrelu Fl q). split; [reflexivity|]. split; [reflexivity|].
    destruct (HV (fsignneg Fl (re q)) (fsignneg Fl (im q))) as (V1 & V2 & V3 & V4). set (a := fsignneg Fl (re q)) in *. set (b := fsignneg Fl (im q)) in *.
    pose proof (MAIN (d_ritrelu Fl q) (d_conj_ritrelu Fl q)) as MM.
    assert (E1 : re (cval (d_ritrelu Fl q : cplx B)) = ((slope_r a + slope_r b) / 2)%R) by exact V3. assert (E2 : re (cval (d_conj_ritrelu Fl q : cplx B)) = ((slope_r a - slope_r b) / 2)%R) by exact V4.
    rewrite E1, E2 in MM.
    match goal with |- RoundFacts.cclose _ _ _ _ _ _ ?v => replace v with (mkC (((slope_r a + slope_r b) / 2 + (slope_r a - slope_r b) / 2) * re r)%R (((slope_r a + slope_r b) / 2 - (slope_r a - slope_r b) / 2) * im r)%R : RC) end.
    + apply MM; [split; [exact V1 | reflexivity] | split; [exact V2 | reflexivity] | reflexivity | reflexivity|].
      clearbody a b. clear. unfold slope_r. destruct a, b; unfold Rabs; destruct (Rcase_abs _), (Rcase_abs _); lra.
    + exact (f_equal2 (@mkC (F ROps)) (slope_sum a b (re r)) (slope_diff a b (im r))).
  - exists (d_zrelu Fl q), z. split; [reflexivity|]. split; [reflexivity|]. pose proof (MAIN (d_zrelu Fl q) z) as MM. pose (b := fsignneg Fl (re q) || fsignneg Fl (im q)).
    assert (D : d_zrelu Fl q = if b then mkC (fzero Fl) (fzero Fl) else c_unit Fl) by reflexivity. rewrite D in *. match goal with |- RoundFacts.cclose _ _ _ _ _ _ ?v => change v with (if b then 0%RC else r) end. clearbody b. clear D. destruct b.
    + replace (0%RC) with (mkC ((0 + 0) * re r)%R ((0 - 0) * im r)%R) by (apply c_ext; exact (Rmult_eq_compat_r _ _ _ (Rplus_0_l 0)) || (cbn; ring)). apply MM; auto; try exact Z1. cbn. rewrite Rabs_R0. lra.
    + replace r with (mkC ((re (cval (c_unit Fl : cplx B)) + re (cval (z : cplx B))) * re r)%R ((re (cval (c_unit Fl : cplx B)) - re (cval (z : cplx B))) * im r)%R).
      * apply MM; [split; [exact O1 | reflexivity] | exact Z1 | reflexivity | reflexivity|]. unfold cval. cbn [c_unit c_default re im]. rewrite O2, Rabs_R1. change (B2R (fzero Fl : B)) with 0%R. rewrite Rabs_R0. lra.
      * unfold cval. cbn [c_unit c_default re im]. rewrite O2. change (B2R (fzero Fl : B)) with 0%R. clear. destruct r as [rr ri]. apply c_ext; cbn; ring.
Qed.

Lemma fin_nth : forall (l : list (cplx B)) i, Forall cfinite l -> cfinite (nth i l z).
Proof. intros l i H. destruct (nth_in_or_default i l z) as [I | ->]; [now apply (proj1 (Forall_forall _ _) H) | split; reflexivity]. Qed.

Theorem backward : forall (l : dense Fl) x g k (M c r : nat -> RC), dense_wf Fl l -> gated (d_func l) -> length x = inputs Fl l -> length g = units Fl l ->
  Forall cfinite (body (d_weights l)) -> Forall cfinite x ->
  (forall i, i < units Fl l -> off_by k (M i) (c i) (nth i g z) (r i)) ->
  let n := inputs Fl l in let m := units Fl l in
  let W i j := cval (weight Fl l i j) in let X j := cval (nth j x z) in
  let D i := gate prec emax Hp He L (d_func l) (pre Fl l x i) (r i) in
  (forall i, i < m -> room (k + 3) (M i) (c i + tiny 6)%RC) ->
  (forall i j, i < m -> j < n -> room (k + 5) (amul (X j) (M i)) (amul (X j) (c i + tiny 6)%RC + tiny 3)%RC) ->
  (forall j, j < n -> room (m + k + 5) (csum (fun i => amul (W i j) (M i)) m) (csum (fun i => amul (W i j) (c i + tiny 6)%RC + tiny 3)%RC m)) ->
  exists dw db dx, dense_derivatives Fl p l (IOScalar x) g (map (c_conj Fl) g) = Ret (Ok (dw, db, dx, map (c_conj Fl) dx)) /\
    length dw = m * n /\ length db = m /\ length dx = n /\
    (forall i, i < m -> off_by (k + 3) (M i) (c i + tiny 6)%RC (nth i db z) (D i)) /\
    (forall i j, i < m -> j < n -> off_by (k + 5) (amul (X j) (M i)) (amul (X j) (c i + tiny 6)%RC + tiny 3)%RC (nth (i * n + j) dw z) (X j * D i)%RC) /\
    (forall j, j < n -> off_by (m + k + 5) (csum (fun i => amul (W i j) (M i)) m) (csum (fun i => amul (W i j) (c i + tiny 6)%RC + tiny 3)%RC m)
       (nth j dx z) (csum (fun i => W i j * D i)%RC m)).
Proof.
  intros l x g k M c r WF GT LX LG FW FX FG n m W X D R1 R2 R3.
  assert (DD : forall i, exists ddc : cplx B * cplx B, i < m -> d_activate Fl p (d_func l) (pre Fl l x i) = Ret (fst ddc) /\ d_conj_activate Fl p (d_func l) (pre Fl l x i) = Ret (snd ddc) /\
    cclose (k + 3) (M i) (c i + tiny 6)%RC (c_add Fl (c_mul Fl (fst ddc) (nth i g z)) (c_mul Fl (c_conj Fl (snd ddc)) (c_conj Fl (nth i g z)))) (D i)).
  { intros i. destruct (Nat.lt_ge_cases i m) as [I|I]; [|exists (z, z); lia].
    destruct (gate_close (d_func l) (pre Fl l x i) k (M i) (c i) (nth i g z) (r i) GT (proj2 (close_off _ _ _ _ _) (FG i I)) (R1 i I)) as (d & dc & E1 & E2 & E3). exists (d, dc). intros _. auto. }
  assert (CH : exists dd : nat -> cplx B * cplx B, forall i, i < m -> d_activate Fl p (d_func l) (pre Fl l x i) = Ret (fst (dd i)) /\ d_conj_activate Fl p (d_func l) (pre Fl l x i) = Ret (snd (dd i)) /\
    cclose (k + 3) (M i) (c i + tiny 6)%RC (c_add Fl (c_mul Fl (fst (dd i)) (nth i g z)) (c_mul Fl (c_conj Fl (snd (dd i))) (c_conj Fl (nth i g z)))) (D i)).
  { clear - DD. assert (F : forall b, exists dd : nat -> cplx B * cplx B, forall i, i < b -> i < m -> d_activate Fl p (d_func l) (pre Fl l x i) = Ret (fst (dd i)) /\ d_conj_activate Fl p (d_func l) (pre Fl l x i) = Ret (snd (dd i)) /\
    cclose (k + 3) (M i) (c i + tiny 6)%RC (c_add Fl (c_mul Fl (fst (dd i)) (nth i g z)) (c_mul Fl (c_conj Fl (snd (dd i))) (c_conj Fl (nth i g z)))) (D i)).
    { induction b as [|b (dd & IH)]; [exists (fun _ => (z, z)); lia|]. destruct (DD b) as (e & E). exists (fun i => if Nat.eqb i b then e else dd i). intros i I1 I2.
      destruct (Nat.eqb_spec i b) as [->|N]; [now apply E | apply IH; lia]. }
    destruct (F m) as (dd & H). exists dd. auto. }
  destruct CH as (dd & H). destruct (C41_derivatives Fl p l x g (map (c_conj Fl) g) (fun i => fst (dd i)) (fun i => snd (dd i)) WF LX LG) as (dw & db & dx & E & L1 & L2 & L3 & A1 & A2 & A3).
  { now rewrite map_length. }
  { intros i I. destruct (H i I) as (E1 & E2 & _). auto. }
  cbv zeta in A1, A2, A3. fold n m in A1, A2, A3, L1, L2, L3.
  assert (H3 : forall i, i < m -> cclose (k + 3) (M i) (c i + tiny 6)%RC (nth i db z) (D i)).
  { intros i I. rewrite A1 by exact I. rewrite (nth_indep (map (c_conj Fl) g) z (c_conj Fl z)), map_nth by (exact (eq_ind_r (fun k => i < k) I (eq_trans (map_length _ _) LG))). exact (proj2 (proj2 (H i I))). }
  exists dw, db, dx. split; [exact E|]. do 3 (split; [assumption|]). split; [intros i I; now apply close_off, H3|]. split.
  - intros i j I J. apply close_off. rewrite A2, <- A1 by assumption.
    specialize (R2 i j I J). replace (k + 5) with (k + 3 + 2) in * by lia.
    destruct (cclose_mul prec emax Hp He L (k + 3) (M i) (c i + tiny 6)%RC (nth j x z) (nth i db z) (D i) (fin_nth x j FX) (H3 i I) R2) as (Q & _). exact Q.
  - intros j J. apply close_off. rewrite A3 by assumption.
    rewrite (sum_from_ext _ _ _ (fun i => c_mul Fl (weight Fl l i j) (nth i db z)) m) by (intros i I; now rewrite A1).
    assert (NM : forall i, i < m -> cle 0%RC (M i) /\ cle 0%RC (c i)) by (intros i I; exact (cclose_nneg prec emax _ _ _ _ _ (proj2 (close_off _ _ _ _ _) (FG i I)))).
    replace (m + k + 5) with (k + 5 + m) in * by lia. apply (cclose_sum prec emax Hp He L (k + 5) m); [|apply R3, J]. intros i I. replace (k + 5) with (k + 3 + 2) by lia.
    destruct (cclose_mul_le prec emax Hp He L (k + 3) (k + 5 + m) (M i) (c i + tiny 6)%RC (csum (fun i => amul (W i j) (M i)) m) (csum (fun i => amul (W i j) (c i + tiny 6)%RC + tiny 3)%RC m) (weight Fl l i j) (nth i db z) (D i)) as (Q & _);
      [apply fin_nth, FW | now apply H3 | now apply R3 | lia | | | exact Q].
    + apply (csum_term (fun i => amul (W i j) (M i))); [|exact I]. intros b K. apply amul_nneg, NM, K.
    + apply (csum_term (fun i => amul (W i j) (c i + tiny 6)%RC + tiny 3)%RC); [|exact I]. intros b K. pose proof (eta_pos prec emax). apply cle_plus_nneg; [apply amul_nneg, cle_plus_nneg; [apply NM, K|]|]; apply both_nneg; lra.
Qed.

(** ** The update *)
Lemma close_0 : forall k t, close k 0 0 (B754_zero t : B) 0%R.
Proof. intros k t. pose proof (pw1 prec k). split; [reflexivity|]. cbn [B2R]. rewrite Rabs_R0, Rminus_0_r, Rabs_R0. lra. Qed.
Lemma zero_prod : forall (x : B) t, is_finite x = true -> exists s, Bmult mode_NE x (B754_zero t) = B754_zero s.
Proof. intros [s|s| |s m e E] t H; try discriminate; eexists; reflexivity. Qed.
Lemma prod_close : forall (g s : B) a, is_finite g = true -> is_finite s = true -> ((1 + uu) ^ 2 * (Rabs (B2R s) * Rabs (B2R g) + eta) < omega)%R ->
  close 2 (Rabs (B2R s) * Rabs (B2R g)) eta (Bminus mode_NE (Bmult mode_NE g s) (B754_zero a)) (B2R s * B2R g) /\
  close 2 (Rabs (B2R s) * Rabs (B2R g)) eta (Bplus mode_NE (B754_zero a) (Bmult mode_NE g s)) (B2R s * B2R g).
Proof.
  intros g s a FG FS H. pose proof (eta_pos prec emax) as EP. pose proof (Rabs_pos (B2R s)) as P1. pose proof (Rabs_pos (B2R g)) as P2. pose proof (Rmult_le_pos _ _ P1 P2) as P3.
  assert (M : close 1 (Rabs (B2R s) * Rabs (B2R g)) (Rabs (B2R s) * 0 + eta) (Bmult mode_NE g s) (B2R s * B2R g)).
  { apply Bmult_sym; auto. apply (close_mult prec emax Hp He 0); [exact FS | now apply close_exact|]. eapply Rle_lt_trans; [|exact H]. pose proof (pw1 prec 1). pose proof (pw_mono prec 1 2 ltac:(lia)). apply Rmult_le_compat; lra. }
  assert (R : ((1 + uu) ^ 2 * (Rabs (B2R s) * Rabs (B2R g) + 0 + (Rabs (B2R s) * 0 + eta + 0)) < omega)%R) by (replace (_ + 0 + _)%R with (Rabs (B2R s) * Rabs (B2R g) + eta)%R by ring; exact H).
  assert (R' : ((1 + uu) ^ 2 * (0 + Rabs (B2R s) * Rabs (B2R g) + (0 + (Rabs (B2R s) * 0 + eta))) < omega)%R) by (replace (0 + _ + _)%R with (Rabs (B2R s) * Rabs (B2R g) + eta)%R by ring; exact H).
  pose proof (close_minus prec emax Hp He 1 _ _ _ _ _ _ _ _ M (close_0 1 a) R) as Q1. pose proof (close_plus prec emax Hp He 1 _ _ _ _ _ _ _ _ (close_0 1 a) M R') as Q2.
  rewrite Rminus_0_r in Q1. rewrite !Rplus_0_l in Q2. split; [refine (close_weaken prec emax _ _ _ _ _ _ _ _ Q1 _ _ _) | refine (close_weaken prec emax _ _ _ _ _ _ _ _ Q2 _ _ _)]; first [lia | lra].
Qed.

Lemma step_close : forall (a g s : cplx B) t, cfinite a -> cfinite g -> is_finite (re s) = true -> im s = B754_zero t ->
  room 3 (cabs (cval a) + amul (cval s) (cabs (cval g)))%RC (tiny 1) ->
  cclose 3 (cabs (cval a) + amul (cval s) (cabs (cval g)))%RC (tiny 1) (sub_conj Fl a (c_mul_assign Fl g s)) (cval a - cval s * conj (cval g))%RC.
Proof.
  intros a g s t FA FG FS IS (R1 & R2).
  assert (AM : (cabs (cval a) + amul (cval s) (cabs (cval g)))%RC = mkC (Rabs (B2R (re a)) + Rabs (B2R (re s)) * Rabs (B2R (re g)))%R (Rabs (B2R (im a)) + Rabs (B2R (re s)) * Rabs (B2R (im g)))%R).
  { unfold amul, cabs, cval. rewrite IS. apply c_ext; cbn; rewrite Rabs_R0; ring. }
  rewrite AM in *. cbn [re im both SpecBack.tiny] in R1, R2. rewrite Rmult_1_l in R1, R2.
  pose proof (eta_pos prec emax) as EP. pose proof (Rabs_pos (B2R (re s))) as P1. pose proof (Rabs_pos (B2R (re g))) as P2. pose proof (Rabs_pos (B2R (im g))) as P3. pose proof (Rabs_pos (B2R (re a))) as P4. pose proof (Rabs_pos (B2R (im a))) as P5.
  pose proof (Rmult_le_pos _ _ P1 P2) as P6. pose proof (Rmult_le_pos _ _ P1 P3) as P7.
  destruct FA as (FA1 & FA2), FG as (FG1 & FG2).
  assert (LOW : forall m e : R, (0 <= m -> 0 <= e -> (1 + uu) ^ 3 * (e + m + eta) < omega -> (1 + uu) ^ 2 * (m + eta) < omega)%R).
  { intros m e M E H. eapply Rle_lt_trans; [|exact H]. pose proof (pw1 prec 2). pose proof (pw_mono prec 2 3 ltac:(lia)). apply Rmult_le_compat; lra. }
  destruct (zero_prod (im g) t FG2) as (u & U). destruct (prod_close (re g) (re s) u FG1 FS (LOW _ _ P6 P4 R1)) as (X & _).
  assert (FX : is_finite (Bminus mode_NE (Bmult mode_NE (re g) (re s)) (B754_zero u)) = true) by apply X.
  destruct (zero_prod _ t FX) as (v & V). destruct (prod_close (im g) (re s) v FG2 FS (LOW _ _ P7 P5 R2)) as (_ & Y).
  assert (E : sub_conj Fl a (c_mul_assign Fl g s) = mkC (Bminus mode_NE (re a) (Bminus mode_NE (Bmult mode_NE (re g) (re s)) (B754_zero u)))
     (Bminus mode_NE (im a) (Bopp (Bplus mode_NE (B754_zero v) (Bmult mode_NE (im g) (re s)))))).
  { transitivity (mkC (Bminus mode_NE (re a) (Bminus mode_NE (Bmult mode_NE (re g) (re s)) (Bmult mode_NE (im g) (im s))))
      (Bminus mode_NE (im a) (Bopp (Bplus mode_NE (Bmult mode_NE (Bminus mode_NE (Bmult mode_NE (re g) (re s)) (Bmult mode_NE (im g) (im s))) (im s)) (Bmult mode_NE (im g) (re s)))))); [reflexivity|].
    rewrite IS, U, V. reflexivity. }
  rewrite E. assert (Q : (cval a - cval s * conj (cval g))%RC = mkC (B2R (re a) - B2R (re s) * B2R (re g))%R (B2R (im a) - - (B2R (re s) * B2R (im g)))%R).
  { unfold cval. rewrite IS. apply c_ext; cbn; ring. }
  rewrite Q. split; cbn [re im].
  - eapply close_weaken; [apply (close_minus prec emax Hp He 2 (Rabs (B2R (re a))) 0 _ _ _ _ _ _ (close_weaken prec emax 0 2 _ _ _ _ _ _ (close_exact prec emax _ FA1) ltac:(lia) (Rle_refl _) (Rle_refl _)) X) | lia | apply Rle_refl | cbn; lra].
    rewrite Rplus_0_l. exact R1.
  - eapply close_weaken; [apply (close_minus prec emax Hp He 2 (Rabs (B2R (im a))) 0 _ _ _ _ _ _ (close_weaken prec emax 0 2 _ _ _ _ _ _ (close_exact prec emax _ FA2) ltac:(lia) (Rle_refl _) (Rle_refl _)) (close_opp prec emax _ _ _ _ _ Y)) | lia | apply Rle_refl | cbn; lra].
    rewrite Rplus_0_l. exact R2.
Qed.

Theorem update : forall n data f lr W G s t, Forall (layer_full Fl) n -> 2 <= length n -> net_gradient Fl p n data f = Ret (W, G) ->
  c_div Fl lr (c_of_nat Fl (length (ds_inputs data))) = Ret s -> is_finite (re s) = true -> im s = B754_zero t ->
  Forall cfinite (net_values Fl n) -> Forall cfinite (grad_values W G) ->
  let v i := cval (nth i (net_values Fl n) z) in let g i := cval (nth i (grad_values W G) z) in
  let size i := (cabs (v i) + amul (cval s) (cabs (g i)))%RC in
  (forall i, i < length (net_values Fl n) -> room 3 (size i) (tiny 1)) ->
  exists n', net_gradient_opt Fl p n data f lr = Ret (n', Ok tt) /\ map (arch_of Fl) n' = map (arch_of Fl) n /\
    forall i, i < length (net_values Fl n) -> off_by 3 (size i) (tiny 1) (nth i (net_values Fl n') z) (v i - cval s * conj (g i))%RC.
Proof.
  intros n data f lr W G s t FU LN EG ES FS IS FV FG v g size HR. unfold net_gradient_opt. rewrite (proj2 (Nat.leb_gt (length n) 1)) by lia. rewrite EG. cbn [obind]. rewrite ES. cbn [obind fst snd].
  destruct (gradient_lengths Fl p n data f W G EG) as (L1 & L2). destruct (GradFacts2.grad_zero_sizes Fl n FU) as (Z1 & Z2). rewrite Z1 in L1. rewrite Z2 in L2.
  destruct (update_all Fl s n W G FU L1 L2) as (n1 & U1 & U2 & U3 & U4). rewrite U1. cbn [obind]. exists n1. split; [reflexivity|]. split; [exact U2|].
  intros i I. apply close_off. rewrite U3. rewrite (zip_nth _ _ _ i _ (c_mul_assign Fl z s)) by (rewrite ?map_length; lia). rewrite (map_nth (fun e => c_mul_assign Fl e s)).
  apply (step_close _ _ s t); [apply fin_nth, FV | apply fin_nth, FG | exact FS | exact IS | exact (HR i I)].
Qed.
End Back.

(** ** The gradient of a batch *)
Section Batch.
Context (Fl : FloatOps) (p : Float.prec) (n : network Fl) (f : ComplexLossFunc).
Local Notation C := (cplx (F Fl)).
Local Notation z := (c_default Fl).
Local Notation gz := (grad_zero Fl n).

Lemma pg_length : forall it ws bs, pgrad Fl p n f it = Ret (ws, bs) -> length ws = length n /\ length bs = length n.
Proof.
  intros it ws bs E. unfold pgrad in E. apply obind_inv in E as (r & E1 & E). destruct r as [acts|]; cbn [unwrap obind] in E; [|discriminate].
  apply obind_inv in E as (g & E2 & E). apply obind_inv in E as ((((ws' & bs') & h) & hc) & E3 & E).
  assert (ws' = ws) by congruence. assert (bs' = bs) by congruence. subst. apply bp_length in E3 as (L1 & L2).
  apply collect_length in E1. rewrite combine_length in L1, L2. lia.
Qed.

Lemma flat_len : forall (W B ws bs : list (list C)), map (@length C) ws = map (@length C) W -> map (@length C) bs = map (@length C) B -> length W = length B ->
  length (gflat Fl ws bs) = length (gflat Fl W B).
Proof.
  unfold gflat. induction W as [|w W IH]; intros [|b B] [|d ws] [|e bs] E1 E2 L; try discriminate; [reflexivity|].
  cbn [map] in E1, E2. injection E1 as e1 E1. injection E2 as e2 E2. cbn [combine map concat fst snd]. rewrite !app_length, (IH B ws bs); auto; lia.
Qed.

(** Any accumulator of the right sizes takes a point that fits. *)
Lemma point_fits : forall it ws bs W B, pgrad Fl p n f it = Ret (ws, bs) ->
  map (@length C) ws = map (@length C) (fst gz) -> map (@length C) bs = map (@length C) (snd gz) ->
  map (@length C) W = map (@length C) (fst gz) -> map (@length C) B = map (@length C) (snd gz) ->
  exists W' B', point_step Fl p n f (W, B) it = Ret (W', B') /\ map (@length C) W' = map (@length C) (fst gz) /\ map (@length C) B' = map (@length C) (snd gz) /\
    gflat Fl W' B' = zip_assign (c_add_assign Fl) (gflat Fl W B) (gflat Fl ws bs) /\ length (gflat Fl ws bs) = length (gflat Fl W B).
Proof.
  intros it ws bs W B E M1 M2 L1 L2. destruct (grad_zero_slots Fl n) as (S1 & S2). destruct (grad_zero_length Fl n) as (G1 & G2).
  rewrite point_step_eq by (eapply slots_lengths; eauto). rewrite E. cbn [obind].
  assert (LW : length W = length n) by (rewrite <- (map_length (@length C)), L1, map_length; exact G1).
  assert (LB : length B = length n) by (rewrite <- (map_length (@length C)), L2, map_length; exact G2).
  destruct (addv_ok Fl W ws ltac:(congruence)) as (W' & A1 & A2 & _). destruct (addv_ok Fl B bs ltac:(congruence)) as (B' & A3 & A4 & _).
  exists W', B'. rewrite A1. cbn [obind]. rewrite A3. cbn [obind]. split; [reflexivity|]. split; [congruence|]. split; [congruence|].
  split; [apply gflat_add; try congruence | apply flat_len; congruence].
Qed.

(** A point whose own gradient exists fits. *)
Lemma point_alone : forall it W1 G1, net_gradient Fl p n (batch [it]) f = Ret (W1, G1) -> exists ws bs, pgrad Fl p n f it = Ret (ws, bs) /\
  map (@length C) ws = map (@length C) (fst gz) /\ map (@length C) bs = map (@length C) (snd gz) /\
  gflat Fl W1 G1 = zip_assign (c_add_assign Fl) (gflat Fl (fst gz) (snd gz)) (gflat Fl ws bs) /\ length (gflat Fl ws bs) = length (gflat Fl (fst gz) (snd gz)).
Proof.
  intros it W1 G1 E. unfold net_gradient, ds_points_iter in E. rewrite batch_points in E. cbn [foldM] in E. apply obind_inv in E as (r & E & K). assert (r = (W1, G1)) as -> by congruence. clear K.
  destruct (grad_zero_slots Fl n) as (S1 & S2). destruct (grad_zero_length Fl n) as (G2 & G3).
  pose proof E as E0. rewrite (surjective_pairing gz) in E. rewrite point_step_eq in E by assumption.
  apply obind_inv in E as ((ws & bs) & E & E'). apply obind_inv in E' as (W' & A1 & E'). apply obind_inv in E' as (B' & A2 & E').
  destruct (pg_length _ _ _ E) as (P1 & P2).
  assert (M1 : map (@length C) ws = map (@length C) (fst gz)).
  { destruct (list_eq_dec Nat.eq_dec (map (@length C) ws) (map (@length C) (fst gz))) as [K|K]; [exact K|]. rewrite addv_bad in A1; [discriminate | lia | exact K]. }
  assert (M2 : map (@length C) bs = map (@length C) (snd gz)).
  { destruct (list_eq_dec Nat.eq_dec (map (@length C) bs) (map (@length C) (snd gz))) as [K|K]; [exact K|]. rewrite addv_bad in A2; [discriminate | lia | exact K]. }
  exists ws, bs. split; [exact E|]. split; [exact M1|]. split; [exact M2|].
  destruct (point_fits it ws bs (fst gz) (snd gz) E M1 M2 eq_refl eq_refl) as (W2 & B2 & Q1 & _ & _ & Q2 & Q3).
  rewrite <- surjective_pairing in Q1. assert (W2 = W1) as -> by congruence. assert (B2 = G1) as -> by congruence. auto.
Qed.

Lemma gz_entry : forall i, nth i (gflat Fl (fst gz) (snd gz)) z = z.
Proof.
  intros i. assert (Z : Forall (eq z) (gflat Fl (fst gz) (snd gz))).
  { unfold grad_zero, gflat. cbn [fst snd]. induction n as [|l m IH]; [constructor|]. cbn [map combine concat fst snd].
    apply Forall_app. split; [|exact IH]. apply Forall_app.
    split; (destruct (layer_propagates Fl l); [apply Forall_forall; intros x Hx; symmetry; eapply repeat_spec; exact Hx | constructor]). }
  destruct (nth_in_or_default i (gflat Fl (fst gz) (snd gz)) z) as [I|I]; [|exact I]. symmetry. exact (proj1 (Forall_forall _ _) Z _ I).
Qed.

Definition fits (it : IOType C * IOType C) (g : list C) : Prop := exists ws bs, pgrad Fl p n f it = Ret (ws, bs) /\
  map (@length C) ws = map (@length C) (fst gz) /\ map (@length C) bs = map (@length C) (snd gz) /\ g = gflat Fl ws bs.

Lemma batch_entries : forall pts gs W B, Forall2 fits pts gs -> map (@length C) W = map (@length C) (fst gz) -> map (@length C) B = map (@length C) (snd gz) ->
  exists W' B', foldM (point_step Fl p n f) pts (W, B) = Ret (W', B') /\ length (gflat Fl W' B') = length (gflat Fl W B) /\
    forall i, i < length (gflat Fl W B) -> nth i (gflat Fl W' B') z = fold_left (c_add Fl) (map (fun g => nth i g z) gs) (nth i (gflat Fl W B) z).
Proof.
  intros pts gs W B H. revert W B. induction H as [|it g pts gs (ws & bs & E & M1 & M2 & ->) H IH]; intros W B L1 L2; cbn [foldM].
  - exists W, B. auto.
  - destruct (point_fits it ws bs W B E M1 M2 L1 L2) as (W1 & B1 & Q1 & Q2 & Q3 & Q4 & Q5). rewrite Q1. cbn [obind].
    destruct (IH W1 B1 Q2 Q3) as (W' & B' & R1 & R2 & R3). exists W', B'. split; [exact R1|]. split; [rewrite R2, Q4; apply zip_assign_length|].
    intros i I. rewrite R3 by (rewrite Q4, zip_assign_length; exact I). cbn [map fold_left]. f_equal. rewrite Q4. rewrite (zip_nth _ _ _ i _ z) by lia. reflexivity.
Qed.
Lemma addv_nth : forall (W ws W' : list (list C)), map (@length C) ws = map (@length C) W -> addv Fl W ws = Ret W' ->
  length W' = length W /\ forall k, nth k W' [] = zip_assign (c_add_assign Fl) (nth k W []) (nth k ws []).
Proof.
  induction W as [|w W IH]; intros [|d ws] W' M E; try discriminate; cbn [addv] in E.
  - assert (W' = []) as -> by congruence. split; [reflexivity|]. intros [|k]; reflexivity.
  - cbn [map] in M. injection M as m0 M. unfold add_slice_mut in E. rewrite m0, Nat.eqb_refl in E. cbn [negb unwrap obind] in E. apply obind_inv in E as (W1 & E & K).
    destruct (IH ws W1 M E) as (L1 & N1). assert (W' = zip_assign (c_add_assign Fl) w d :: W1) as -> by (change (add_assign (cops Fl)) with (c_add_assign Fl) in K; congruence).
    split; [cbn; congruence|]. intros [|k]; cbn [nth]; [reflexivity | apply N1].
Qed.

End Batch.

Section BatchRound.
Context (prec emax : Z) (Hp : Prec_gt_0 prec) (He : Prec_lt_emax prec emax) (L : libm (binary_float prec emax)) (p : Float.prec).
Local Notation B := (binary_float prec emax).
Local Notation Fl := (BOps prec emax Hp He L).
Local Notation z := (c_default Fl).

Lemma zero_plus : forall x : B, is_finite (Bplus mode_NE (fzero Fl) x) = true -> is_finite x = true /\ B2R (Bplus mode_NE (fzero Fl) x) = B2R x.
Proof. intros [[]|[]| |s m e E] H; try discriminate; split; reflexivity. Qed.

Lemma fold_seq : forall (gs : list (cplx B)) a, fold_left (c_add Fl) gs a = sum_from (c_add Fl) a (fun k => nth k gs z) (length gs).
Proof.
  intros gs. unfold sum_from. induction gs as [|g gs IH] using rev_ind; intros a; [reflexivity|].
  rewrite fold_left_app, app_length, Nat.add_1_r, seq_S, fold_left_app, IH. cbn [fold_left Nat.add]. rewrite app_nth2, Nat.sub_diag by lia. cbn [nth]. f_equal.
  assert (X : forall l b, (forall k, In k l -> k < length gs) -> fold_left (fun s i => c_add Fl s (nth i gs z)) l b = fold_left (fun s i => c_add Fl s (nth i (gs ++ [g]) z)) l b).
  { induction l as [|k l IHl]; intros b H; [reflexivity|]. cbn [fold_left]. rewrite app_nth1 by (apply H; now left). apply IHl. intros j J. apply H. now right. }
  apply X. intros k K. apply in_seq in K. lia.
Qed.

Theorem batch_round : forall n f (pts : list (IOType (cplx B) * IOType (cplx B))) (W G : nat -> list (list (cplx B))),
  (forall k it, nth_error pts k = Some it -> net_gradient Fl p n (batch [it]) f = Ret (W k, G k) /\ Forall cfinite (grad_values (Fl := Fl) (W k) (G k))) ->
  let m := length pts in let g k i := cval (nth i (grad_values (Fl := Fl) (W k) (G k)) z) in
  (forall i, room prec emax m (csum (fun k => cabs (g k i)) m) 0%RC) ->
  exists W' G', net_gradient Fl p n (batch pts) f = Ret (W', G') /\
    (forall k, k < m -> length (grad_values (Fl := Fl) W' G') = length (grad_values (Fl := Fl) (W k) (G k))) /\
    forall i, i < length (grad_values (Fl := Fl) W' G') ->
      off_by prec emax m (csum (fun k => cabs (g k i)) m) 0%RC (nth i (grad_values (Fl := Fl) W' G') z) (csum (fun k => g k i) m).
Proof.
  intros n f pts W G H m g HR.
  pose (gz := grad_zero Fl n).
  assert (X : exists gs : list (list (cplx B)), Forall2 (fits Fl p n f) pts gs /\
    forall k, k < m -> gflat Fl (W k) (G k) = zip_assign (c_add_assign Fl) (gflat Fl (fst gz) (snd gz)) (nth k gs []) /\ length (nth k gs []) = length (gflat Fl (fst gz) (snd gz))).
  { clear HR g. subst m. revert W G H. induction pts as [|it pts IH]; intros W G H; [exists []; split; [constructor | cbn; lia]|].
    destruct (H 0 it eq_refl) as (E & _). destruct (point_alone Fl p n f it _ _ E) as (ws & bs & P1 & P2 & P3 & P4 & P5).
    destruct (IH (fun k => W (S k)) (fun k => G (S k)) (fun k j J => H (S k) j J)) as (gs & F & Q). exists (gflat Fl ws bs :: gs). split; [constructor; [exists ws, bs; auto | exact F]|].
    intros [|k] K; [split; assumption | apply Q; cbn in K; lia]. }
  destruct X as (gs & F & Q). destruct (batch_entries Fl p n f pts gs (fst gz) (snd gz) F eq_refl eq_refl) as (W' & G' & R1 & R2 & R3).
  assert (LG : length gs = m) by (unfold m; clear - F; induction F; cbn; congruence).
  exists W', G'. split; [unfold net_gradient, ds_points_iter; rewrite batch_points; etransitivity; [|exact R1]; f_equal; apply surjective_pairing|]. split.
  - intros k K. destruct (Q k K) as (Q1 & _). change (length (gflat Fl W' G') = length (gflat Fl (W k) (G k))). rewrite R2, Q1. symmetry. apply zip_assign_length.
  - intros i I. change (length (grad_values (Fl := Fl) W' G')) with (length (gflat Fl W' G')) in I. rewrite R2 in I. apply (close_off prec emax).
    change (nth i (grad_values (Fl := Fl) W' G') z) with (nth i (gflat Fl W' G') z). rewrite R3 by exact I. unfold gz. rewrite (gz_entry Fl n i).
    rewrite (fold_seq (map (fun g => nth i g z) gs) z). match goal with |- context [sum_from _ _ _ ?v] => replace v with m by (symmetry; exact (eq_trans (map_length _ _) LG)) end.
    assert (V : forall k, k < m -> RoundFacts.cclose prec emax 0 (cabs (g k i)) 0%RC (nth k (map (fun g => nth i g z) gs) z) (g k i)).
    { intros k K. destruct (Q k K) as (Q1 & Q2). replace (nth k (map (fun g => nth i g z) gs) z) with (nth i (nth k gs []) z : cplx B).
      2: { rewrite <- (map_nth (fun g : list (cplx B) => nth i g z) gs [] k). destruct i; reflexivity. }
      destruct (nth_error pts k) as [it|] eqn:NE; [|apply nth_error_None in NE; unfold m in K; lia].
      destruct (H k it NE) as (_ & FIN). assert (FV : cfinite (nth i (gflat Fl (W k) (G k)) z)) by (apply (fin_nth prec emax Hp He L), FIN).
      assert (EV : nth i (gflat Fl (W k) (G k)) z = c_add Fl z (nth i (nth k gs []) z)).
      { rewrite Q1. rewrite (zip_nth _ _ _ i _ z) by first [exact I | exact (eq_ind_r (fun v => i < v) I Q2) | exact (eq_sym Q2)]. unfold gz. rewrite (gz_entry Fl n i). reflexivity. }
      rewrite EV in FV. destruct FV as (F1 & F2). destruct (zero_plus _ F1) as (Z1 & Z2). destruct (zero_plus _ F2) as (Z3 & Z4).
      assert (GV : g k i = cval (nth i (nth k gs []) z : cplx B)).
      { unfold g. change (nth i (grad_values (Fl := Fl) (W k) (G k)) z) with (nth i (gflat Fl (W k) (G k)) z). rewrite EV. exact (f_equal2 (@mkC R) Z2 Z4). }
      rewrite GV. apply cclose_exact. split; assumption. }
    assert (C0 : csum (fun _ => 0%RC) m = 0%RC) by (apply csum_zero; intros; reflexivity).
    pose proof (cclose_sum prec emax Hp He L 0 m _ _ _ (fun _ => 0%RC) V) as CS. rewrite C0 in CS. apply CS. exact (HR i).
Qed.

(** ** The derivative of the loss *)
Lemma minus_round : forall x y : B, is_finite x = true -> is_finite y = true -> ((1 + uu prec) * Rabs (B2R x - B2R y) < omega emax)%R ->
  is_finite (Bminus mode_NE x y) = true /\ (Rabs (B2R (Bminus mode_NE x y) - (B2R x - B2R y)) <= uu prec * Rabs (B2R x - B2R y))%R.
Proof.
  intros x y FX FY O. pose proof (Bminus_correct prec emax Hp He mode_NE x y FX FY) as P. cbn [round_mode] in P.
  destruct (round_sum prec emax Hp x (Bopp y)) as (e & E & RS). rewrite B2R_Bopp in RS. change (B2R x + - B2R y)%R with (B2R x - B2R y)%R in RS.
  assert (G : (Rabs (round radix2 (SpecFloat.fexp prec emax) ZnearestE (B2R x - B2R y)) < bpow radix2 emax)%R).
  { rewrite RS, Rabs_mult. eapply Rle_lt_trans; [|exact O]. rewrite Rmult_comm. apply Rmult_le_compat_r; [apply Rabs_pos|].
    eapply Rle_trans; [apply Rabs_triang|]. rewrite Rabs_R1. lra. }
  rewrite (Rlt_bool_true _ _ G) in P. destruct P as (PR & PF & _). split; [exact PF|]. rewrite PR, RS.
  replace ((B2R x - B2R y) * (1 + e) - (B2R x - B2R y))%R with (e * (B2R x - B2R y))%R by ring. rewrite Rabs_mult. apply Rmult_le_compat_r; [apply Rabs_pos | exact E].
Qed.

Theorem loss_round : forall (t q : list (cplx B)) f, Forall cfinite t -> Forall cfinite q ->
  let T k := cval (nth k t z) in let P k := cval (nth k q z) in
  (forall k, k < Nat.min (length t) (length q) -> room prec emax 1 (cabs (P k - T k)%RC) 0%RC) ->
  exists g, d_loss Fl (IOScalar t) (IOScalar q) f = Ok g /\ length g = Nat.min (length t) (length q) /\
    forall k, k < length g -> off_by prec emax 1 (cabs (P k - T k)%RC) 0%RC (nth k g z) (conj (P k - T k))%RC.
Proof.
  intros t q f FT FQ T P HR. destruct (C34_entries Fl t q) as (g & E & LG & EG).
  exists g. split; [destruct f; exact E|]. split; [exact LG|]. intros k K. rewrite (EG k z K).
  destruct (fin_nth prec emax Hp He L t k FT) as (A1 & A2). destruct (fin_nth prec emax Hp He L q k FQ) as (A3 & A4).
  destruct (HR k (eq_ind _ (fun v => k < v) K _ LG)) as (R1 & R2). cbn in R1, R2. rewrite Rmult_1_r, Rplus_0_r in R1, R2.
  destruct (minus_round _ _ A3 A1 R1) as (F1 & V1). destruct (minus_round _ _ A4 A2 R2) as (F2 & V2).
  split; [cbn; rewrite ?Rabs_Ropp; repeat split; apply Rle_refl|]. split; [split; cbn; [exact F1 | rewrite is_finite_Bopp; exact F2]|]. cbn. rewrite Rmult_1_r, !Rmult_0_r, !Rplus_0_r. split.
  - eapply Rle_trans; [exact V1|]. right. unfold P, T. cbn. ring.
  - rewrite B2R_Bopp. match goal with |- (Rabs (- ?a - - ?b) <= _)%R => replace (- a - - b)%R with (- (a - b))%R by ring end. rewrite Rabs_Ropp. eapply Rle_trans; [exact V2|]. right. unfold P, T. cbn. ring.
Qed.
End BatchRound.

(** ** A stack of dense layers *)
Section Deep.
Context (prec emax : Z) (Hp : Prec_gt_0 prec) (He : Prec_lt_emax prec emax) (L : libm (binary_float prec emax)) (p : Float.prec).
Context (HS : slopes prec emax Hp He L).
Local Notation B := (binary_float prec emax).
Local Notation Fl := (BOps prec emax Hp He L).
Local Notation z := (c_default Fl).
Local Notation off_by := (SpecBack.off_by prec emax).
Local Notation flow_at := (SpecBack.flow_at prec emax Hp He L).
Local Notation pair := (list (cplx B) * dense Fl)%type.

Definition at_budget (d : flow) (g : list (cplx B)) : Prop :=
  forall i, i < length g -> off_by (order (snd d)) (nth i (mag (snd d)) 0%RC) (nth i (slack (snd d)) 0%RC) (nth i g z) (nth i (fst d) 0%RC).
Fixpoint chain (ps : list pair) (w v : nat) : Prop :=
  match ps with
  | [] => w = v
  | (x, l) :: rest => dense_wf Fl l /\ gated (d_func l) /\ Forall cfinite (body (d_weights l)) /\ Forall cfinite x /\ length x = inputs Fl l /\ inputs Fl l = w /\ chain rest (units Fl l) v
  end.

Lemma nth_tab : forall {A} (f : nat -> A) n j d, j < n -> nth j (map f (seq 0 n)) d = f j.
Proof. intros A f n j d H. rewrite (nth_indep _ d (f 0)) by (rewrite map_length, seq_length; exact H). rewrite map_nth, seq_nth by exact H. reflexivity. Qed.

Lemma bp_deep : forall (ps : list pair) w g top, chain ps w (length g) -> at_budget top g ->
  (forall k x l, nth_error ps k = Some (x, l) -> layer_room prec emax Hp He L l x (snd (flow_at (skipn (S k) ps) top))) ->
  exists ws bs h, bp Fl p (map (fun xl => (IOScalar (fst xl), LDense (snd xl))) ps) g (map (c_conj Fl) g) = Ret (ws, bs, h, map (c_conj Fl) h) /\
    length h = w /\ at_budget (flow_at ps top) h /\ length ws = length ps /\ length bs = length ps /\
    forall k x l, nth_error ps k = Some (x, l) -> layer_gradient prec emax Hp He L l x (flow_at (skipn (S k) ps) top) (nth k ws []) (nth k bs []).
Proof.
  induction ps as [|(x, l) ps IH]; intros w g top CH AB HR.
  - exists [], [], g. split; [reflexivity|]. split; [symmetry; exact CH|]. split; [exact AB|]. split; [reflexivity|]. split; [reflexivity|]. intros [|k] ? ? E; discriminate.
  - destruct CH as (WF & GT & FW & FX & LX & EW & CH). destruct (IH (units Fl l) g top CH AB) as (ws & bs & h & E & LH & AH & LW & LB & EN).
    { intros k y m K. exact (HR (S k) y m K). }
    destruct (HR 0 x l eq_refl) as (R1 & R2 & R3). change (skipn 1 ((x, l) :: ps)) with ps in R1, R2, R3. set (d := flow_at ps top) in *.
    destruct (backward prec emax Hp He L p HS l x h (order (snd d)) (fun i => nth i (mag (snd d)) 0%RC) (fun i => nth i (slack (snd d)) 0%RC) (fun i => nth i (fst d) 0%RC) WF GT LX LH FW FX)
      as (dw & db & dx & E1 & L1 & L2 & L3 & A1 & A2 & A3); [|exact R1 | exact R2 | exact R3|].
    { intros i I. apply AH. exact (eq_ind_r (fun v => i < v) I LH). }
    exists (dw :: ws), (db :: bs), dx. split.
    { cbn [map bp fst snd]. rewrite E. cbn [obind layer_propagates layer_derivatives dense_propagates]. rewrite E1. reflexivity. }
    split; [congruence|]. split.
    { intros j J. assert (J' : j < inputs Fl l) by exact (eq_ind _ (fun v => j < v) J _ L3). clear J. rename J' into J. unfold SpecBack.flow_at. cbn [fold_right]. fold (flow_at ps top). fold d. unfold flow_back. cbn [fst snd order mag slack].
      rewrite !nth_tab by exact J. exact (A3 j J). }
    split; [exact (f_equal S LW)|]. split; [exact (f_equal S LB)|].
    intros [|k] y m K; cbn [nth nth_error] in *; [|exact (EN k y m K)].
    injection K as <- <-. change (skipn 1 ((x, l) :: ps)) with ps. fold d. split; [exact L1|]. split; [exact L2|]. split; [exact A1 | exact A2].
Qed.

Lemma zero_plus' : forall x : B, is_finite x = true -> is_finite (Bplus mode_NE (fzero Fl) x) = true /\ B2R (Bplus mode_NE (fzero Fl) x) = B2R x.
Proof. intros [[]|[]| |s m e E] H; try discriminate; split; reflexivity. Qed.
Lemma off_zero : forall k M c y r, off_by k M c y r -> off_by k M c (c_add_assign Fl z y) r.
Proof.
  intros k M c y r (H1 & (F1 & F2) & H2 & H3). destruct (zero_plus' _ F1) as (G1 & V1). destruct (zero_plus' _ F2) as (G2 & V2).
  split; [exact H1|]. split; [split; [exact G1 | exact G2]|]. split.
  - change (re (c_add_assign Fl z y)) with (Bplus mode_NE (fzero Fl) (re y)). rewrite V1. exact H2.
  - change (im (c_add_assign Fl z y)) with (Bplus mode_NE (fzero Fl) (im y)). rewrite V2. exact H3.
Qed.

Lemma gradient_zero : forall l x d dw db, layer_gradient prec emax Hp He L l x d dw db ->
  layer_gradient prec emax Hp He L l x d (zip_assign (c_add_assign Fl) (repeat z (units Fl l * inputs Fl l)) dw) (zip_assign (c_add_assign Fl) (repeat z (units Fl l)) db).
Proof.
  intros l x d dw db (L1 & L2 & A1 & A2). split; [rewrite zip_assign_length; apply repeat_length|]. split; [rewrite zip_assign_length; apply repeat_length|]. split.
  - intros i I. rewrite (zip_nth _ _ _ i _ z) by first [exact (eq_ind_r (fun v => i < v) I (repeat_length _ _)) | exact (eq_ind_r (fun v => i < v) I L2)]. rewrite nth_repeat. apply off_zero, A1, I.
  - intros i j I J. assert (K : i * inputs Fl l + j < units Fl l * inputs Fl l) by nia. rewrite (zip_nth _ _ _ _ _ z) by first [exact (eq_ind_r (fun v => i * inputs Fl l + j < v) K (repeat_length _ _)) | exact (eq_ind_r (fun v => i * inputs Fl l + j < v) K L1)]. rewrite nth_repeat. apply off_zero, A2; assumption.
Qed.

Lemma trace_inv : forall (l : clayer Fl) ls x vs, trace Fl p (l :: ls) x vs -> exists y us, vs = x :: y :: us /\ layer_forward Fl p l x = Ret (Ok y) /\ trace Fl p ls y (y :: us).
Proof. intros l ls x vs T. inversion T as [|l0 ls0 x0 y us E T' E1]; subst. destruct (GeomFacts.trace_head Fl p _ _ _ T') as (ws & ->). eauto. Qed.
Lemma chain_of : forall (ls : list (dense Fl)) (x : list (cplx B)) (acts : list (list (cplx B))), widths_fit Fl ls (length x) -> Forall (fun l : dense Fl => gated (d_func l) /\ Forall cfinite (body (d_weights l))) ls ->
  trace Fl p (map (fun l => LDense l) ls) (IOScalar x) (map (fun v => IOScalar v) acts) -> Forall (Forall cfinite) acts ->
  chain (combine acts ls) (length x) (out_width Fl ls (length x)) /\ length (last acts []) = out_width Fl ls (length x) /\ length acts = S (length ls).
Proof.
  induction ls as [|l ls IH]; intros x acts WD GT TR FA; cbn [map] in TR.
  - inversion TR as [x0 E|]; subst. destruct acts as [|a [|b acts]]; try discriminate. cbn in *. assert (a = x) as -> by congruence. auto.
  - apply trace_inv in TR as (y & us & EV & E & T). destruct acts as [|v [|a acts]]; try discriminate. cbn [map] in EV. injection EV as EV1 EV2 EV3. subst v y us.
    change (IOScalar a :: map (fun v => IOScalar v) acts) with (map (fun v : list (cplx B) => IOScalar v) (a :: acts)) in T.
    destruct WD as (WF & EW & WD). inversion GT as [|l1 ls1 (G1 & G2) GT']; subst. inversion FA as [|v1 v2 FX FA']; subst.
    cbn [layer_forward] in E. apply C40_forward in E as (LA & _); [|exact WF | symmetry; exact EW].
    rewrite <- LA in WD. destruct (IH a (a :: acts) WD GT' T FA') as (CH & LL & LN).
    split; [|split].
    + cbn [combine chain]. split; [exact WF|]. split; [exact G1|]. split; [exact G2|]. split; [exact FX|]. split; [symmetry; exact EW|]. split; [exact EW|].
      unfold out_width. cbn [fold_left]. fold (out_width Fl ls (units Fl l)). rewrite <- LA. exact CH.
    + unfold out_width. cbn [fold_left]. fold (out_width Fl ls (units Fl l)). rewrite <- LA. exact LL.
    + cbn [length]. now rewrite <- LN.
Qed.

Lemma combine_maps : forall (acts : list (list (cplx B))) (ls : list (dense Fl)),
  combine (map (fun v => IOScalar v) acts) (map (fun l => LDense l) ls) = map (fun xl => (IOScalar (fst xl), LDense (snd xl))) (combine acts ls).
Proof. induction acts as [|a acts IH]; intros [|l ls]; try reflexivity. cbn [map combine fst snd]. now rewrite IH. Qed.
Lemma last_map : forall {A E} (f : A -> E) (v : list A) d e, v <> [] -> last (map f v) e = f (last v d).
Proof. intros A E f v d e H. induction v as [|a [|b v] IH]; [congruence | reflexivity|]. cbn [map last] in *. apply IH. discriminate. Qed.

Theorem deep : forall (ls : list (dense Fl)) (x : list (cplx B)) (acts : list (list (cplx B))) t f, ls <> [] -> widths_fit Fl ls (length x) ->
  Forall (fun l : dense Fl => gated (d_func l) /\ Forall cfinite (body (d_weights l))) ls ->
  trace Fl p (map (fun l => LDense l) ls) (IOScalar x) (map (fun v => IOScalar v) acts) -> Forall (Forall cfinite) acts -> Forall cfinite t ->
  length t = out_width Fl ls (length x) ->
  let top := flow_top prec emax Hp He L t (last acts []) in let ps := combine acts ls in let d k := flow_at (skipn (S k) ps) top in
  (forall k, k < length t -> room prec emax 1 (nth k (mag (snd top)) 0%RC) 0%RC) ->
  (forall k v l, nth_error ps k = Some (v, l) -> layer_room prec emax Hp He L l v (snd (d k))) ->
  exists W G, net_gradient Fl p (map (fun l => LDense l) ls) (batch [(IOScalar x, IOScalar t)]) f = Ret (W, G) /\ length W = length ls /\ length G = length ls /\
    forall k v l, nth_error ps k = Some (v, l) -> layer_gradient prec emax Hp He L l v (d k) (nth k W []) (nth k G []).
Proof.
  intros ls x acts t f NE WD GT TR FA FT LT top ps d R1 R2.
  destruct (chain_of ls x acts WD GT TR FA) as (CH & LL & LN). fold ps in CH.
  assert (NA : acts <> []) by (intros ->; discriminate).
  assert (FY : Forall cfinite (last acts [])).
  { clear - FA NA. induction acts as [|a [|b acts] IH]; [congruence | now inversion FA|]. apply IH; [now inversion FA | discriminate]. }
  assert (LM : Nat.min (length t) (length (last acts [])) = length t) by lia.
  destruct (loss_round prec emax Hp He L t (last acts []) f FT FY) as (g & EG & LG & BG).
  { intros k K. rewrite LM in K. specialize (R1 k K). unfold top, flow_top in R1. cbn [fst snd mag] in R1. rewrite nth_tab in R1 by exact K. exact R1. }
  rewrite LM in LG. rewrite <- LT, <- LG in CH.
  assert (AB : at_budget top g).
  { intros k K. pose proof (BG k K) as H. assert (K' : k < length t) by exact (eq_ind _ (fun v => k < v) K _ LG). unfold top, flow_top. cbn [fst snd order mag slack]. rewrite !nth_tab by exact K'. exact H. }
  destruct (bp_deep ps (length x) g top CH AB R2) as (ws & bs & h & EB & LH & _ & LW & LB & EN).
  set (n := map (fun l => LDense l) ls) in *.
  assert (EP : pgrad Fl p n f (IOScalar x, IOScalar t) = Ret (ws, bs)).
  { unfold pgrad. cbn [fst snd]. assert (EC : net_collect_acts Fl p n (IOScalar x) = Ret (Ok (map (fun v => IOScalar v) acts))).
    { pose proof (NetFacts.collect_fold Fl p n (IOScalar x) _ [] TR) as CF. cbn [app] in CF. unfold net_collect_acts. destruct n as [|a n0] eqn:EN0; [destruct ls; [congruence | discriminate]|]. rewrite CF. reflexivity. }
    rewrite EC. cbn [obind unwrap]. pose proof (last_map (fun v : list (cplx B) => IOScalar v) acts [] (IOScalar x) NA) as EL.
    match goal with |- context [d_loss Fl ?u ?v ?w] => replace (d_loss Fl u v w) with (Ok g : result (list (cplx (F Fl))) LossCalcError) by (symmetry; exact (eq_trans (f_equal (fun o => d_loss Fl u o w) EL) EG)) end. cbn [obind unwrap].
    unfold n. rewrite combine_maps. fold ps. rewrite EB. reflexivity. }
  assert (LP : length ps = length ls) by (unfold ps; rewrite combine_length; lia).
  assert (PK : forall k, k < length ls -> exists v l, nth_error ps k = Some (v, l) /\ nth_error ls k = Some l).
  { intros k K. destruct (nth_error ps k) as [(v, l)|] eqn:E; [|apply nth_error_None in E; lia]. exists v, l. split; [reflexivity|].
    unfold ps in E. clear - E. revert acts k E. induction ls as [|m ls IH]; intros [|a acts] [|k] E; try discriminate; cbn in *; [congruence | now apply (IH acts)]. }
  assert (WFK : forall k l, nth_error ls k = Some l -> dense_wf Fl l).
  { clear - WD. revert WD. generalize (length x). induction ls as [|m ls IH]; intros w WD [|k] l E; try discriminate; destruct WD as (W1 & _ & W2); cbn in E; [congruence | now apply (IH _ W2 k)]. }
  assert (GZ : forall k l, nth_error ls k = Some l -> nth k (fst (grad_zero Fl n)) [] = repeat z (units Fl l * inputs Fl l) /\ nth k (snd (grad_zero Fl n)) [] = repeat z (units Fl l)).
  { intros k l E. pose proof (WFK k l E) as (W1 & W2 & _). unfold grad_zero, n. cbn [fst snd]. rewrite !map_map. cbn [layer_propagates dense_propagates layer_params_len fst snd].
    assert (X : forall (q : dense Fl -> list (cplx B)), nth k (map q ls) [] = q l).
    { intros q. apply nth_error_nth. rewrite nth_error_map, E. reflexivity. }
    rewrite !X. unfold dense_params_len, wf in *. cbn [fst snd]. unfold units, inputs. split; [reflexivity | f_equal; exact W2]. }
  assert (M1 : map (@length _) ws = map (@length _) (fst (grad_zero Fl n)) /\ map (@length _) bs = map (@length _) (snd (grad_zero Fl n))).
  { destruct (grad_zero_length Fl n) as (Z1 & Z2). assert (LNn : length n = length ls) by apply map_length.
    split; (apply (nth_ext _ _ 0 0); [rewrite !map_length; lia|]); intros k K; rewrite map_length in K.
    - destruct (PK k ltac:(lia)) as (v & l & E1 & E2). destruct (EN k v l E1) as (Q1 & Q2 & _). change 0 with (@length (cplx B) []). rewrite !map_nth. etransitivity; [exact Q1|]. symmetry. exact (eq_trans (f_equal (@length _) (proj1 (GZ k l E2))) (repeat_length _ _)).
    - destruct (PK k ltac:(lia)) as (v & l & E1 & E2). destruct (EN k v l E1) as (Q1 & Q2 & _). change 0 with (@length (cplx B) []). rewrite !map_nth. etransitivity; [exact Q2|]. symmetry. exact (eq_trans (f_equal (@length _) (proj2 (GZ k l E2))) (repeat_length _ _)). }
  destruct M1 as (M1 & M2). destruct (addv_ok Fl (fst (grad_zero Fl n)) ws M1) as (W & A1 & _ & _). destruct (addv_ok Fl (snd (grad_zero Fl n)) bs M2) as (G & A2 & _ & _).
  exists W, G. destruct (addv_nth Fl _ _ _ M1 A1) as (LW' & NW). destruct (addv_nth Fl _ _ _ M2 A2) as (LG' & NG). destruct (grad_zero_length Fl n) as (Z1 & Z2). destruct (grad_zero_slots Fl n) as (S1 & S2).
  split.
  { unfold net_gradient, ds_points_iter. rewrite batch_points. cbn [foldM]. rewrite (surjective_pairing (grad_zero Fl n)). rewrite point_step_eq by assumption. rewrite EP. cbn [obind]. rewrite A1. cbn [obind]. rewrite A2. reflexivity. }
  split; [rewrite LW', Z1; apply map_length|]. split; [rewrite LG', Z2; apply map_length|].
  intros k v l E. assert (K : k < length ls) by (rewrite <- LP; apply nth_error_Some; congruence). destruct (PK k K) as (v' & l' & E1 & E2). assert (l' = l) as -> by congruence.
  rewrite NW, NG. destruct (GZ k l E2) as (-> & ->). apply gradient_zero, EN, E.
Qed.
End Deep.

(** ** The two formats *)
Lemma sf_eq : forall prec emax (x : binary_float prec emax) s, B2SF x = s -> B2R x = SF2R radix2 s.
Proof. intros prec emax [| | |s m e H] ? <-; reflexivity. Qed.
Ltac val := match goal with |- B2R ?x = _ => let s := eval vm_compute in (B2SF x) in rewrite (sf_eq _ _ x s ltac:(vm_compute; reflexivity)); unfold SF2R, F2R; cbn; lra end.
Lemma slopes32 : forall L, slopes 24 128 prec24 emax128 L.

Proof. intros L. split; [split; [vm_compute; reflexivity | val]|]. intros [] []; cbv zeta; unfold slope, slope_r; (split; [vm_compute; reflexivity|]; split; [vm_compute; reflexivity|]; split; val). Qed.
Lemma slopes64 : forall L, slopes 53 1024 prec53 emax1024 L.
Proof. intros L. split; [split; [vm_compute; reflexivity | val]|]. intros [] []; cbv zeta; unfold slope, slope_r; (split; [vm_compute; reflexivity|]; split; [vm_compute; reflexivity|]; split; val). Qed.
