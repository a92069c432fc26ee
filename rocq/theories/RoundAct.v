(** * Rounding errors of activations and block means *)
From Coq Require Import ZArith Reals Lra Psatz.
From Coquelicot Require Import Coquelicot.
From Flocq Require Import Core BinarySingleNaN.
From Verif Require Import Base BaseFacts Float Matrix Cplx Act Examples RFloat BFloat BFacts CFacts ActFacts SpecMatrix SpecRound RoundFacts PropAct.
Local Notation re := Cplx.re. Local Notation im := Cplx.im.
Local Notation P32 := Float.P32. Local Notation P64 := Float.P64.
Local Open Scope R_scope.

(** ** The exact activations *)
Lemma lipschitz : forall (f df : R -> R), (forall x, is_derive f x (df x)) -> (forall x, Rabs (df x) <= 1) -> forall a b, Rabs (f a - f b) <= Rabs (a - b).
Proof.
  intros f df D B a b. destruct (MVT_gen f b a df) as (c & _ & E).
  - intros x _. apply D.
  - intros x _. apply continuity_pt_filterlim. apply (ex_derive_continuous f). eexists. apply D.
  - rewrite E, Rabs_mult. rewrite <- (Rmult_1_l (Rabs (a - b))) at 2. apply Rmult_le_compat_r; [apply Rabs_pos | apply B].
Qed.

Lemma tanh_lip : forall a b, Rabs (tanh a - tanh b) <= Rabs (a - b).
Proof.
  apply (lipschitz _ (fun x => 1 / (cosh x * cosh x)) tanh_derive). intros x.
  assert (C : 1 <= cosh x).
  { unfold cosh. pose proof (exp_pos x). pose proof (exp_pos (- x)). assert (exp x * exp (- x) = 1) by (rewrite <- exp_plus, Rplus_opp_r; apply exp_0).
    destruct (Rle_lt_dec 2 (exp x + exp (- x))) as [G|G]; [lra|]. exfalso. pose proof (Rle_0_sqr (exp x - exp (- x))). unfold Rsqr in *. nra. }
  assert (1 <= cosh x * cosh x) by nra. rewrite Rabs_right.
  - apply (Rmult_le_reg_r (cosh x * cosh x)); [lra|]. unfold Rdiv. rewrite Rmult_assoc, Rinv_l; lra.
  - apply Rle_ge. apply Rlt_le. apply Rdiv_lt_0_compat; lra.
Qed.
Lemma tanh_abs : forall a, Rabs (tanh a) <= Rabs a.
Proof.
  intros a. pose proof (tanh_lip a 0) as H. assert (T : tanh 0 = 0) by (unfold tanh, sinh; rewrite Ropp_0; field; unfold cosh; pose proof (exp_pos 0); pose proof (exp_pos (- 0)); lra).
  rewrite T, !Rminus_0_r in H. exact H.
Qed.

Lemma logistic_lip : forall a b, Rabs (logistic a - logistic b) <= Rabs (a - b).
Proof.
  apply (lipschitz _ (fun x => logistic x * (1 - logistic x)) logistic_derive). intros x. pose proof (logistic_range x). apply Rabs_le. nra.
Qed.

Definition jump (p : Float.prec) : R := match p with P32 => 1 / 1000000 | P64 => 1 / 10000000000000 end.

Lemma exp30_lower : 10000000000000 <= exp 30.
Proof.
  assert (E : forall x n, exp (x * INR n) = exp x ^ n).
  { intros x n. induction n as [|n IH]; [cbn; rewrite Rmult_0_r; apply exp_0|]. rewrite S_INR, Rmult_plus_distr_l, Rmult_1_r, exp_plus, IH. cbn. ring. }
  assert (E1 : 27129 / 10000 <= exp 1).
  { replace 1 with (1 / 256 * INR 256) by (rewrite INR_IZR_INZ; simpl; field). rewrite E. apply Rle_trans with ((257 / 256) ^ 256).
    - rewrite (pow_frac 257 256) by reflexivity. apply (Rmult_le_reg_r (IZR (256 ^ Z.of_nat 256))).
      + apply IZR_lt. vm_compute. reflexivity.
      + unfold Rdiv. rewrite (Rmult_assoc (IZR (257 ^ _))), Rinv_l, Rmult_1_r.
        * apply (Rmult_le_reg_r 10000); [lra|]. replace (27129 * / 10000 * IZR (256 ^ Z.of_nat 256) * 10000) with (27129 * IZR (256 ^ Z.of_nat 256)) by field.
          rewrite <- !mult_IZR. apply IZR_le. vm_compute. discriminate.
        * apply IZR_neq. vm_compute. discriminate.
    - apply pow_incr. pose proof (exp_ineq1_le (1 / 256)). lra. }
  replace 30 with (1 * INR 30) by (rewrite INR_IZR_INZ; simpl; ring). rewrite E. apply Rle_trans with ((27129 / 10000) ^ 30).
  - rewrite (pow_frac 27129 10000) by reflexivity. apply (Rmult_le_reg_r (IZR (10000 ^ Z.of_nat 30))).
    + apply IZR_lt. vm_compute. reflexivity.
    + unfold Rdiv. rewrite Rmult_assoc, Rinv_l, Rmult_1_r.
      * rewrite <- mult_IZR. apply IZR_le. vm_compute. discriminate.
      * apply IZR_neq. vm_compute. discriminate.
  - apply pow_incr. lra.
Qed.

Lemma saturation : forall p v, Rabs (sigmoid ROps p v - logistic v) <= jump p.
Proof.
  assert (UP : forall p v, thr p <= v -> 1 - jump p <= logistic v).
  { intros p v H. assert (G : logistic (thr p) <= logistic v) by (destruct H as [H | <-]; [left; now apply logistic_increasing | apply Rle_refl]).
    eapply Rle_trans; [|exact G]. destruct p; cbn [thr jump].
    - assert (E : 1000000 <= exp 15) by (eapply Rle_trans; [apply exp14_lower|]; left; apply exp_increasing; lra).
      pose proof (logistic_above 15 1000000 ltac:(lra) E). lra.
    - pose proof (logistic_above 30 10000000000000 ltac:(lra) exp30_lower). lra. }
  assert (OPP : forall v, logistic (- v) = 1 - logistic v).
  { intros v. unfold logistic. rewrite exp_Ropp. pose proof (exp_pos v). field. lra. }
  assert (DN : forall p v, v <= - thr p -> logistic v <= jump p).
  { intros p v H. specialize (UP p (- v) ltac:(lra)). rewrite OPP in UP. lra. }
  intros p v. rewrite sigmoid_R. pose proof (logistic_range v).
  destruct (Rle_dec (thr p) v) as [H1|H1]; [|destruct (Rle_dec v (- thr p)) as [H2|H2]].
  - specialize (UP p v H1). apply Rabs_le. destruct p; cbn [hi jump] in *; lra.
  - specialize (DN p v H2). apply Rabs_le. destruct p; cbn [lo jump] in *; lra.
  - rewrite Rminus_eq_0, Rabs_R0. destruct p; cbn [jump]; lra.
Qed.

Section RoundAct.
Context (prec emax : Z) (Hp : Prec_gt_0 prec) (He : Prec_lt_emax prec emax) (L : libm (binary_float prec emax)).
Local Notation B := (binary_float prec emax).
Local Notation Fl := (BOps prec emax Hp He L).
Local Notation uu := (SpecRound.uu prec).
Local Notation eta := (SpecRound.eta prec emax).
Local Notation omega := (SpecRound.omega emax).
Local Notation close := (RoundFacts.close prec emax).
Local Notation cclose := (RoundFacts.cclose prec emax).
Local Notation fx := (SpecFloat.fexp prec emax).
Local Notation rnd := (round radix2 fx ZnearestE).
Local Existing Instance vexp.

(** An activation of a part that does not magnify differences. *)
Lemma close_map : forall k M c x r (x' : B) (r' g d : R), close k M c x r -> is_finite x' = true -> Rabs r' <= M + g -> 0 <= g -> 0 <= d ->
  Rabs (B2R x' - r') <= Rabs (B2R x - r) + d -> close k (M + g) (c + d) x' r'.
Proof.
  intros k M c x r x' r' g d (F & HM & Hc & H) F' HM' G D E. pose proof (pw1 prec k). repeat split; auto; [lra|].
  assert (d <= d * (1 + uu) ^ k) by nra. assert (0 <= ((1 + uu) ^ k - 1) * g) by nra. nra.
Qed.

Lemma relu_val : forall x : B, is_finite x = true -> is_finite (relu Fl x) = true /\ B2R (relu Fl x) = relu ROps (B2R x).
Proof.
  intros x F. unfold relu. cbn [fsignneg BOps ROps]. change (fzero Fl) with (Bofz prec emax Hp He 0). change (fzero ROps) with 0.
  destruct x as [s|s| |s m e Hb]; try discriminate F; cbn [is_nan Bsign].
  - cbn [B2R]. destruct (Rltb 0 0) eqn:E; destruct s; cbn; auto.
  - destruct s; cbn [B2R].
    + assert (N : F2R (Float radix2 (cond_Zopp true (Z.pos m)) e) < 0) by (apply F2R_lt_0; reflexivity).
      rewrite (proj2 (Rltb_lt _ 0) N). cbn. auto.
    + assert (N : 0 < F2R (Float radix2 (cond_Zopp false (Z.pos m)) e)) by (apply F2R_gt_0; reflexivity).
      rewrite (proj2 (Rltb_ge _ 0)) by lra. auto.
Qed.

Lemma relu_lip : forall a b : R, Rabs (relu ROps a - relu ROps b) <= Rabs (a - b) /\ Rabs (relu ROps a) <= Rabs a.
Proof.
  intros a b. unfold relu. cbn [fsignneg ROps]. change (fzero ROps) with 0.
  destruct (Rltb a 0) eqn:E1, (Rltb b 0) eqn:E2; try apply Rltb_lt in E1; try apply Rltb_ge in E1; try apply Rltb_lt in E2; try apply Rltb_ge in E2;
    split; unfold Rabs; repeat destruct Rcase_abs; lra.
Qed.

Lemma close_relu : forall k M c x r, close k M c x r -> close k M c (relu Fl x) (relu ROps r).
Proof.
  intros k M c x r H. pose proof H as (F & HM & _). destruct (relu_val x F) as (F' & E). destruct (relu_lip (B2R x) r) as (E1 & _), (relu_lip r r) as (_ & E2).
  assert (G : close k (M + 0) (c + 0) (relu Fl x) (relu ROps r)).
  { eapply close_map; eauto; try lra. rewrite E. lra. }
  now rewrite !Rplus_0_r in G.
Qed.

Context (p : Float.prec) (et ee : R).

(** The literals of the code have their values, up to a rounding. *)
Definition literals : Prop :=
  (is_finite (sig_thr Fl p) = true /\ B2R (sig_thr Fl p : B) = thr p) /\
  (is_finite (sig_hi Fl p) = true /\ Rabs (B2R (sig_hi Fl p : B) - hi p) <= uu) /\
  (is_finite (sig_lo Fl p) = true /\ Rabs (B2R (sig_lo Fl p : B) - lo p) <= uu) /\
  (is_finite (fone Fl) = true /\ B2R (fone Fl : B) = 1) /\ uu <= / 8 /\ 2 ^ 60 <= omega.

Section Lib.
Context (HL : libm_within prec emax L et ee).

Lemma close_tanh : forall k M c x r, close k M c x r -> close k M (c + et) (l_tanh L x) (tanh r).
Proof.
  intros k M c x r H. pose proof H as (F & HM & _). destruct HL as (HT & _ & Et & _). destruct (HT x F) as (F' & E).
  rewrite <- (Rplus_0_r M). eapply close_map; eauto; try lra.
  - pose proof (tanh_abs r). lra.
  - replace (B2R (l_tanh L x) - tanh r) with ((B2R (l_tanh L x) - tanh (B2R x)) + (tanh (B2R x) - tanh r)) by ring.
    eapply Rle_trans; [apply Rabs_triang|]. pose proof (tanh_lip (B2R x) r). lra.
Qed.

Context (HC : literals).

Lemma leb_val : forall x y : B, is_finite x = true -> is_finite y = true -> fleb Fl x y = Rleb (B2R x) (B2R y).
Proof.
  intros x y FX FY. cbn [fleb BOps]. rewrite (Bleb_correct prec emax x y FX FY). unfold Rleb. destruct (Rle_dec _ _) as [H|H].
  - now apply Rle_bool_true.
  - apply Rle_bool_false. lra.
Qed.

Lemma sigmoid_val : forall x : B, is_finite x = true ->
  is_finite (sigmoid Fl p x) = true /\ Rabs (B2R (sigmoid Fl p x : B) - logistic (B2R x)) <= ee + 4 * uu + eta + jump p.
Proof.
  intros x F. destruct HC as ((FT & VT) & (FH & VH) & (FL & VL) & (F1 & V1) & U8 & OM). destruct HL as (_ & HE & _ & Ee0 & Ee1).
  pose proof (uu_pos prec) as U0. pose proof (eta_pos prec emax) as H0. 
  assert (J0 : 0 <= jump p) by (destruct p; cbn [jump]; lra). pose proof (saturation p (B2R x)) as SAT. rewrite sigmoid_R in SAT.
  unfold sigmoid. assert (FN : is_finite (fneg Fl (sig_thr Fl p)) = true) by (cbn [fneg BOps]; rewrite is_finite_Bopp; exact FT).
  assert (VN : B2R (fneg Fl (sig_thr Fl p) : B) = - thr p) by (cbn [fneg BOps]; rewrite B2R_Bopp, VT; reflexivity).
  rewrite (leb_val _ _ FT F), (leb_val _ _ F FN), VT, VN. unfold Rleb.
  destruct (Rle_dec (thr p) (B2R x)) as [C1|C1]; [|destruct (Rle_dec (B2R x) (- thr p)) as [C2|C2]].
  - split; [exact FH|]. replace (B2R (sig_hi Fl p : B) - logistic (B2R x)) with ((B2R (sig_hi Fl p : B) - hi p) + (hi p - logistic (B2R x))) by ring.
    eapply Rle_trans; [apply Rabs_triang|]. lra.
  - split; [exact FL|]. replace (B2R (sig_lo Fl p : B) - logistic (B2R x)) with ((B2R (sig_lo Fl p : B) - lo p) + (lo p - logistic (B2R x))) by ring.
    eapply Rle_trans; [apply Rabs_triang|]. lra.
  - clear SAT. assert (T30 : Rabs (B2R x) <= 30) by (apply Rabs_le; destruct p; cbn [thr] in *; lra).
    destruct (HE x F T30) as (FE & VE). pose proof (exp_pos (B2R x)) as EP. set (E := exp (B2R x)) in *.
    assert (EU : E <= 99999999999999).
    { eapply Rle_trans; [|apply exp30_upper]. unfold E. apply Rabs_le_inv in T30. destruct T30 as [_ [T30 | ->]]; [left; now apply exp_increasing | apply Rle_refl]. }
    cbn [fexp fdiv fadd BOps]. set (e := l_exp L x) in *. set (t := B2R e) in *.
    assert (TP : / 2 * E <= t <= 3 / 2 * E) by (apply Rabs_le_inv in VE; nra).
    (* 1 + e *)
    destruct (round_sum prec emax Hp (fone Fl) e) as (d1 & D1 & R1). apply Rabs_le_inv in D1 as D1'.
    pose proof (Bplus_correct prec emax Hp He mode_NE (fone Fl) e F1 FE) as PP. cbn [round_mode] in PP. fold t in R1, PP. rewrite V1 in R1, PP.
    assert (PB : Rabs (rnd (1 + t)) < omega).
    { rewrite R1, Rabs_right by nra. eapply Rlt_le_trans; [|exact OM]. cbn [pow]. nra. }
    unfold SpecRound.omega in PB. rewrite (Rlt_bool_true _ _ PB) in PP. destruct PP as (PV & PF & _).
    change (Bplus mode_NE (fone Fl) e) with (Bplus mode_NE (fone Fl : B) e) in *. set (s := Bplus mode_NE (fone Fl : B) e) in *. rewrite R1 in PV.
    (* e / (1 + e) *)
    assert (SN : B2R s <> 0) by (rewrite PV; nra).
    pose proof (Bdiv_correct prec emax Hp He mode_NE e s SN) as DD. cbn [round_mode] in DD. fold t in DD.
    destruct (round_any prec emax Hp (t / B2R s)) as (d2 & h & D2 & Hh & R2). apply Rabs_le_inv in D2 as D2'. apply Rabs_le_inv in Hh as Hh'.
    set (q := t / (1 + t)). assert (Q1 : 0 < q < 1).
    { unfold q. split; [apply Rdiv_lt_0_compat; lra|]. apply (Rmult_lt_reg_r (1 + t)); [lra|]. unfold Rdiv. rewrite Rmult_assoc, Rinv_l; lra. }
    assert (TQ : t / B2R s = q * / (1 + d1)) by (rewrite PV; unfold q; field; split; nra).
    set (i := / (1 + d1)) in *. assert (I1 : i * (1 + d1) = 1) by (unfold i; apply Rinv_l; lra).
    assert (IB : 0 < i <= 8 / 7) by (split; nra).
    assert (K : Rabs (rnd (t / B2R s) - q) <= 4 * uu + eta).
    { rewrite R2, TQ. replace (q * i * (1 + d2) + h - q) with (q * (i * (d2 - d1)) + h) by (replace q with (q * (i * (1 + d1))) at 3 by (rewrite I1; ring); ring).
      eapply Rle_trans; [apply Rabs_triang|]. apply Rplus_le_compat; [|exact Hh]. rewrite Rabs_mult, (Rabs_right q) by lra.
      assert (Rabs (i * (d2 - d1)) <= 4 * uu) by (rewrite Rabs_mult, (Rabs_right i) by lra; assert (Rabs (d2 - d1) <= 2 * uu) by (apply Rabs_le; lra); pose proof (Rabs_pos (d2 - d1)); nra).
      pose proof (Rabs_pos (i * (d2 - d1))). nra. }
    assert (E8 : eta <= / 2).
    { unfold SpecRound.eta. rewrite <- (Rmult_1_r (/ 2)) at 2. apply Rmult_le_compat_l; [lra|]. change 1 with (bpow radix2 0). apply bpow_le.
      unfold SpecFloat.emin. unfold Prec_gt_0 in Hp. unfold Prec_lt_emax in He. lia. }
    assert (DB : Rabs (rnd (t / B2R s)) < omega).
    { replace (rnd (t / B2R s)) with ((rnd (t / B2R s) - q) + q) by ring. eapply Rle_lt_trans; [apply Rabs_triang|].
      eapply Rlt_le_trans; [|exact OM]. rewrite (Rabs_right q) by lra. cbn [pow]. lra. }
    unfold SpecRound.omega in DB. rewrite (Rlt_bool_true _ _ DB) in DD. destruct DD as (DV & DF & _). rewrite FE in DF.
    split; [exact DF|]. rewrite DV. replace (rnd (t / B2R s) - logistic (B2R x)) with ((rnd (t / B2R s) - q) + (q - logistic (B2R x))) by ring.
    eapply Rle_trans; [apply Rabs_triang|].
    assert (QL : Rabs (q - logistic (B2R x)) <= ee); [|lra].
    unfold logistic. fold E. replace (q - E / (1 + E)) with ((t - E) * / ((1 + t) * (1 + E))) by (unfold q; field; lra).
    rewrite Rabs_mult. rewrite (Rabs_right (/ _)) by (apply Rle_ge, Rlt_le, Rinv_0_lt_compat; nra).
    apply (Rmult_le_reg_r ((1 + t) * (1 + E))); [nra|]. rewrite Rmult_assoc, Rinv_l by nra. rewrite Rmult_1_r.
    assert (G : E <= (1 + t) * (1 + E)) by nra. eapply Rle_trans; [exact VE|]. now apply Rmult_le_compat_l.
Qed.

Lemma close_sigmoid : forall k M c x r, close k M c x r ->
  close k (M + 1) (c + (ee + 4 * uu + eta + 2 * jump p)) (sigmoid Fl p x) (sigmoid ROps p r).
Proof.
  intros k M c x r H. pose proof H as (F & HM & _). destruct (sigmoid_val x F) as (F' & E). pose proof (saturation p r) as SAT.
  assert (J0 : 0 <= jump p) by (destruct p; cbn [jump]; lra). pose proof (uu_pos prec). pose proof (eta_pos prec emax). destruct HL as (_ & _ & _ & Ee & _).
  pose proof (logistic_lip (B2R x) r) as LP. pose proof (Rabs_pos r).
  assert (S1 : Rabs (sigmoid ROps p r) <= 1).
  { rewrite sigmoid_R. pose proof (logistic_range r). destruct (Rle_dec _ _); [|destruct (Rle_dec _ _)]; apply Rabs_le; destruct p; cbn [hi lo]; lra. }
  eapply close_map; eauto; try lra.
  set (a := B2R (sigmoid Fl p x : B)) in *. set (b := sigmoid ROps p r) in *.
  replace (a - b) with ((a - logistic (B2R x)) + ((logistic (B2R x) - logistic r) + - (b - logistic r))) by ring.
  eapply Rle_trans; [apply Rabs_triang|]. pose proof (Rabs_triang (logistic (B2R x) - logistic r) (- (b - logistic r))) as T. rewrite Rabs_Ropp in T. lra.
Qed.

End Lib.

Context (HC : literals).
Lemma close_act : forall f k M c z w, plain f -> (f = RITTanh \/ f = RITSigmoid -> libm_within prec emax L et ee) -> cclose k M c z w -> exists z' w',
  activate Fl p f z = Ret z' /\ activate ROps p f w = Ret w' /\
  cclose k (M + both (act_gain f))%RC (c + both (act_slack prec emax p et ee f))%RC z' w'.
Proof.
  intros f k M c z w [-> | [-> | [-> | ->]]] HL [A B0]; cbn [activate]; do 2 eexists; (split; [reflexivity|]); (split; [reflexivity|]);
    destruct M as [m1 m2], c as [c1 c2]; split; cbn [act_gain act_slack both c_add re im fadd ROps ritrelu rittanh ritsigmoid]; rewrite ?Rplus_0_r.
  - exact A.
  - exact B0.
  - exact (close_relu _ _ _ _ _ A).
  - exact (close_relu _ _ _ _ _ B0).
  - exact (close_tanh (HL (or_introl eq_refl)) _ _ _ _ _ A).
  - exact (close_tanh (HL (or_introl eq_refl)) _ _ _ _ _ B0).
  - pose proof (close_sigmoid (HL (or_intror eq_refl)) HC _ _ _ _ _ A) as G. replace (match p with P32 => 2 / 1000000 | P64 => 2 / 10000000000000 end) with (2 * jump p) by (destruct p; cbn [jump]; field). exact G.
  - pose proof (close_sigmoid (HL (or_intror eq_refl)) HC _ _ _ _ _ B0) as G. replace (match p with P32 => 2 / 1000000 | P64 => 2 / 10000000000000 end) with (2 * jump p) by (destruct p; cbn [jump]; field). exact G.
Qed.

(** ** Division by an exact number; block means *)
Lemma close_div : forall k M c x w r, is_finite w = true -> 0 < B2R w -> close k M c x r ->
  (1 + uu) ^ (S k) * (M / B2R w + (c / B2R w + eta)) < omega ->
  close (S k) (M / B2R w) (c / B2R w + eta) (Bdiv mode_NE x w) (r / B2R w).
Proof.
  intros k M c x w r FW WP HX O. pose proof (close_size _ _ _ _ _ _ _ HX) as SX.
  destruct HX as (FX & HM & Hc & EX). pose proof (pw1 prec k). pose proof (pw1 prec (S k)). pose proof (uu_pos prec). pose proof (eta_pos prec emax).
  set (v := / B2R w). assert (V0 : 0 < v) by now apply Rinv_0_lt_compat.
  unfold Rdiv in *. fold v in O. fold v.
  destruct (round_any prec emax Hp (B2R x * v)) as (e & h & E & Hh & RS).
  assert (E1 : Rabs (1 + e) <= 1 + uu) by (eapply Rle_trans; [apply Rabs_triang|]; rewrite Rabs_R1; lra).
  assert (WN : B2R w <> 0) by lra.
  pose proof (Bdiv_correct prec emax Hp He mode_NE x w WN) as P. cbn [round_mode] in P. unfold Rdiv in P. fold v in P.
  assert (G : Rabs (rnd (B2R x * v)) < omega).
  { rewrite RS. eapply Rle_lt_trans; [apply Rabs_triang|]. eapply Rle_lt_trans; [|exact O]. rewrite !Rabs_mult, (Rabs_right v) by lra.
    assert (Rabs (B2R x) * v * Rabs (1 + e) <= ((1 + uu) ^ k * (M + c)) * v * (1 + uu)).
    { apply Rmult_le_compat; auto using Rabs_pos. apply Rmult_le_pos; [apply Rabs_pos | lra]. apply Rmult_le_compat_r; [lra | auto]. }
    assert (eta <= eta * (1 + uu) ^ S k) by nra. rewrite pwS in *. nra. }
  unfold SpecRound.omega in G. rewrite (Rlt_bool_true _ _ G) in P. destruct P as (PR & PF & _). rewrite FX in PF.
  assert (0 <= c * v) by (apply Rmult_le_pos; lra).
  repeat split; auto; try lra.
  - rewrite Rabs_mult, (Rabs_right v) by lra. apply Rmult_le_compat_r; lra.
  - rewrite PR, RS. replace (B2R x * v * (1 + e) + h - r * v) with (v * ((B2R x - r) * (1 + e) + r * e) + h) by ring.
    eapply Rle_trans; [apply Rabs_triang|]. rewrite Rabs_mult, (Rabs_right v) by lra.
    assert (D : Rabs ((B2R x - r) * (1 + e) + r * e) <= ((1 + uu) ^ S k - 1) * M + c * (1 + uu) ^ S k).
    { eapply Rle_trans; [apply Rabs_triang|]. rewrite !Rabs_mult.
      assert (Rabs (B2R x - r) * Rabs (1 + e) <= (((1 + uu) ^ k - 1) * M + c * (1 + uu) ^ k) * (1 + uu)) by (apply Rmult_le_compat; auto using Rabs_pos).
      assert (Rabs r * Rabs e <= M * uu) by (apply Rmult_le_compat; auto using Rabs_pos). rewrite pwS. nra. }
    apply (Rmult_le_compat_l v) in D; [|lra]. assert (eta <= eta * (1 + uu) ^ S k) by nra. nra.
Qed.

Lemma nat_val : forall n, (Z.of_nat n ^ 2 <= 2 ^ prec)%Z ->
  is_finite (fofnat Fl n) = true /\ B2R (fofnat Fl n : B) = INR n.
Proof.
  intros n H. unfold fofnat. cbn [fofN BOps]. rewrite nat_N_Z. destruct (Bofz_exact prec emax Hp He (Z.of_nat n)) as (A & B1); [nia|].
  rewrite A, B1, INR_IZR_INZ. auto.
Qed.

Lemma square_val : forall n, (Z.of_nat n ^ 2 <= 2 ^ prec)%Z ->
  let den := fadd Fl (fsq Fl (fofnat Fl n)) (fsq Fl (fzero Fl)) in is_finite den = true /\ B2R (den : B) = INR n * INR n.
Proof.
  intros n H. destruct (nat_val n H) as (NF & NV). cbn [fadd BOps]. unfold fsq. cbn [fmul BOps]. cbv zeta. change (F Fl) with B in *. generalize dependent (fofnat Fl n : B). intros nn NF NV.
  change (Bmult mode_NE (fzero Fl) (fzero Fl)) with (Bmult mode_NE (Bofz prec emax Hp He 0) (Bofz prec emax Hp He 0)).
  assert (Z0 : is_finite (Bmult mode_NE (Bofz prec emax Hp He 0) (Bofz prec emax Hp He 0)) = true /\ B2R (Bmult mode_NE (Bofz prec emax Hp He 0) (Bofz prec emax Hp He 0)) = 0) by (split; reflexivity).
  destruct Z0 as (Z1 & Z2).
  destruct (Bofz_exact prec emax Hp He (Z.of_nat n ^ 2)) as (SV & SF); [rewrite Z.abs_eq by (apply Z.pow_nonneg; lia); exact H|].
  assert (SI : IZR (Z.of_nat n ^ 2) = INR n * INR n) by (rewrite INR_IZR_INZ, <- mult_IZR; f_equal; ring).
  assert (RN : rnd (INR n * INR n) = INR n * INR n).
  { rewrite <- SI, <- SV. apply round_generic; [apply valid_rnd_N | apply (generic_format_B2R prec emax)]. }
  assert (LT : Rabs (INR n * INR n) < bpow radix2 emax) by (rewrite <- SI, <- SV; apply abs_B2R_lt_emax).
  pose proof (Bmult_correct prec emax Hp He mode_NE nn nn) as P. cbn [round_mode] in P. rewrite NV in P.
  change (round radix2 (SpecFloat.fexp prec emax) ZnearestE) with (round radix2 fx ZnearestE) in P. rewrite RN, (Rlt_bool_true _ _ LT) in P.
  destruct P as (PV & PF & _). rewrite NF in PF. cbn in PF.
  pose proof (Bplus_correct prec emax Hp He mode_NE _ _ PF Z1) as Q. cbn [round_mode] in Q. rewrite PV, Z2, Rplus_0_r, RN, (Rlt_bool_true _ _ LT) in Q.
  destruct Q as (QV & QF & _). split; [exact QF | exact QV].
Qed.

Lemma avg_part : forall k n (M c M' c' : R) (x y : B) (r s : R), (1 <= n)%nat -> (Z.of_nat n ^ 2 <= 2 ^ prec)%Z -> close k M c x r -> close k M' c' y s ->
  INR n ^ 2 * ((1 + uu) ^ (k + 3) * (/ INR n * M + (/ INR n * c + 3 * eta))) < omega ->
  let den := fadd Fl (fsq Fl (fofnat Fl n)) (fsq Fl (fzero Fl)) in
  let T := close (k + 3) (/ INR n * M) (/ INR n * c + 3 * eta) in
  T (Bdiv mode_NE (Bplus mode_NE (Bmult mode_NE x (fofnat Fl n)) (Bmult mode_NE y (fzero Fl))) den) (/ INR n * r) /\
  T (Bdiv mode_NE (Bminus mode_NE (Bmult mode_NE x (fofnat Fl n)) (Bmult mode_NE y (fzero Fl))) den) (/ INR n * r).
Proof.
  intros k n M c M' c' x y r s N1 SQ HX HY O den T. destruct (nat_val n SQ) as (NF & NV). destruct (square_val n SQ) as (DF & DV). fold den in DF, DV.
  pose proof (uu_pos prec). pose proof (eta_pos prec emax). pose proof (pw1 prec k). pose proof (pw1 prec (k + 3)).
  destruct (close_M _ _ _ _ _ _ _ HX) as (X1 & X2), (close_M _ _ _ _ _ _ _ HY) as (Y1 & Y2).
  assert (NR : 1 <= INR n) by (apply (le_INR 1) in N1; exact N1). set (N := INR n) in *.
  assert (INV : N * / N = 1) by (apply Rinv_r; lra). assert (IN : 0 < / N) by (apply Rinv_0_lt_compat; lra).
  replace (k + 3)%nat with (S (S (S k))) in * by lia.
  assert (EXP : N ^ 2 * ((1 + uu) ^ S (S (S k)) * (/ N * M + (/ N * c + 3 * eta))) = (1 + uu) ^ S (S (S k)) * (N * M + (N * c + 3 * (N * N * eta)))).
  { cbn [pow]. replace (N * (N * 1) * ((1 + uu) * ((1 + uu) * ((1 + uu) * (1 + uu) ^ k)) * (/ N * M + (/ N * c + 3 * eta)))) with
      ((1 + uu) * ((1 + uu) * ((1 + uu) * (1 + uu) ^ k)) * (N * ((N * / N) * M + ((N * / N) * c + 3 * (N * eta))))) by ring. rewrite INV. ring. }
  rewrite EXP in O. clear EXP. assert (NN : 1 <= N * N) by (clear - NR; nra). assert (NE1 : eta <= N * N * eta) by (clear - NN H0; nra).
  assert (LIFT : forall j m, (j <= S (S (S k)))%nat -> 0 <= m -> m <= N * M + (N * c + 3 * (N * N * eta)) -> (1 + uu) ^ j * m < omega).
  { intros j m J I0 I1. pose proof (pw_mono prec _ _ J). pose proof (pw1 prec j). eapply Rle_lt_trans; [|exact O]. apply Rmult_le_compat; lra. }
  assert (A1 := Rmult_le_pos N M ltac:(lra) X1). assert (A2 := Rmult_le_pos N c ltac:(lra) X2).
  assert (MN : close (S k) (N * M) (N * c + eta) (Bmult mode_NE x (fofnat Fl n : B)) (N * r)).
  { destruct HX as (FX & HX'). apply Bmult_sym; auto. pose proof (close_mult prec emax Hp He k M c (fofnat Fl n : B) x r NF (Logic.conj FX HX')) as G.
    change (F Fl) with B in *. rewrite NV, Rabs_right in G by (apply Rle_ge; lra). apply G. apply LIFT; [lia|lra|lra]. }
  assert (MZ : close (S k) 0 eta (Bmult mode_NE y (fzero Fl : B)) 0).
  { destruct HY as (FY & HY'). apply Bmult_sym; auto. pose proof (close_mult prec emax Hp He k M' c' (fzero Fl : B) y s eq_refl (Logic.conj FY HY')) as G.
    change (B2R (fzero Fl : B)) with 0 in G. rewrite Rabs_R0, !Rmult_0_l, !Rplus_0_l in G. apply G. apply LIFT; [lia|lra|lra]. }
  assert (DIV : forall q, close (S (S k)) (N * M + 0) (N * c + eta + eta) q (N * r) -> T (Bdiv mode_NE q den) (/ N * r)).
  { intros q Q. unfold T. replace (k + 3)%nat with (S (S (S k))) by lia. assert (DP : 0 < B2R (den : B)) by (rewrite DV; nra).
    assert (C1 : (N * M + 0) / B2R (den : B) = / N * M) by (rewrite DV; field; lra).
    assert (C2 : (N * c + eta + eta) / B2R (den : B) + eta <= / N * c + 3 * eta).
    { rewrite DV. replace ((N * c + eta + eta) / (N * N)) with (/ N * c + / N * (/ N * (2 * eta))) by (field; lra).
      assert (/ N <= 1) by nra. assert (/ N * (/ N * (2 * eta)) <= 2 * eta); [|lra]. assert (/ N * (2 * eta) <= 2 * eta) by nra. nra. }
    assert (C3 : N * r / B2R (den : B) = / N * r) by (rewrite DV; field; lra).
    assert (R0 := Rmult_le_pos (/ N) M ltac:(lra) X1). assert (R1 := Rmult_le_pos (/ N) c ltac:(lra) X2).
    assert (C4 : / N * M <= N * M) by (apply Rmult_le_compat_r; [lra|]; nra). assert (C5 : / N * c <= N * c) by (apply Rmult_le_compat_r; [lra|]; nra).
    eapply close_weaken; [|apply le_n|right; exact C1|exact C2]. rewrite <- C3. apply (close_div (S (S k))); auto.
    apply LIFT; [lia| |].
    - rewrite C1. assert (0 <= (N * c + eta + eta) / B2R (den : B)) by (apply Rmult_le_pos; [lra | left; now apply Rinv_0_lt_compat]). lra.
    - rewrite C1. lra. }
  split.
  - apply DIV. rewrite <- (Rplus_0_r (N * r)). apply close_plus; auto. apply LIFT; [lia|lra|lra].
  - apply DIV. rewrite <- (Rminus_0_r (N * r)). apply close_minus; auto. apply LIFT; [lia|lra|lra].
Qed.

Lemma fold_sum_from : forall {A : Type} (op : A -> A -> A) (z d : A) l, fold_left op l z = sum_from op z (fun i => nth i l d) (length l).
Proof.
  intros A op z d l. unfold sum_from. rewrite (list_eq_map_nth d l) at 1. revert z. induction (seq 0 (length l)) as [|a q IH]; intros z; [reflexivity|]. cbn. apply IH.
Qed.

(** [peak_fit]: room for the intermediate results of a mean. *)
Definition peak_fit (n k : nat) (M c : RC) : Prop :=
  INR n ^ 2 * ((1 + uu) ^ k * (re M + re c)) < omega /\ INR n ^ 2 * ((1 + uu) ^ k * (im M + im c)) < omega.

Lemma close_avg : forall k (b : list (cplx B)) (b' : list RC) (M c : nat -> RC), (1 <= length b)%nat -> (Z.of_nat (length b) ^ 2 <= 2 ^ prec)%Z -> length b' = length b ->
  (forall i, (i < length b)%nat -> cclose k (M i) (c i) (nth i b (c_default Fl)) (nth i b' 0%RC)) ->
  let n := length b in
  let MM := (mkC (/ INR n)%R 0%R * csum M n)%RC in let CC := (mkC (/ INR n)%R 0%R * csum c n + both (3 * eta))%RC in
  peak_fit n (k + n + 3) MM CC ->
  exists y y', avg_block Fl b = Ret y /\ avg_block ROps b' = Ret y' /\ cclose (k + n + 3) MM CC y y'.
Proof.
  intros k b b' M c N1 SQ LB H n MM CC [O1 O2]. fold n in N1, SQ, H, LB.
  assert (NR : 1 <= INR n) by (apply (le_INR 1) in N1; exact N1).
  assert (IN : 0 < / INR n) by (apply Rinv_0_lt_compat; lra).
  assert (NM : cle 0%RC (csum M n)) by (apply csum_nneg; intros i I; exact (proj1 (cclose_nneg _ _ _ _ _ _ _ (H i I)))).
  assert (NC : cle 0%RC (csum c n)) by (apply csum_nneg; intros i I; exact (proj2 (cclose_nneg _ _ _ _ _ _ _ (H i I)))).
  assert (MM1 : re MM = / INR n * re (csum M n) /\ im MM = / INR n * im (csum M n)) by (unfold MM; destruct (csum M n); cbn; split; ring).
  assert (CC1 : re CC = / INR n * re (csum c n) + 3 * eta /\ im CC = / INR n * im (csum c n) + 3 * eta) by (unfold CC; destruct (csum c n); cbn; split; ring).
  destruct MM1 as (E1 & E2), CC1 as (E3 & E4). rewrite E1, E3 in O1. rewrite E2, E4 in O2. destruct NM as (NM1 & NM2), NC as (NC1 & NC2).
  pose proof (eta_pos prec emax) as H0.
  assert (W : forall m q : R, 0 <= m -> 0 <= q -> INR n ^ 2 * ((1 + uu) ^ (k + n + 3) * (/ INR n * m + (/ INR n * q + 3 * eta))) < omega -> (1 + uu) ^ (k + n) * (m + q) < omega).
  { intros m q m0 q0 I. eapply Rle_lt_trans; [|exact I]. pose proof (pw1 prec (k + n)). pose proof (pw_mono prec (k + n) (k + n + 3) ltac:(lia)).
    replace (INR n ^ 2 * ((1 + uu) ^ (k + n + 3) * (/ INR n * m + (/ INR n * q + 3 * eta)))) with
      ((1 + uu) ^ (k + n + 3) * (INR n * (m + q) + 3 * (INR n * INR n * eta))) by (field; lra).
    apply Rmult_le_compat; try lra. assert (0 <= INR n * INR n * eta) by (apply Rmult_le_pos; nra). nra. }
  pose proof (cclose_sum prec emax Hp He L k n (fun i => nth i b (c_default Fl)) (fun i => nth i b' 0%RC) M c H (Logic.conj (W _ _ NM1 NC1 O1) (W _ _ NM2 NC2 O2))) as [SR SI].
  set (S := sum_from (c_add Fl) (c_default Fl) (fun i => nth i b (c_default Fl)) n) in *.
  assert (HS : fold_left (fun acc e => c_add Fl acc e) b (c_default Fl) = S) by exact (fold_sum_from (c_add Fl) (c_default Fl) (c_default Fl) b).
  destruct (square_val n SQ) as (DF & DV).
  unfold avg_block. rewrite LB. fold n. rewrite HS.
    assert (ZF : feqb Fl (fadd Fl (fsq Fl (fofnat Fl n)) (fsq Fl (fzero Fl))) (fzero Fl) = false).
  { destruct (feqb Fl _ _) eqn:E; [|reflexivity]. apply (Beqb_zero prec emax Hp He) in E as (_ & E). change (F Fl) with B in *. exfalso. rewrite DV in E. nra. }
  assert (D1 : c_div Fl S (c_new Fl (fofnat Fl n) (fzero Fl)) =
    Ret (mkC (fdiv Fl (fadd Fl (fmul Fl (re S) (fofnat Fl n)) (fmul Fl (im S) (fzero Fl))) (fadd Fl (fsq Fl (fofnat Fl n)) (fsq Fl (fzero Fl))))
             (fdiv Fl (fsub Fl (fmul Fl (im S) (fofnat Fl n)) (fmul Fl (re S) (fzero Fl))) (fadd Fl (fsq Fl (fofnat Fl n)) (fsq Fl (fzero Fl)))))).
  { unfold c_div. change (re (c_new Fl (fofnat Fl n) (fzero Fl))) with (fofnat Fl n). change (im (c_new Fl (fofnat Fl n) (fzero Fl))) with (fzero Fl). now rewrite ZF. }
  assert (HR : fold_left (fun acc e => c_add ROps acc e) b' (c_default ROps) = csum (fun i => nth i b' 0%RC) n).
  { rewrite <- LB. exact (fold_sum_from (c_add ROps) 0%RC 0%RC b'). }
  set (a := csum (fun i => nth i b' 0%RC) n) in *.
  assert (D2 : c_div ROps a (c_new ROps (fofnat ROps n) (fzero ROps)) = Ret (mkC (/ INR n * re a) (/ INR n * im a))).
  { unfold c_div. change (re (c_new ROps (fofnat ROps n) (fzero ROps))) with (fofnat ROps n). change (im (c_new ROps (fofnat ROps n) (fzero ROps))) with (fzero ROps).
    change (fofnat ROps n) with (IZR (Z.of_N (N.of_nat n))). rewrite nat_N_Z, <- INR_IZR_INZ. unfold fsq.
    change (feqb ROps) with Reqb. cbn [fadd fmul fdiv fsub ROps]. change (fzero ROps) with 0.
    destruct (Reqb (INR n * INR n + 0 * 0) 0) eqn:ER; [apply Reqb_eq in ER; exfalso; clear - ER NR; nra|].
    apply f_equal. destruct a as [ar ai]. cbn [re im]. change (F ROps) with R in *. f_equal; field; clear - NR; nra. }
  do 2 eexists. split; [exact D1|]. split; [rewrite HR; exact D2|].
  destruct (avg_part (k + n) n _ _ _ _ _ _ _ _ N1 SQ SR SI O1) as (T1 & _). destruct (avg_part (k + n) n _ _ _ _ _ _ _ _ N1 SQ SI SR O2) as (_ & T2).
  split; cbn [re im].
  - rewrite E1, E3. exact T1.
  - rewrite E2, E4. exact T2.
Qed.
End RoundAct.
