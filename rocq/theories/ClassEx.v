(** * Two networks for C89 *)
From Coq Require Import ZArith Reals Lra Psatz.
From Flocq Require Import Core BinarySingleNaN.
From Verif Require Import Base BaseFacts Float Matrix Cplx Act Input Dense Conv Layer Dataset Network RFloat BFloat BFacts CFacts SpecMatrix SpecLayer SpecGeom SpecRound SpecLip SpecEval
  RoundFacts RoundAct RoundNet LipFacts LipNum NetFacts PropDense PropEval SpecClass ClassFacts.
Local Notation re := Cplx.re. Local Notation im := Cplx.im.
Local Notation P32 := Float.P32.
Local Open Scope R_scope.

Ltac value := apply c_ext; cbn; unfold F2R; cbn; match goal with |- ?x = ?y => change (@eq R x y) end; change (F ROps) with R in *; lra.

Section ClassEx.
Context (L : libm (binary_float 24 128)).
Local Notation Fl := (B32Ops L).
Local Notation C32 := (cplx (binary_float 24 128)).

(** Two units with one input, no bias and no activation. *)
Definition two_units (a b : C32) : network Fl :=
  [LDense (mkDense Fl (from_body [a; b] 2 1) [mkC (B754_zero false) (B754_zero false); mkC (B754_zero false) (B754_zero false)] ActNone)].

Lemma two_units_fit : forall a b, fit_all Fl (two_units a b) (Vec 1) (Vec 2).
Proof. intros a b. econstructor; [refine (fits_dense Fl _ _ _); [split; [reflexivity | split; [reflexivity | discriminate]] | discriminate]|]. constructor. Qed.

Lemma two_units_covered : forall a b, cfinite a -> cfinite b -> Forall (covered 24 128 prec24 emax128 L) (two_units a b).
Proof. intros a b A B. constructor; [|constructor]. split; [now left|]. split; repeat constructor; auto; apply A || apply B. Qed.

Lemma two_units_exact : forall a b x : C32, predicts ROps P32 (map (exact_layer 24 128 prec24 emax128 L) (two_units a b)) (ioval (IOScalar [x])) [(cval a * cval x)%RC; (cval b * cval x)%RC].
Proof.
  intros a b x. unfold predicts, two_units. cbn [map ioval]. rewrite forward_fold by discriminate. cbn [foldM].
  erewrite (fwd_ok ROps P32); [reflexivity|]. cbn [exact_layer layer_forward]. apply (C40_forward ROps P32); [split; [reflexivity | split; [reflexivity | discriminate]] | reflexivity|].
  split; [reflexivity|]. intros [|[|i]] I; [| |cbn in I; lia]; cbn [nth activate d_func]; f_equal; apply c_ext; cbn; ring.
Qed.

(** The squared modulus of the second output, 1 + 2^-26, is rounded to 1. *)
Definition one32 : C32 := mkC (@B754_finite 24 128 false 8388608 (-23) eq_refl) (B754_zero false).
Definition bit32 : C32 := mkC (@B754_finite 24 128 false 8388608 (-23) eq_refl) (@B754_finite 24 128 false 8388608 (-36) eq_refl).

Lemma hidden : exists y r, predicts Fl P32 (two_units one32 bit32) (IOScalar [one32]) y /\
  predicts ROps P32 (map (exact_layer 24 128 prec24 emax128 L) (two_units one32 bit32)) (ioval (IOScalar [one32])) r /\ max_index Fl y = 0%nat /\ max_index ROps r = 1%nat.
Proof.
  assert (H : match net_forward Fl P32 (two_units one32 bit32) (IOScalar [one32]) with Ret (Ok (IOScalar y)) => (max_index Fl y =? 0)%nat | _ => false end = true) by (vm_compute; reflexivity).
  unfold predicts. destruct (net_forward Fl P32 (two_units one32 bit32) (IOScalar [one32])) as [[[y|]|]|]; try discriminate. apply Nat.eqb_eq in H.
  exists y, [(cval one32 * cval one32)%RC; (cval bit32 * cval one32)%RC]. split; [reflexivity|]. split; [apply two_units_exact|]. split; [exact H|].
  apply leader; [cbn; lia|]. intros [|[|j]] J NJ; cbn in J; try lia. cbn [nth].
  assert (V1 : cval one32 = (1%RC : RC)) by value.
  assert (V2 : cval bit32 = (mkC 1 (/ 8192) : RC)) by value. rewrite V1, V2.
  replace (1 * 1)%RC with (1%RC : RC) by (apply c_ext; cbn; ring). replace (c_mul ROps (mkC 1 (/ 8192)) 1%RC) with (mkC 1 (/ 8192) : RC) by (apply c_ext; cbn; ring).
  unfold modulus. cbn. apply sqrt_lt_1; lra.
Qed.

(** Weights (-3 + 3i)/2 and 0 and the input (3 - 3i)/2. *)
Definition q32 (s : bool) : binary_float 24 128 := @B754_finite 24 128 s 12582912 (-23) eq_refl.
Definition v32 (s : bool) : C32 := mkC (q32 s) (q32 (negb s)).
Definition o32 : C32 := mkC (B754_zero false) (B754_zero false).

Lemma l1 : forall z : RC, modulus z <= Rabs (re z) + Rabs (im z).
Proof.
  intros z. unfold modulus. rewrite <- (sqrt_square (Rabs (re z) + Rabs (im z))) by (pose proof (Rabs_pos (re z)); pose proof (Rabs_pos (im z)); lra).
  apply sqrt_le_1_alt. pose proof (Rabs_pos (re z)). pose proof (Rabs_pos (im z)).
  rewrite <- (Rabs_pos_eq (re z * re z)), <- (Rabs_pos_eq (im z * im z)), !Rabs_mult by nra. nra.
Qed.

Lemma apparent : forall et ee, clear_input 24 128 prec24 emax128 L P32 et ee (two_units (v32 true) o32) (Vec 1) (IOScalar [v32 false]).
Proof.
  intros et ee. destruct units_values as ((U & E & O) & _).
  assert (VT : cval (v32 true) = (mkC (- (3 / 2)) (3 / 2) : RC)) by value.
  assert (VF : cval (v32 false) = (mkC (3 / 2) (- (3 / 2)) : RC)) by value.
  assert (VZ : cval o32 = (0%RC : RC)) by value.
  assert (A1 : Rabs (3 / 2) = 3 / 2) by (apply Rabs_pos_eq; lra). assert (A2 : Rabs (- (3 / 2)) = 3 / 2) by (rewrite Rabs_Ropp; exact A1).
  assert (CA : cabs (cval (v32 false)) = (mkC (3 / 2) (3 / 2) : RC)) by (rewrite VF; unfold cabs; cbn [Cplx.re Cplx.im]; now rewrite A1, A2).
  assert (PM : pre_mag 24 128 prec24 emax128 L (hd (LFlatten (mkFlat 0 0 0)) (two_units (v32 true) o32)) (Vec 1) (input_budget 24 128 (IOScalar [v32 false])) = [mkC (9 / 2) (9 / 2); mkC 0 0]%R).
  { unfold pre_mag, through, two_units, input_budget. cbn [hd mag vals map]. unfold units, inputs, weight, entry. cbn [d_weights d_biases from_body sh0 sh1 body seq map].
    cbn [Nat.mul Nat.add]. cbn [nth]. fold o32. change (nth 1 [v32 true; o32] (c_default Fl)) with o32. unfold csum, sum_from. cbn [seq fold_left nth]. rewrite VT, VZ, CA.
    unfold amul, cabs. cbn [Cplx.re Cplx.im]. rewrite A1, A2. change (re 0%RC) with 0. change (im 0%RC) with 0. rewrite Rabs_R0.
    repeat (f_equal; try value). }
  assert (PS : pre_slack 24 128 prec24 emax128 L (hd (LFlatten (mkFlat 0 0 0)) (two_units (v32 true) o32)) (Vec 1) (input_budget 24 128 (IOScalar [v32 false])) =
    [mkC (3 * SpecRound.eta 24 128) (3 * SpecRound.eta 24 128); mkC (3 * SpecRound.eta 24 128) (3 * SpecRound.eta 24 128)]%R).
  { unfold pre_slack, through, two_units, input_budget. cbn [hd slack vals map]. unfold units, inputs, weight, entry. cbn [d_weights d_biases from_body sh0 sh1 body seq map].
    cbn [Nat.mul Nat.add]. cbn [nth]. fold o32. unfold csum, sum_from. cbn [seq fold_left nth]. set (h := SpecRound.eta 24 128).
    unfold amul, both. cbn [Cplx.re Cplx.im]. change (re 0%RC) with 0. change (im 0%RC) with 0.
    rewrite !Rmult_0_r, !Rplus_0_r. f_equal; [|f_equal]; apply c_ext; cbn [c_add Cplx.re Cplx.im fadd ROps]; change (re 0%RC) with 0; change (im 0%RC) with 0;
      match goal with |- ?x = ?y => change (@eq R x y) end; change (F ROps) with R in *; ring. }
  split; [reflexivity|]. split; [repeat constructor|]. split.
  - split; [|exact I]. intros i Hi. change (hd (LFlatten (mkFlat 0 0 0)) (two_units (v32 true) o32)) with (nth 0 (two_units (v32 true) o32) (LFlatten (mkFlat 0 0 0))) in *.
    unfold two_units in *. cbn [nth] in *. rewrite PM, PS, U, E, O. cbn [layer_peak order input_budget layer_order].
    unfold inputs; cbn [d_weights from_body sh1 Nat.add].
    destruct i as [|[|i]]; cbn [nth Cplx.re Cplx.im]; [| |cbn in Hi; lia]; split; lra.
  - intros r P. pose proof (two_units_exact (v32 true) o32 (v32 false)) as P'. unfold predicts in *. rewrite P in P'. injection P' as ->.
    exists 0%nat.
    assert (R0 : radius 24 (net_budget 24 128 prec24 emax128 L P32 et ee (two_units (v32 true) o32) (Vec 1) (input_budget 24 128 (IOScalar [v32 false]))) 0 <= / 1000).
    { unfold radius. cbv zeta. unfold two_units in *. cbn [net_budget hd] in *. unfold layer_budget. cbn [order mag slack]. rewrite PM, PS.
      cbn [layer_order layer_func d_func act_gain act_slack map nth order input_budget]. unfold inputs; cbn [d_weights from_body sh1 Nat.add].
      eapply Rle_trans; [apply l1|]. unfold both. cbn [c_add Cplx.re Cplx.im fadd ROps]. rewrite U, E. rewrite !Rabs_pos_eq by lra. lra. }
    assert (R1 : radius 24 (net_budget 24 128 prec24 emax128 L P32 et ee (two_units (v32 true) o32) (Vec 1) (input_budget 24 128 (IOScalar [v32 false]))) 1 <= / 1000).
    { unfold radius. cbv zeta. unfold two_units in *. cbn [net_budget hd] in *. unfold layer_budget. cbn [order mag slack]. rewrite PM, PS.
      cbn [layer_order layer_func d_func act_gain act_slack map nth order input_budget]. unfold inputs; cbn [d_weights from_body sh1 Nat.add].
      eapply Rle_trans; [apply l1|]. unfold both. cbn [c_add Cplx.re Cplx.im fadd ROps]. rewrite U, E. rewrite !Rabs_pos_eq by lra. lra. }
    pose proof (modulus_pos : forall z, _) as MP.
    match goal with |- leads _ _ ?b _ _ => set (bb := b) in * end.
    assert (Q0 : 0 <= radius 24 bb 0) by apply MP. assert (Q1 : 0 <= radius 24 bb 1) by apply MP.
    assert (M0 : modulus (cval (v32 true) * cval (v32 false))%RC = 9 / 2).
    { rewrite VT, VF. replace (c_mul ROps (mkC (- (3 / 2)) (3 / 2)) (mkC (3 / 2) (- (3 / 2)))) with (mkC 0 (9 / 2) : RC); [apply mod_im; lra|]. value. }
    assert (M1 : modulus (cval o32 * cval (v32 false))%RC = 0).
    { rewrite VZ, <- modulus_zero. f_equal. ring. }
    split; [cbn; lia|]. cbn [nth]. rewrite M0. split; [lra|]. unfold sq_above, sq_below. rewrite U, E, O. split; [nra|].
    intros [|[|j]] J NJ; cbn in J; try lia. cbn [nth]. rewrite M1. nra.
Qed.
End ClassEx.

Lemma one_hot : clear_target 24 128 [one32; o32].
Proof.
  destruct units_values as ((U & E & O) & _). split; [repeat constructor|]. exists 0%nat.
  assert (V1 : cval one32 = (mkC 1 0 : RC)) by value. assert (VZ : cval o32 = (mkC 0 0 : RC)) by value.
  assert (RD : forall i, (i < 2)%nat -> radius 24 (input_budget 24 128 (IOScalar [one32; o32])) i = 0).
  { intros i I. unfold radius, input_budget. cbn [order mag slack vals map pow]. rewrite <- modulus_zero. f_equal.
    assert (Z0 : nth i [0%RC; 0%RC] 0%RC = 0%RC) by (destruct i as [|[|[|i]]]; reflexivity). rewrite Z0. apply c_ext; cbn [Cplx.re Cplx.im]; change (re 0%RC) with 0; change (im 0%RC) with 0;
      match goal with |- ?x = ?y => change (@eq R x y) end; ring. }
  cbn [map]. rewrite V1, VZ. unfold leads. cbn [length nth]. rewrite (RD 0%nat) by lia. rewrite mod_re by lra. split; [lia|]. split; [lra|]. unfold sq_above, sq_below. rewrite U, E, O.
  split; [lra|]. intros [|[|j]] J NJ; try lia. rewrite (RD 1%nat) by lia. cbn [nth]. rewrite mod_re by lra. lra.
Qed.
