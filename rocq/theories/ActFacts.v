(** * Lemmas about the activation functions in exact arithmetic *)
From Coq Require Import Reals Lra Psatz.
From Coquelicot Require Import Coquelicot.
From Verif Require Import Base Float Matrix Cplx Act RFloat CFacts SpecCalculus CalcFacts.
Local Open Scope R_scope.
Local Notation re := Cplx.re.
Local Notation im := Cplx.im.

(** Saturation threshold and the logistic function. *)
Definition thr (p : prec) : R := match p with Float.P32 => 15 | Float.P64 => 30 end.
Definition hi (p : prec) : R := match p with Float.P32 => 999999 / 1000000 | Float.P64 => 99999999999999 / 100000000000000 end.
Definition lo (p : prec) : R := match p with Float.P32 => 1 / 1000000 | Float.P64 => 1 / 100000000000000 end.
Definition logistic (v : R) : R := exp v / (1 + exp v).

Lemma thr_pos : forall p, 0 < thr p.
Proof. intros []; simpl; lra. Qed.

Lemma sigmoid_R : forall p v, sigmoid ROps p v =
  if Rle_dec (thr p) v then hi p else if Rle_dec v (- thr p) then lo p else logistic v.
Proof.
  intros p v. unfold sigmoid. cbn [fleb fneg ROps]. unfold Rleb.
  replace (sig_thr ROps p) with (thr p) by (destruct p; reflexivity).
  destruct (Rle_dec (thr p) v); [destruct p; reflexivity|].
  destruct (Rle_dec v (- thr p)); [destruct p; reflexivity|]. reflexivity.
Qed.

Lemma sigmoid_mid : forall p v, - thr p < v < thr p -> sigmoid ROps p v = logistic v.
Proof.
  intros p v H. rewrite sigmoid_R. destruct (Rle_dec (thr p) v); [lra|]. destruct (Rle_dec v (- thr p)); [lra|]. reflexivity.
Qed.

Lemma logistic_range : forall v, 0 < logistic v < 1.
Proof.
  intros v. unfold logistic. pose proof (exp_pos v). split.
  - apply Rdiv_lt_0_compat; lra.
  - apply Rmult_lt_reg_r with (1 + exp v); [lra|]. unfold Rdiv. rewrite Rmult_assoc, Rinv_l by lra. lra.
Qed.

Lemma logistic_alt : forall v, logistic v = 1 - / (1 + exp v).
Proof. intros v. unfold logistic. pose proof (exp_pos v). field. lra. Qed.

Lemma logistic_increasing : forall u v, u < v -> logistic u < logistic v.
Proof.
  intros u v H. rewrite !logistic_alt. apply exp_increasing in H. pose proof (exp_pos u).
  assert (/ (1 + exp v) < / (1 + exp u)). { apply Rinv_lt_contravar; [|lra]. apply Rmult_lt_0_compat; lra. }
  lra.
Qed.

Lemma logistic_derive : forall v, is_derive logistic v (logistic v * (1 - logistic v)).
Proof.
  intros v. unfold logistic. pose proof (exp_pos v). auto_derive; [lra|]. field. lra.
Qed.

Lemma sigmoid_derive : forall p v, - thr p < v < thr p -> is_derive (sigmoid ROps p : R -> R) v (d_sigmoid ROps p v : R).
Proof.
  intros p v H. unfold d_sigmoid. cbn [fmul fsub ROps]. change (fone ROps) with 1. rewrite sigmoid_mid by auto.
  apply (is_derive_ext_loc logistic); [|apply logistic_derive].
  assert (P : 0 < Rmin (thr p - v) (v + thr p)) by (apply Rmin_pos; lra).
  exists (mkposreal _ P). intros w Hw. unfold ball in Hw; simpl in Hw. unfold AbsRing_ball, abs, minus, plus, opp in Hw; simpl in Hw.
  symmetry. apply sigmoid_mid. pose proof (Rmin_l (thr p - v) (v + thr p)). pose proof (Rmin_r (thr p - v) (v + thr p)).
  apply Rabs_def2 in Hw. lra.
Qed.

(** Powers: bounds on exp at integer points. *)
Lemma exp_INR : forall n x, exp (INR n * x) = (exp x) ^ n.
Proof.
  intros n x; induction n as [|n IH]; [simpl; now rewrite Rmult_0_l, exp_0|].
  rewrite S_INR, Rmult_plus_distr_r, exp_plus, IH, Rmult_1_l. simpl. ring.
Qed.
Lemma exp_lower : forall n, (17 / 16) ^ n <= exp (INR n / 16).
Proof.
  intros n. unfold Rdiv at 2. rewrite exp_INR. apply pow_incr. split; [lra|].
  pose proof (exp_ineq1 (/ 16) ltac:(lra)). lra.
Qed.
Lemma exp_upper : forall n, exp (INR n / 16) <= / (15 / 16) ^ n.
Proof.
  intros n. assert (E : exp (INR n / 16) = / exp (INR n * - / 16)).
  { rewrite <- exp_Ropp. f_equal. unfold Rdiv. ring. }
  rewrite E, exp_INR. apply Rinv_le_contravar; [apply pow_lt; lra|].
  apply pow_incr. split; [lra|]. pose proof (exp_ineq1 (- / 16) ltac:(lra)). lra.
Qed.

(** RITTanh *)
Lemma cosh_pos : forall x, 0 < cosh x.
Proof. intros x. unfold cosh. pose proof (exp_pos x). pose proof (exp_pos (- x)). lra. Qed.
Lemma cosh_sinh : forall x, cosh x * cosh x - sinh x * sinh x = 1.
Proof.
  intros x. unfold cosh, sinh. replace 1 with (exp x * exp (- x)); [field|].
  rewrite <- exp_plus, Rplus_opp_r. apply exp_0.
Qed.
Lemma tanh_derive : forall x, is_derive tanh x (1 / (cosh x * cosh x)).
Proof.
  intros x. pose proof (cosh_pos x). apply is_derive_Reals.
  replace (1 / (cosh x * cosh x)) with ((cosh x * cosh x - sinh x * sinh x) / Rsqr (cosh x)).
  - unfold tanh. apply (derivable_pt_lim_div sinh cosh); [apply derivable_pt_lim_sinh | apply derivable_pt_lim_cosh | lra].
  - rewrite cosh_sinh. reflexivity.
Qed.

(** Distance to an open half line. *)
Lemma near_sign : forall x u, x <> 0 -> Rabs (u - x) < Rabs x -> (0 < x -> 0 < u) /\ (x < 0 -> u < 0).
Proof.
  intros x u H K. apply Rabs_def2 in K. split; intros S.
  - rewrite Rabs_pos_eq in K by lra. lra.
  - rewrite Rabs_left in K by lra. lra.
Qed.

Lemma relu_pos : forall v, 0 < v -> relu ROps v = v.
Proof. intros v H. unfold relu. cbn [fsignneg ROps]. rewrite (proj2 (Rltb_ge v 0)) by lra. reflexivity. Qed.
Lemma relu_neg : forall v, v < 0 -> relu ROps v = 0.
Proof. intros v H. unfold relu. cbn [fsignneg ROps]. rewrite (proj2 (Rltb_lt v 0)) by lra. reflexivity. Qed.

Lemma relu_derive : forall v, v <> 0 -> is_derive (relu ROps : R -> R) v (d_relu ROps v : R).
Proof.
  intros v H. unfold d_relu. cbn [fsignneg ROps]. destruct (Rlt_dec v 0) as [N|N].
  - rewrite (proj2 (Rltb_lt v 0)) by lra. change (fzero ROps) with 0.
    apply (is_derive_ext_loc (fun _ => 0)); [|apply @is_derive_const].
    assert (P : 0 < - v) by lra. exists (mkposreal _ P). intros w Hw.
    unfold ball in Hw; simpl in Hw. unfold AbsRing_ball, abs, minus, plus, opp in Hw; simpl in Hw.
    apply Rabs_def2 in Hw. symmetry. apply relu_neg. lra.
  - rewrite (proj2 (Rltb_ge v 0)) by lra. change (fone ROps) with 1.
    apply (is_derive_ext_loc (fun x => x)); [|apply @is_derive_id].
    assert (P : 0 < v) by lra. exists (mkposreal _ P). intros w Hw.
    unfold ball in Hw; simpl in Hw. unfold AbsRing_ball, abs, minus, plus, opp in Hw; simpl in Hw.
    apply Rabs_def2 in Hw. symmetry. apply relu_pos. lra.
Qed.

(** The modulus *)
Definition nrm (x y : R) : R := sqrt (x * x + y * y).
Lemma nrm_sq : forall x y, nrm x y * nrm x y = x * x + y * y.
Proof. intros. unfold nrm. apply sqrt_sqrt. nra. Qed.
Lemma nrm_pos : forall x y, (x <> 0 \/ y <> 0) -> 0 < nrm x y.
Proof.
  intros x y H. unfold nrm. apply sqrt_lt_R0. destruct H; [assert (0 < x * x) by nra | assert (0 < y * y) by nra]; nra.
Qed.

Lemma dpl_inv_nrm : forall x y, (x <> 0 \/ y <> 0) ->
  differentiable_pt_lim (fun u v => / nrm u v) x y (- x / (nrm x y) ^ 3) (- y / (nrm x y) ^ 3).
Proof.
  intros x y H. pose proof (nrm_pos x y H) as N. pose proof (nrm_sq x y) as S.
  assert (P : 0 < x * x + y * y) by nra.
  assert (D : is_derive (fun w => / sqrt w) (x * x + y * y) (- / (2 * (nrm x y) ^ 3))).
  { unfold nrm in *. auto_derive; [lra|]. set (n := sqrt (x * x + y * y)) in *. field. lra. }
  assert (Q : differentiable_pt_lim (fun u v => u * u + v * v) x y (2 * x) (2 * y)).
  { eapply dpl_cast; [apply dpl_plus; apply dpl_mult; try apply dpl_id_fst; apply dpl_id_snd | cbv beta; ring | cbv beta; ring]. }
  eapply dpl_cast; [exact (dpl_comp1 (fun w => / sqrt w) (fun u v => u * u + v * v) x y _ _ _ D Q) | |]; field; lra.
Qed.

Lemma dpl_cos : forall x y, (x <> 0 \/ y <> 0) ->
  differentiable_pt_lim (fun u v => u / nrm u v) x y (y * y / (nrm x y) ^ 3) (- (x * y) / (nrm x y) ^ 3).
Proof.
  intros x y H. pose proof (nrm_pos x y H) as N. pose proof (nrm_sq x y) as S. unfold Rdiv at 1.
  eapply dpl_cast; [apply dpl_mult; [apply dpl_id_fst | now apply dpl_inv_nrm] | |]; cbv beta.
  - replace (y * y) with (nrm x y * nrm x y - x * x) by lra. field. lra.
  - field. lra.
Qed.
Lemma dpl_sin : forall x y, (x <> 0 \/ y <> 0) ->
  differentiable_pt_lim (fun u v => v / nrm u v) x y (- (x * y) / (nrm x y) ^ 3) (x * x / (nrm x y) ^ 3).
Proof.
  intros x y H. pose proof (nrm_pos x y H) as N. pose proof (nrm_sq x y) as S. unfold Rdiv at 1.
  eapply dpl_cast; [apply dpl_mult; [apply dpl_id_snd | now apply dpl_inv_nrm] | |]; cbv beta.
  - field. lra.
  - replace (x * x) with (nrm x y * nrm x y - y * y) by lra. field. lra.
Qed.

Lemma c_norm_nrm : forall z : RC, c_norm ROps z = nrm (re z) (im z).
Proof. reflexivity. Qed.

Lemma nonzero_local : forall x y, (x <> 0 \/ y <> 0) -> locally_2d (fun u v => u <> 0 \/ v <> 0) x y.
Proof.
  intros x y [H|H].
  - apply (locally_2d_open _ _ _ (Rabs x)); [now apply Rabs_pos_lt|]. intros u v Hu _. left.
    destruct (near_sign x u H Hu). destruct (Rlt_dec 0 x); lra.
  - apply (locally_2d_open _ _ _ (Rabs y)); [now apply Rabs_pos_lt|]. intros u v _ Hv. right.
    destruct (near_sign y v H Hv). destruct (Rlt_dec 0 y); lra.
Qed.

Lemma mod_z_ok : forall x y : R, (x <> 0 \/ y <> 0) ->
  mod_z ROps (mkC x y) = Ret (mkC (x / nrm x y) (y / nrm x y)).
Proof.
  intros x y H. pose proof (nrm_pos x y H) as N. unfold mod_z, c_div, c_new. rewrite c_norm_nrm. cbn [re im].
  unfold fsq. cbn [feqb fadd fmul fsub fdiv ROps]. change (fzero ROps) with 0.
  rewrite (proj2 (Reqb_neq _ _)) by nra. do 2 f_equal; field; lra.
Qed.

Lemma mod_z_zero : mod_z ROps (mkC 0 0) = Panic.
Proof.
  unfold mod_z, c_div, c_new. rewrite c_norm_nrm. cbn [re im].
  unfold fsq. cbn [feqb fadd fmul fsub fdiv ROps]. change (fzero ROps) with 0.
  rewrite nrm_sq, (proj2 (Reqb_eq _ _)) by ring. reflexivity.
Qed.

Lemma d_conj_mod_z_ok : forall x y : R, (x <> 0 \/ y <> 0) ->
  d_conj_mod_z ROps (mkC x y) = Ret (mkC ((y * y - x * x) / (2 * nrm x y ^ 3)) (- (x * y) / nrm x y ^ 3)).
Proof.
  intros x y H. pose proof (nrm_pos x y H) as N. pose proof (nrm_sq x y) as S.
  unfold d_conj_mod_z, c_div, c_new, c_conj. rewrite c_norm_nrm. cbn [re im].
  unfold fsq. cbn [feqb fadd fmul fsub fdiv fneg ROps]. change (fzero ROps) with 0. change (ftwo ROps) with 2.
  rewrite (proj2 (Reqb_neq _ _)) by nra. cbn [obind re im]. rewrite (proj2 (Reqb_neq _ _)) by nra.
  replace (x * x + - y * - y) with (nrm x y * nrm x y) by (rewrite S; ring).
  do 2 f_equal; field; lra.
Qed.

Lemma wirtinger_modz : forall x y, (x <> 0 \/ y <> 0) ->
  wirtinger (fun w => mkC (re w / nrm (re w) (im w)) (im w / nrm (re w) (im w))) (mkC x y)
    (mkC (1 / (2 * nrm x y)) 0) (mkC ((y * y - x * x) / (2 * nrm x y ^ 3)) (- (x * y) / nrm x y ^ 3)).
Proof.
  intros x y H. pose proof (nrm_pos x y H) as N. pose proof (nrm_sq x y) as S.
  exists (y * y / (nrm x y) ^ 3), (- (x * y) / (nrm x y) ^ 3), (- (x * y) / (nrm x y) ^ 3), (x * x / (nrm x y) ^ 3).
  cbn [re im]. split; [now apply dpl_cos|]. split; [now apply dpl_sin|].
  split; f_equal.
  - replace (x * x) with (nrm x y * nrm x y - y * y) by lra. field. lra.
  - field. lra.
  - field. lra.
  - field. lra.
Qed.
