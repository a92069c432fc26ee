(** * Properties C29-C32: activation functions *)
From Coq Require Import Reals Lra Psatz.
From Coquelicot Require Import Coquelicot.
From Verif Require Import Base BaseFacts Float Matrix Cplx Act RFloat CFacts SpecCalculus CalcFacts ActFacts PropComplex.
Local Open Scope R_scope.
Local Notation P32 := Float.P32.
Local Notation P64 := Float.P64.
Local Notation re := Cplx.re.
Local Notation im := Cplx.im.

(** ** C29 *)
(** [ys] is the image of [xs] under the (possibly panicking) function [f]. *)
Definition pointwise {A} (f : A -> outcome A) (xs ys : list A) : Prop :=
  length ys = length xs /\
  forall i x, nth_error xs i = Some x -> exists y, f x = Ret y /\ nth_error ys i = Some y.

Lemma mapM_pointwise : forall {A} (f : A -> outcome A) xs,
  (forall ys, mapM f xs = Ret ys <-> pointwise f xs ys) /\
  (mapM f xs = Panic <-> exists x, In x xs /\ f x = Panic).
Proof.
  intros A f xs. induction xs as [|x xs [IH1 IH2]].
  - split.
    + intros ys. cbn [mapM]. split.
      * intros H. injection H as <-. split; auto. intros [|i] x; discriminate.
      * intros [L _]. destruct ys; [reflexivity | discriminate].
    + cbn [mapM]. split; [discriminate | intros [x [[] _]]].
  - split.
    + intros ys. cbn [mapM]. split.
      * intros H. destruct (f x) as [y|] eqn:E; [|discriminate]. cbn [obind] in H.
        destruct (mapM f xs) as [zs|] eqn:E2; [|discriminate]. cbn [obind] in H. injection H as <-.
        destruct (proj1 (IH1 zs) eq_refl) as [L K]. split; [cbn; lia|].
        intros [|i] w Hw; cbn [nth_error] in *; [injection Hw as <-; eauto | auto].
      * intros [L K]. destruct ys as [|y ys]; [discriminate|]. destruct (K 0%nat x eq_refl) as [y' [E1 E2]].
        injection E2 as ->. rewrite E1. cbn [obind].
        rewrite (proj2 (IH1 ys)); [reflexivity|]. split; [cbn in L; lia|].
        intros i w Hw. apply (K (S i) w Hw).
    + cbn [mapM]. split.
      * intros H. destruct (f x) as [y|] eqn:E; [|exists x; split; [left; auto | auto]]. cbn [obind] in H.
        destruct (mapM f xs) as [zs|] eqn:E2; [discriminate|].
        destruct (proj1 IH2 eq_refl) as [w [W1 W2]]. exists w. split; [right; auto | auto].
      * intros [w [[->|W1] W2]]; [now rewrite W2|]. destruct (f x); [cbn [obind] | reflexivity].
        rewrite (proj2 IH2); [reflexivity | eauto].
Qed.

Theorem C29_pointwise : forall Fl p f (xs : list (cplx (F Fl))),
  (forall ys, activate_mut Fl p f xs = Ret ys <-> pointwise (activate Fl p f) xs ys) /\
  (forall ys, d_activate_mut Fl p f xs = Ret ys <-> pointwise (d_activate Fl p f) xs ys) /\
  (forall ys, d_conj_activate_mut Fl p f xs = Ret ys <-> pointwise (d_conj_activate Fl p f) xs ys) /\
  (activate_mut Fl p f xs = Panic <-> exists x, In x xs /\ activate Fl p f x = Panic) /\
  d_activate_mut Fl p f xs <> Panic /\
  (d_conj_activate_mut Fl p f xs = Panic <-> exists x, In x xs /\ d_conj_activate Fl p f x = Panic).
Proof.
  intros. split; [apply mapM_pointwise|]. split; [apply mapM_pointwise|]. split; [apply mapM_pointwise|].
  split; [apply mapM_pointwise|]. split; [|apply mapM_pointwise].
  intros H. apply mapM_pointwise in H as [x [_ H]]. destruct f; discriminate.
Qed.
Print Assumptions C29_pointwise.

(** Only ModZ can panic, and in exact arithmetic only at zero. *)
Theorem C29_only_modz : forall Fl p f (x : cplx (F Fl)),
  activate Fl p f x = Panic \/ d_conj_activate Fl p f x = Panic -> f = ModZ.
Proof. intros Fl p f x [H|H]; destruct f; auto; discriminate. Qed.
Print Assumptions C29_only_modz.

Theorem C29_modz_exact : forall p (z : RC),
  (activate ROps p ModZ z = Panic <-> z = mkC 0 0) /\ (d_conj_activate ROps p ModZ z = Panic <-> z = mkC 0 0).
Proof.
  intros p [x y]. cbn [activate d_conj_activate].
  destruct (Req_dec x 0) as [Hx|Hx]; [destruct (Req_dec y 0) as [Hy|Hy]|].
  - subst. split; split; auto; intros _; [apply mod_z_zero|].
    unfold d_conj_mod_z, c_div, c_conj, fsq. cbn [re im feqb fadd fmul fneg ROps]. change (fzero ROps) with 0.
    rewrite (proj2 (Reqb_eq _ _)) by ring. reflexivity.
  - rewrite mod_z_ok, d_conj_mod_z_ok by auto. split; split; try discriminate; intros H; inversion H; contradiction.
  - rewrite mod_z_ok, d_conj_mod_z_ok by auto. split; split; try discriminate; intros H; inversion H; contradiction.
Qed.
Print Assumptions C29_modz_exact.

Example C29_ex : activate_mut ROps P32 ActNone [mkC 1 2; mkC 3 4] = Ret [mkC 1 2; mkC 3 4]
  /\ activate_mut ROps P32 ModZ [mkC 1 2; mkC 0 0] = Panic.
Proof.
  split; [reflexivity|]. apply (C29_pointwise ROps P32 ModZ). exists (mkC 0 0). split; [right; left; auto|].
  now apply C29_modz_exact.
Qed.

(** ** C30 *)
(** Where the activation functions are differentiable (Cardioid: see C31). *)
Definition smooth (p : prec) (f : ComplexActFunc) (z : RC) : Prop :=
  match f with
  | ActNone | RITTanh => True
  | RITSigmoid => Rabs (re z) < (match p with P32 => 15 | P64 => 30 end) /\
                  Rabs (im z) < (match p with P32 => 15 | P64 => 30 end)
  | RITReLU => re z <> 0 /\ im z <> 0
  | ZReLU => re z < 0 \/ im z < 0 \/ (0 < re z /\ 0 < im z)
  | ModZ => z <> mkC 0 0
  | Cardioid => False
  end.

Lemma half_R : fhalf ROps = 1 / 2.
Proof. unfold fhalf. cbn [flit ROps]. unfold Rlit. lra. Qed.

Theorem C30_wirtinger : forall p f (z : RC), smooth p f z ->
  exists d dc, d_activate ROps p f z = Ret d /\ d_conj_activate ROps p f z = Ret dc /\
    wirtinger_at (activate ROps p f) z d dc.
Proof.
  intros p f z H. destruct f; cbn [activate d_activate d_conj_activate smooth] in *.
  - do 2 eexists. split; [reflexivity|]. split; [reflexivity|]. exists (fun w => w).
    split; [now apply locally_2d_forall|]. apply wirtinger_id.
  - destruct z as [x y].
    assert (N : x <> 0 \/ y <> 0).
    { destruct (Req_dec x 0), (Req_dec y 0); subst; auto; exfalso; apply H; reflexivity. }
    rewrite d_conj_mod_z_ok by auto. do 2 eexists. split; [reflexivity|]. split; [reflexivity|].
    exists (fun w => mkC (re w / nrm (re w) (im w)) (im w / nrm (re w) (im w))). split.
    + generalize (nonzero_local x y N). apply l2d_mono. intros u v K. cbn [activate]. now rewrite mod_z_ok.
    + apply wirtinger_modz, N.
  - do 2 eexists. split; [reflexivity|]. split; [reflexivity|].
    exists (ritsigmoid ROps p). split; [now apply locally_2d_forall|].
    assert (T : - thr p < re z < thr p /\ - thr p < im z < thr p).
    { destruct H as [H1 H2]. destruct p; unfold thr; apply Rabs_def2 in H1, H2; lra. }
    unfold d_ritsigmoid, d_conj_ritsigmoid. rewrite half_R. change (fzero ROps) with 0. cbn [fadd fmul fsub ROps].
    pose proof (wirtinger_split (sigmoid ROps p) z _ _ (sigmoid_derive p (re z) (proj1 T)) (sigmoid_derive p (im z) (proj2 T))) as W.
    replace ((d_sigmoid ROps p (re z) + d_sigmoid ROps p (im z)) * (1 / 2)) with ((d_sigmoid ROps p (re z) + d_sigmoid ROps p (im z)) / 2) by field.
    replace ((d_sigmoid ROps p (re z) - d_sigmoid ROps p (im z)) * (1 / 2)) with ((d_sigmoid ROps p (re z) - d_sigmoid ROps p (im z)) / 2) by field.
    exact W.
  - do 2 eexists. split; [reflexivity|]. split; [reflexivity|].
    exists (rittanh ROps). split; [now apply locally_2d_forall|].
    unfold d_rittanh, d_conj_rittanh, fsq. rewrite half_R. change (fzero ROps) with 0. change (fone ROps) with 1.
    cbn [fadd fmul fsub fdiv fcosh ROps].
    pose proof (wirtinger_split tanh z _ _ (tanh_derive (re z)) (tanh_derive (im z))) as W.
    set (a := 1 / (cosh (re z) * cosh (re z))) in *. set (b := 1 / (cosh (im z) * cosh (im z))) in *.
    replace ((a + b) * (1 / 2)) with ((a + b) / 2) by field. replace ((a - b) * (1 / 2)) with ((a - b) / 2) by field.
    exact W.
  - do 2 eexists. split; [reflexivity|]. split; [reflexivity|].
    exists (ritrelu ROps). split; [now apply locally_2d_forall|].
    unfold d_ritrelu, d_conj_ritrelu. rewrite half_R. change (fzero ROps) with 0. cbn [fadd fmul fsub ROps].
    pose proof (wirtinger_split (relu ROps) z _ _ (relu_derive (re z) (proj1 H)) (relu_derive (im z) (proj2 H))) as W.
    set (a := d_relu ROps (re z)) in *. set (b := d_relu ROps (im z)) in *.
    replace ((a + b) * (1 / 2)) with ((a + b) / 2) by field. replace ((a - b) * (1 / 2)) with ((a - b) / 2) by field.
    exact W.
  - do 2 eexists. split; [reflexivity|]. split; [reflexivity|].
    exists (zrelu ROps). split; [now apply locally_2d_forall|].
    destruct z as [x y]. unfold d_zrelu, d_conj_zrelu. cbn [re im fsignneg ROps] in *. change (fzero ROps) with 0. change (fone ROps) with 1.
    assert (N : x < 0 \/ y < 0 -> wirtinger (zrelu ROps) (mkC x y) (mkC 0 0) (mkC 0 0)).
    { intros K. apply (wirtinger_ext_loc (fun _ => mkC 0 0)); [|apply wirtinger_const]. destruct K as [K|K].
      - apply (locally_2d_open _ _ _ (- x)); [lra|]. intros u v Hu _. apply Rabs_def2 in Hu.
        unfold zrelu. cbn [re im fsignneg ROps]. cbn [re] in Hu. rewrite (proj2 (Rltb_lt u 0)) by lra. reflexivity.
      - apply (locally_2d_open _ _ _ (- y)); [lra|]. intros u v _ Hv. apply Rabs_def2 in Hv.
        unfold zrelu. cbn [re im fsignneg ROps]. cbn [im] in Hv. rewrite (proj2 (Rltb_lt v 0)), orb_true_r by lra. reflexivity. }
    destruct H as [H|[H|[H1 H2]]].
    + rewrite (proj2 (Rltb_lt x 0)) by lra. cbn [orb]. auto.
    + rewrite (proj2 (Rltb_lt y 0)), orb_true_r by lra. auto.
    + rewrite (proj2 (Rltb_ge x 0)), (proj2 (Rltb_ge y 0)) by lra. cbn [orb].
      apply (wirtinger_ext_loc (fun w => w)); [|apply wirtinger_id].
      apply (locally_2d_open _ _ _ (Rmin x y)); [now apply Rmin_pos|]. cbn [re im]. intros u v Hu Hv.
      apply Rabs_def2 in Hu, Hv. pose proof (Rmin_l x y). pose proof (Rmin_r x y).
      unfold zrelu. cbn [re im fsignneg ROps]. rewrite (proj2 (Rltb_ge u 0)), (proj2 (Rltb_ge v 0)) by lra. reflexivity.
  - contradiction.
Qed.
Print Assumptions C30_wirtinger.

(** The derivatives are unique, so the theorem pins down both values. *)
Theorem C30_unique : forall f z d dc d' dc', wirtinger_at f z d dc -> wirtinger_at f z d' dc' -> d = d' /\ dc = dc'.
Proof. exact wirtinger_at_unique. Qed.
Print Assumptions C30_unique.

(** Beyond the saturation threshold RITSigmoid is constant but d_activate is
    not zero. *)
Theorem C30_saturated_refuted : forall p (z : RC),
  (match p with P32 => 15 | P64 => 30 end) < re z -> (match p with P32 => 15 | P64 => 30 end) < im z ->
  wirtinger_at (activate ROps p RITSigmoid) z (mkC 0 0) (mkC 0 0) /\
  d_activate ROps p RITSigmoid z <> Ret (mkC 0 0).
Proof.
  intros p [x y] H1 H2. cbn [re im] in H1, H2. change (match p with P32 => 15 | P64 => 30 end) with (thr p) in *. split.
  - exists (ritsigmoid ROps p). split; [now apply locally_2d_forall|].
    apply (wirtinger_ext_loc (fun _ => mkC (hi p) (hi p))); [|apply wirtinger_const].
    apply (locally_2d_open _ _ _ (Rmin (x - thr p) (y - thr p))); [apply Rmin_pos; lra|].
    cbn [re im]. intros u v Hu Hv. apply Rabs_def2 in Hu, Hv. pose proof (Rmin_l (x - thr p) (y - thr p)).
    pose proof (Rmin_r (x - thr p) (y - thr p)). unfold ritsigmoid. cbn [re im].
    rewrite !sigmoid_R. destruct (Rle_dec (thr p) u); [|exfalso; lra]. destruct (Rle_dec (thr p) v); [reflexivity|exfalso; lra].
  - cbn [d_activate]. unfold d_ritsigmoid, d_sigmoid. rewrite half_R. cbn [fadd fmul fsub ROps]. change (fone ROps) with 1.
    cbn [re im]. rewrite !sigmoid_R. destruct (Rle_dec (thr p) x); [|exfalso; lra]. destruct (Rle_dec (thr p) y); [|exfalso; lra].
    intros H. injection H as H. destruct p; unfold hi in H; lra.
Qed.
Print Assumptions C30_saturated_refuted.

Example C30_ex : smooth P32 RITSigmoid (mkC 1 (-2)) /\ smooth P64 ZReLU (mkC 1 2) /\ smooth P32 ModZ (mkC 0 1)
  /\ smooth P32 RITReLU (mkC (-3) 4).
Proof.
  cbn [smooth re im]. repeat split; try lra; try (apply Rabs_def1; lra).
  intros H. inversion H. lra.
Qed.

(** ** C31 *)
Lemma phase32 : forall x y : R, (x <> 0 \/ y <> 0) ->
  cos (c_phase ROps P32 (mkC x y)) = x / nrm x y /\ sin (c_phase ROps P32 (mkC x y)) = y / nrm x y.
Proof.
  intros x y H. pose proof (nrm_pos x y H) as N.
  destruct (C04_cf32 (mkC x y)) as [E _].
  { intros K. inversion K. destruct H; contradiction. }
  pose proof (f_equal re E) as E1. pose proof (f_equal im E) as E2. clear E.
  unfold c_newe in E1, E2. rewrite c_norm_nrm in E1, E2. cbn [re im fmul fcos fsin ROps] in E1, E2.
  split; apply (Rmult_eq_reg_l (nrm x y)); try lra.
  - rewrite E1. field. lra.
  - rewrite E2. field. lra.
Qed.

Lemma phase64 : forall x y : R, x <> 0 ->
  cos (c_phase ROps P64 (mkC x y)) = Rabs x / nrm x y /\ sin (c_phase ROps P64 (mkC x y)) = (Rabs x / x) * (y / nrm x y).
Proof.
  intros x y H. pose proof (nrm_pos x y (or_introl H)) as N. destruct (atan_polar x y H) as [E1 E2].
  unfold c_phase. cbn [fatan fdiv ROps re im]. fold (nrm x y) in E1, E2.
  split; [rewrite <- E1; field; lra|]. apply (Rmult_eq_reg_l (nrm x y)); [|lra]. rewrite E2. field. lra.
Qed.

(** Cardioid as a function of the direction (c, s) of its argument. *)
Definition card_dir (c s : R) : RC := mkC (2 * (1 + c) * c) (2 * (1 + c) * s).

Lemma wirtinger_card : forall x y, (x <> 0 \/ y <> 0) ->
  let n := nrm x y in let c := x / n in let s := y / n in
  let ux := 2 * (1 + 2 * c) * (y * y / n ^ 3) in let uy := 2 * (1 + 2 * c) * (- (x * y) / n ^ 3) in
  let vx := 2 * (s * (y * y / n ^ 3) + (1 + c) * (- (x * y) / n ^ 3)) in
  let vy := 2 * (s * (- (x * y) / n ^ 3) + (1 + c) * (x * x / n ^ 3)) in
  wirtinger (fun w => card_dir (re w / nrm (re w) (im w)) (im w / nrm (re w) (im w))) (mkC x y)
    (mkC ((ux + vy) / 2) ((vx - uy) / 2)) (mkC ((ux - vy) / 2) ((vx + uy) / 2)).
Proof.
  intros x y H n c s ux uy vx vy. exists ux, uy, vx, vy. unfold card_dir. cbn [re im].
  pose proof (dpl_cos x y H) as Dc. pose proof (dpl_sin x y H) as Ds. fold n in Dc, Ds.
  assert (D1 : differentiable_pt_lim (fun u v => 2 * (1 + u / nrm u v)) x y (2 * (y * y / n ^ 3)) (2 * (- (x * y) / n ^ 3))).
  { eapply dpl_cast; [apply dpl_mult; [apply dpl_const | apply dpl_plus; [apply dpl_const | exact Dc]] | |]; cbv beta; ring. }
  split; [|split; [|auto]].
  - eapply dpl_cast; [apply (dpl_mult _ _ _ _ _ _ _ _ D1 Dc) | |]; unfold ux, uy; fold n; fold c; ring.
  - eapply dpl_cast; [apply (dpl_mult _ _ _ _ _ _ _ _ D1 Ds) | |]; unfold vx, vy; fold n; fold c; fold s; ring.
Qed.

Lemma polar_alg : forall x y n : R, 0 < n -> n * n = x * x + y * y ->
  exists c s k : R, s * s = 1 - c * c /\ y / n / n = s * k /\ x / n / n = c * k /\ x / n = c /\ y / n = s /\
    y * y / n ^ 3 = s * s * k /\ - (x * y) / n ^ 3 = - (c * s * k) /\ x * x / n ^ 3 = c * c * k.
Proof.
  intros x y n H N. exists (x / n), (y / n), (/ n). split.
  - apply (Rmult_eq_reg_l (n * n)); [|nra]. replace (n * n * (y / n * (y / n))) with (y * y) by (field; lra).
    replace (n * n * (1 - x / n * (x / n))) with (n * n - x * x) by (field; lra). lra.
  - repeat split; field; lra.
Qed.

Definition two : RC := mkC 2 0.

(** Cf32: d_activate is twice the conjugate derivative, d_conj_activate twice
    the plain one. *)
Theorem C31_cf32 : forall z : RC, z <> mkC 0 0 ->
  exists d dc, wirtinger_at (activate ROps P32 Cardioid) z d dc /\
    d_activate ROps P32 Cardioid z = Ret (two * dc)%RC /\ d_conj_activate ROps P32 Cardioid z = Ret (two * d)%RC.
Proof.
  intros [x y] H. assert (N : x <> 0 \/ y <> 0).
  { destruct (Req_dec x 0), (Req_dec y 0); subst; auto; exfalso; apply H; reflexivity. }
  pose proof (nrm_pos x y N) as NP. pose proof (nrm_sq x y) as NS. pose proof (wirtinger_card x y N) as W.
  cbv zeta in W. do 2 eexists. split.
  - exists (fun w => card_dir (re w / nrm (re w) (im w)) (im w / nrm (re w) (im w))). split; [|exact W].
    generalize (nonzero_local x y N). apply l2d_mono. intros u v K. cbn [activate re im]. f_equal.
    destruct (phase32 u v K) as [E1 E2]. unfold card, card_dir. cbn [fcos fsin fmul fadd ROps].
    rewrite E1, E2. reflexivity.
  - cbn [d_activate d_conj_activate]. unfold d_card, d_conj_card, card_dfdx_dfdy. rewrite c_norm_nrm. cbn [re im].
    destruct (phase32 x y N) as [E1 E2]. set (phi := c_phase ROps P32 (mkC x y)) in |- *.
    change (cos phi = x / nrm x y) in E1. change (sin phi = y / nrm x y) in E2. set (n := nrm x y) in *.
    cbn [fcos fsin fmul fadd fsub fdiv fneg ROps]. unfold fsq. cbn [fmul ROps].
    change (ftwo ROps) with 2. change (fone ROps) with 1.
    rewrite (sin_2a phi), E1, E2.
    destruct (polar_alg x y n NP NS) as (c & s & k & HS & -> & -> & -> & -> & -> & -> & ->).
    split; f_equal; apply c_ext; cbn -[Rplus Rmult Rminus Rdiv pow Ropp]; unfold Rdiv; field [HS].
Qed.
Print Assumptions C31_cf32.

Lemma dpl_neg : forall f x y lx ly, differentiable_pt_lim f (- x) (- y) lx ly ->
  differentiable_pt_lim (fun u v => f (- u) (- v)) x y (- lx) (- ly).
Proof.
  intros f x y lx ly H.
  assert (D : forall t, is_derive (fun u => - u) t (-1)) by (intros t; auto_derive; [auto | ring]).
  eapply dpl_cast; [apply (differentiable_pt_lim_comp f (fun u _ => - u) (fun _ v => - v) x y lx ly (-1) 0 0 (-1) H)| |]; try ring.
  - apply (dpl_fst (fun u => - u)), D.
  - apply (dpl_snd (fun u => - u)), D.
Qed.

Lemma wirtinger_neg : forall g x y d dc, wirtinger g (mkC (- x) (- y)) d dc ->
  wirtinger (fun w => g (mkC (- re w) (- im w))) (mkC x y) (- d)%RC (- dc)%RC.
Proof.
  intros g x y d dc (ux & uy & vx & vy & H1 & H2 & E1 & E2). exists (- ux), (- uy), (- vx), (- vy).
  cbn [re im] in *. split; [|split; [|split]].
  - exact (dpl_neg (fun u v => re (g (mkC u v))) x y ux uy H1).
  - exact (dpl_neg (fun u v => im (g (mkC u v))) x y vx vy H2).
  - subst d. apply c_ext; cbn -[Rplus Rmult Rminus Rdiv Ropp]; field.
  - subst dc. apply c_ext; cbn -[Rplus Rmult Rminus Rdiv Ropp]; field.
Qed.

Lemma nrm_neg : forall x y, nrm (- x) (- y) = nrm x y.
Proof. intros. unfold nrm. f_equal. ring. Qed.

Definition twice (sg : R) : RC := mkC (2 * sg) 0.
Definition half_plane (sg : R) (z : RC) : Prop := 0 < sg * re z.

(** Cf64 computes the phase as atan(im/re), so on the right half plane it is
    the same function with the same error, and on the left half plane the
    function is z |-> cardioid(-z) and the two reported derivatives also have
    the wrong sign. *)
Theorem C31_cf64 : forall (z : RC) (sg : R), (sg = 1 \/ sg = -1) -> half_plane sg z ->
  exists d dc, wirtinger_at (activate ROps P64 Cardioid) z d dc /\
    d_activate ROps P64 Cardioid z = Ret (twice sg * dc)%RC /\
    d_conj_activate ROps P64 Cardioid z = Ret (twice sg * d)%RC.
Proof.
  intros [x y] sg SG H. unfold half_plane in H. cbn [re] in H.
  assert (A : forall u, 0 < sg * u -> Rabs u = sg * u /\ Rabs u / u = sg).
  { intros u U. assert (u <> 0) by (intros ->; lra). assert (E : Rabs u = sg * u); [|split; [exact E|]].
    - destruct SG as [-> | ->]; [rewrite Rabs_right | rewrite Rabs_left]; lra.
    - rewrite E. field. auto. }
  assert (L : locally_2d (fun u v => 0 < sg * u) x y).
  { assert (X : x <> 0) by (intros ->; lra).
    apply (locally_2d_open _ _ _ (Rabs x)); [now apply Rabs_pos_lt|]. intros u v Hu _.
    destruct (near_sign x u X Hu) as [P1 P2]. destruct SG as [-> | ->]; [assert (0 < u) by (apply P1; lra) | assert (u < 0) by (apply P2; lra)]; lra. }
  assert (X : x <> 0) by (intros ->; lra). assert (N : x <> 0 \/ y <> 0) by auto.
  pose proof (nrm_pos x y N) as NP. pose proof (nrm_sq x y) as NS.
  assert (W : exists d dc, wirtinger (fun w => card_dir (sg * re w / nrm (re w) (im w)) (sg * im w / nrm (re w) (im w))) (mkC x y) d dc
    /\ d_activate ROps P64 Cardioid (mkC x y) = Ret (twice sg * dc)%RC
    /\ d_conj_activate ROps P64 Cardioid (mkC x y) = Ret (twice sg * d)%RC).
  { assert (V : exists d dc, wirtinger (fun w => card_dir (sg * re w / nrm (re w) (im w)) (sg * im w / nrm (re w) (im w))) (mkC x y) d dc /\
      let n := nrm x y in let c := sg * x / n in let s := sg * y / n in
      let ux := 2 * (1 + 2 * c) * (y * y / n ^ 3) in let uy := 2 * (1 + 2 * c) * (- (x * y) / n ^ 3) in
      let vx := 2 * (s * (y * y / n ^ 3) + (1 + c) * (- (x * y) / n ^ 3)) in
      let vy := 2 * (s * (- (x * y) / n ^ 3) + (1 + c) * (x * x / n ^ 3)) in
      d = mkC (sg * ((ux + vy) / 2)) (sg * ((vx - uy) / 2)) /\ dc = mkC (sg * ((ux - vy) / 2)) (sg * ((vx + uy) / 2))).
    { destruct SG as [-> | ->].
      - pose proof (wirtinger_card x y N) as W. cbv zeta in W. do 2 eexists. split.
        + eapply wirtinger_ext_loc; [|exact W].
          apply (locally_2d_open _ _ _ 1); [lra|]. intros u v _ _. cbn [re im]. rewrite !Rmult_1_l. reflexivity.
        + cbv zeta. rewrite !Rmult_1_l. split; reflexivity.
      - assert (N' : - x <> 0 \/ - y <> 0) by (left; lra).
        pose proof (wirtinger_neg _ _ _ _ _ (wirtinger_card (- x) (- y) N')) as W. cbv zeta in W. do 2 eexists. split.
        + eapply wirtinger_ext_loc; [|exact W].
          apply (locally_2d_open _ _ _ 1); [lra|]. intros u v _ _. cbn [re im]. rewrite nrm_neg.
          f_equal; f_equal; ring.
        + cbv zeta. rewrite nrm_neg.
          split; apply c_ext; cbn -[Rplus Rmult Rminus Rdiv pow Ropp]; field; lra. }
    destruct V as (d & dc & V & E1 & E2). exists d, dc. split; [exact V|]. subst d dc.
    cbn [d_activate d_conj_activate]. unfold d_card, d_conj_card, card_dfdx_dfdy. rewrite c_norm_nrm. cbn [re im].
    destruct (phase64 x y X) as [E1 E2]. set (phi := c_phase ROps P64 (mkC x y)) in |- *.
    destruct (A x H) as [A1 A2]. rewrite A2 in E2. rewrite A1 in E1.
    change (cos phi = sg * x / nrm x y) in E1. change (sin phi = sg * (y / nrm x y)) in E2. set (n := nrm x y) in *.
    cbn [fcos fsin fmul fadd fsub fdiv fneg ROps]. unfold fsq. cbn [fmul ROps].
    change (ftwo ROps) with 2. change (fone ROps) with 1.
    rewrite (sin_2a phi), E1, E2. clear E1 E2 phi.
    replace (sg * x / n / n) with (sg * (x / n / n)) by (field; lra).
    replace (sg * (y / n) / n) with (sg * (y / n / n)) by (field; lra).
    replace (sg * x / n) with (sg * (x / n)) by (field; lra).
    replace (sg * y / n) with (sg * (y / n)) by (field; lra).
    destruct (polar_alg x y n NP NS) as (c & s & k & HS & -> & -> & -> & -> & -> & -> & ->).
    assert (S2 : sg * sg = 1) by (destruct SG as [-> | ->]; ring).
    split; f_equal; apply c_ext; cbn -[Rplus Rmult Rminus Rdiv pow Ropp]; unfold Rdiv; field [HS S2]. }
  destruct W as (d & dc & W & R1 & R2). exists d, dc. split; [|split; assumption].
  exists (fun w => card_dir (sg * re w / nrm (re w) (im w)) (sg * im w / nrm (re w) (im w))). split; [|exact W].
  revert L. apply l2d_mono. intros u v K. cbn [activate re im]. f_equal.
  assert (U : u <> 0) by (intros ->; lra). destruct (A u K) as [A1 A2].
  destruct (phase64 u v U) as [E1 E2]. unfold card, card_dir. cbn [fcos fsin fmul fadd ROps].
  rewrite E1, E2, A2, A1. apply c_ext; cbn [re im]; change (ftwo ROps) with 2; change (fone ROps) with 1;
    match goal with |- @eq _ ?a ?b => change (@eq R a b) end; unfold Rdiv; ring.
Qed.
Print Assumptions C31_cf64.

(** At z = 1 both reported derivatives are wrong, in both precisions: the
    derivatives are 2 and -2, the code reports -4 and 4. *)
Theorem C31_refuted : forall p, exists d dc,
  wirtinger_at (activate ROps p Cardioid) (mkC 1 0) d dc /\
  d_activate ROps p Cardioid (mkC 1 0) <> Ret d /\ d_conj_activate ROps p Cardioid (mkC 1 0) <> Ret dc.
Proof.
  intros p.
  assert (G : exists d dc, wirtinger_at (activate ROps p Cardioid) (mkC 1 0) d dc /\
    d_activate ROps p Cardioid (mkC 1 0) = Ret (two * dc)%RC /\ d_conj_activate ROps p Cardioid (mkC 1 0) = Ret (two * d)%RC).
  { destruct p.
    - apply C31_cf32. intros K. inversion K. lra.
    - destruct (C31_cf64 (mkC 1 0) 1) as (d & dc & W & E1 & E2); [auto | unfold half_plane; cbn [re]; lra|].
      exists d, dc. replace two with (twice 1) by (unfold two, twice; f_equal; ring). auto. }
  destruct G as (d & dc & W & E1 & E2). exists d, dc. split; [exact W|].
  assert (N : (1 <> 0 \/ 0 <> 0)%R) by (left; lra).
  assert (V : d = mkC 2 0 /\ dc = mkC (-2) 0).
  { pose proof (wirtinger_card 1 0 N) as V. cbv zeta in V.
    assert (n1 : nrm 1 0 = 1) by (unfold nrm; replace (1 * 1 + 0 * 0) with (1 * 1) by ring; apply sqrt_square; lra).
    rewrite n1 in V.
    destruct W as (g & L & W).
    assert (W' : wirtinger (fun w => card_dir (re w / nrm (re w) (im w)) (im w / nrm (re w) (im w))) (mkC 1 0) d dc).
    { eapply wirtinger_ext_loc; [|exact W]. cbn [re im] in L |- *.
      assert (L2 : locally_2d (fun u v => 0 < u) 1 0).
      { apply (locally_2d_open _ _ _ 1); [lra|]. intros u v Hu _. apply Rabs_def2 in Hu. lra. }
      generalize (locally_2d_and _ _ _ _ L L2). apply l2d_mono. intros u v [K1 K2].
      cbn [activate re im] in K1. assert (K : card ROps p (mkC u v) = g (mkC u v)) by congruence. rewrite <- K.
      assert (U : u <> 0) by lra.
      unfold card, card_dir. cbn [fcos fsin fmul fadd ROps].
      assert (E : cos (c_phase ROps p (mkC u v)) = u / nrm u v /\ sin (c_phase ROps p (mkC u v)) = v / nrm u v).
      { destruct p; [apply phase32; auto|]. destruct (phase64 u v U) as [-> ->]. rewrite Rabs_pos_eq by lra. split; [reflexivity | field].
        split; [|exact U]. pose proof (nrm_pos u v (or_introl U)). lra. }
      destruct E as [-> ->]. reflexivity. }
    destruct (wirtinger_unique _ _ _ _ _ _ W' V) as [-> ->]. split; apply c_ext; cbn -[Rplus Rmult Rminus Rdiv pow Ropp]; field. }
  destruct V as [-> ->]. rewrite E1, E2. split; intros K; [assert (K' : c_mul ROps two (mkC (-2) 0) = mkC 2 0) by congruence | assert (K' : c_mul ROps two (mkC 2 0) = mkC (-2) 0) by congruence];
    apply (f_equal re) in K'; cbn in K'; lra.
Qed.
Print Assumptions C31_refuted.

Example C31_ex : (mkC (-1) (-3) : RC) <> mkC 0 0 /\ half_plane (-1) (mkC (-1) (-3)) /\ half_plane 1 (mkC 2 5).
Proof. unfold half_plane; cbn [re]. repeat split; try lra. intros H. inversion H. lra. Qed.

(** ** C32 *)
Theorem C32_range : forall p z, exists w, activate ROps p RITSigmoid z = Ret w /\
  0 < re w < 1 /\ 0 < im w < 1.
Proof.
  assert (S : forall p v, 0 < sigmoid ROps p v < 1).
  { intros p v. rewrite sigmoid_R. destruct (Rle_dec (thr p) v); [destruct p; cbn [hi]; lra|].
    destruct (Rle_dec v (- thr p)); [destruct p; cbn [lo]; lra | apply logistic_range]. }
  intros p z. exists (ritsigmoid ROps p z). split; [reflexivity|]. split; apply S.
Qed.
Print Assumptions C32_range.

(** One part of the activation, as a real function. *)
Definition sig (p : prec) (v : R) : R :=
  match activate ROps p RITSigmoid (mkC v 0) with Ret w => re w | Panic => 0 end.

Theorem C32_parts : forall p x y, activate ROps p RITSigmoid (mkC x y) = Ret (mkC (sig p x) (sig p y)).
Proof. reflexivity. Qed.
Print Assumptions C32_parts.

Lemma pow_frac : forall (a b : Z) n, (0 < b)%Z -> (IZR a / IZR b) ^ n = IZR (a ^ Z.of_nat n) / IZR (b ^ Z.of_nat n).
Proof.
  intros a b n H. unfold Rdiv. rewrite Rpow_mult_distr, <- !pow_IZR. f_equal. rewrite pow_inv. reflexivity.
Qed.

Lemma exp30_upper : exp 30 <= 99999999999999.
Proof.
  replace 30 with (INR 480 / 16) by (rewrite INR_IZR_INZ; simpl; field).
  eapply Rle_trans; [apply exp_upper|]. rewrite (pow_frac 15 16) by reflexivity.
  rewrite Rinv_div. apply (Rmult_le_reg_r (IZR (15 ^ Z.of_nat 480))).
  - apply IZR_lt. vm_compute. reflexivity.
  - unfold Rdiv. rewrite Rmult_assoc, Rinv_l, Rmult_1_r.
    + rewrite <- mult_IZR. apply IZR_le. vm_compute. discriminate.
    + apply IZR_neq. vm_compute. discriminate.
Qed.

Lemma exp14_lower : 1000000 <= exp (29 / 2).
Proof.
  replace (29 / 2) with (INR 232 / 16) by (rewrite INR_IZR_INZ; simpl; field).
  eapply Rle_trans; [|apply exp_lower]. rewrite (pow_frac 17 16) by reflexivity.
  apply (Rmult_le_reg_r (IZR (16 ^ Z.of_nat 232))).
  - apply IZR_lt. vm_compute. reflexivity.
  - unfold Rdiv. rewrite Rmult_assoc, Rinv_l, Rmult_1_r.
    + rewrite <- mult_IZR. apply IZR_le. vm_compute. discriminate.
    + apply IZR_neq. vm_compute. discriminate.
Qed.

Lemma sig_R : forall p v, sig p v = if Rle_dec (thr p) v then hi p else if Rle_dec v (- thr p) then lo p else logistic v.
Proof. intros p v. exact (sigmoid_R p v). Qed.

Lemma logistic_below : forall v a, 0 < a -> exp v <= a -> logistic v <= a / (1 + a).
Proof.
  intros v a Ha H. rewrite logistic_alt. pose proof (exp_pos v).
  replace (a / (1 + a)) with (1 - / (1 + a)) by (field; lra).
  assert (/ (1 + a) <= / (1 + exp v)) by (apply Rinv_le_contravar; lra). lra.
Qed.
Lemma logistic_above : forall v a, 0 < a -> a <= exp v -> a / (1 + a) <= logistic v.
Proof.
  intros v a Ha H. rewrite logistic_alt. pose proof (exp_pos v).
  replace (a / (1 + a)) with (1 - / (1 + a)) by (field; lra).
  assert (/ (1 + exp v) <= / (1 + a)) by (apply Rinv_le_contravar; lra). lra.
Qed.

(** Double precision: monotone over the whole line. *)
Theorem C32_monotone64 : forall u v, u <= v -> sig P64 u <= sig P64 v.
Proof.
  assert (HI : forall v, v < 30 -> logistic v <= 99999999999999 / 100000000000000).
  { intros v H. pose proof (logistic_increasing _ _ H).
    pose proof (logistic_below 30 99999999999999 ltac:(lra) exp30_upper). lra. }
  assert (LO : forall v, - (30) < v -> 1 / 100000000000000 <= logistic v).
  { intros v H. pose proof (logistic_increasing _ _ H).
    assert (E : / 99999999999999 <= exp (- (30))).
    { rewrite exp_Ropp. apply Rinv_le_contravar; [apply exp_pos | apply exp30_upper]. }
    pose proof (logistic_above (- (30)) (/ 99999999999999) ltac:(lra) E). lra. }
  intros u v H. rewrite !sig_R. cbn [thr hi lo].
  destruct (Rle_dec 30 u), (Rle_dec 30 v); try lra.
  - destruct (Rle_dec u (- (30))); [lra|]. apply HI. lra.
  - destruct (Rle_dec u (- (30))), (Rle_dec v (- (30))); try lra; [apply LO; lra|].
    destruct H as [H | ->]; [left; now apply logistic_increasing | lra].
Qed.
Print Assumptions C32_monotone64.

(** Both precisions: strictly increasing strictly between the thresholds and
    constant beyond each. *)
Theorem C32_pieces : forall p u v,
  (- thr p < u -> u < v -> v < thr p -> sig p u < sig p v) /\
  (thr p <= u -> thr p <= v -> sig p u = sig p v) /\ (u <= - thr p -> v <= - thr p -> sig p u = sig p v).
Proof.
  intros p u v. pose proof (thr_pos p). rewrite !sig_R.
  destruct (Rle_dec (thr p) u), (Rle_dec (thr p) v), (Rle_dec u (- thr p)), (Rle_dec v (- thr p));
    repeat split; intros; try lra. now apply logistic_increasing.
Qed.
Print Assumptions C32_pieces.

(** Single precision: the function drops at both thresholds. *)
Theorem C32_monotone32_refuted :
  sig P32 15 < sig P32 (29 / 2) /\ sig P32 (- (29 / 2)) < sig P32 (- (15)).
Proof.
  rewrite !sig_R. cbn [thr hi lo].
  repeat match goal with |- context [Rle_dec ?a ?b] => destruct (Rle_dec a b); try lra end.
  pose proof exp14_lower as E. split.
  - pose proof (logistic_above (29 / 2) 1000000 ltac:(lra) E). lra.
  - assert (E' : exp (- (29 / 2)) <= / 1000000) by (rewrite exp_Ropp; apply Rinv_le_contravar; lra).
    pose proof (logistic_below (- (29 / 2)) (/ 1000000) ltac:(lra) E'). lra.
Qed.
Print Assumptions C32_monotone32_refuted.

Example C32_ex : - thr P32 < 0 /\ 0 < 1 /\ 1 < thr P32 /\ sig P32 0 = / 2.
Proof.
  cbn [thr]. repeat split; try lra. rewrite sig_R. cbn [thr].
  destruct (Rle_dec 15 0); [lra|]. destruct (Rle_dec 0 (- (15))); [lra|]. unfold logistic. rewrite exp_0. lra.
Qed.
