(** * Property C60: the signal reconstruction dataset *)
From Coq Require Import ZArith NArith Reals Lra Psatz.
From Flocq Require Import BinarySingleNaN.
From Verif Require Import Base BaseFacts Float Matrix Cplx Random Input Dense Dataset RFloat BFloat BFacts SpecLayer SpecMnist
  PropRandom PropData DenseFacts SignalFacts.
Local Open Scope nat_scope.
Local Open Scope list_scope.
Local Notation re := Cplx.re.
Local Notation im := Cplx.im.

(** A point of a signal dataset: noisy samples as input, clean ones as target. *)
Definition signal_point {A} (samples : nat) (pt : IOType A * IOType A) : Prop :=
  exists x y, pt = (IOScalar x, IOScalar y) /\ length x = samples /\ length y = samples.

(** Whatever the arithmetic, the seeds and the noise: what is returned has the
    right shape. *)
Theorem C60_shape : forall Fl pr samples batch thr train test train' test' dtr dte,
  signal_reconstruction Fl pr samples batch thr train test = Ret (train', test', dtr, dte) ->
  ds_n_points dtr = batch /\ ds_n_points dte = batch /\
  length (points dtr) = batch /\ length (points dte) = batch /\
  Forall (signal_point samples) (points dtr) /\ Forall (signal_point samples) (points dte).
Proof.
  intros Fl pr samples batch thr train test train' test' dtr dte H.
  apply signal_made in H as (ps & qs & -> & -> & L1 & L2 & F1 & F2).
  assert (P : forall l : list (IOType (cplx (F Fl)) * IOType (cplx (F Fl))), points (ds_of l) = l).
  { intros l. destruct (C58_history l) as (_ & _ & _ & X & _). exact X. }
  rewrite !P, !(proj1 (C58_history _)). repeat split; auto; eapply Forall_impl; try eassumption;
    intros pt M; apply made_shape in M as (x & y & E & Lx & Ly & _); exists x, y; auto.
Qed.
Print Assumptions C60_shape.

(** An odd number of samples panics. *)
Theorem C60_odd : forall Fl pr samples batch thr train test, Nat.odd samples = true -> 0 < batch ->
  signal_reconstruction Fl pr samples batch thr train test = Panic.
Proof.
  intros Fl pr samples batch thr train test O B.
  destruct (signal_reconstruction Fl pr samples batch thr train test) as [[[[a b] d1] d2]|] eqn:E; [|reflexivity].
  apply signal_made in E as (ps & _ & _ & _ & L & _ & F & _). destruct ps as [|p ps]; [cbn in L; lia|].
  inversion F as [|? ? M _]; subst. apply made_shape in M as (x & y & _ & _ & _ & Ev).
  rewrite <- Nat.negb_even, Ev in O. discriminate.
Qed.
Print Assumptions C60_odd.

(** ** Exact arithmetic *)
Local Open Scope R_scope.

(** The largest modulus is 1, unless the signal vanishes. *)
Definition normalised (y : list RC) : Prop :=
  (Forall (fun e => c_norm ROps e <= 1) y /\ Exists (fun e => c_norm ROps e = 1) y) \/
  Forall (fun e => e = mkC 0 0 :> RC) y.

Lemma norm_R : forall a b : R, c_norm ROps (mkC a b : RC) = sqrt (a * a + b * b).
Proof. reflexivity. Qed.

Lemma norm_pos_R : forall e : RC, 0 <= c_norm ROps e.
Proof. intros [a b]. rewrite norm_R. apply sqrt_pos. Qed.

Lemma norm_zero : forall e : RC, c_norm ROps e = 0 -> e = mkC 0 0.
Proof.
  intros [a b]. rewrite norm_R. intros H. apply sqrt_eq_0 in H; [|cbn in a, b; nra].
  assert (a = 0) by (cbn in a, b; nra). assert (b = 0) by (cbn in a, b; nra). now subst.
Qed.

Lemma div_max : forall (e : RC) (m : R), m <> 0 ->
  c_div_assign ROps e (c_new ROps m 0) = Ret (mkC (re e / m) (im e / m)).
Proof.
  intros [a b] m H. unfold c_div_assign, c_new, fsq. cbn [re im]. cbn in a, b.
  change (feqb ROps) with Reqb. change (fadd ROps) with Rplus. change (fmul ROps) with Rmult.
  change (fsub ROps) with Rminus. change (fdiv ROps) with Rdiv. change (fzero ROps) with 0.
  destruct (Reqb (m * m + 0 * 0) 0) eqn:E; [apply Reqb_eq in E; nra|].
  f_equal. f_equal; field; nra.
Qed.

Lemma norm_div : forall (e : RC) (m : R), 0 < m -> c_norm ROps (mkC (re e / m) (im e / m) : RC) = c_norm ROps e / m.
Proof.
  intros [a b] m H. cbn [re im]. rewrite !norm_R. cbn in a, b.
  replace (a / m * (a / m) + b / m * (b / m)) with ((a * a + b * b) / (m * m)) by (field; lra).
  rewrite sqrt_div_alt by nra. rewrite sqrt_square by lra. reflexivity.
Qed.

Definition max_step (acc : R) (e : RC) : R := if Rltb acc (c_norm ROps e) then c_norm ROps e else acc.

Lemma max_fold : forall (l : list RC) (acc : R), 0 <= acc ->
  let m := fold_left max_step l acc in
  acc <= m /\ Forall (fun e => c_norm ROps e <= m) l /\ (m = acc \/ Exists (fun e => c_norm ROps e = m) l).
Proof.
  induction l as [|e l IH]; intros acc H; cbn [fold_left].
  - cbv zeta. split; [lra|]. split; [constructor|auto].
  - cbv zeta. assert (A : acc <= max_step acc e /\ c_norm ROps e <= max_step acc e /\
      (max_step acc e = acc \/ max_step acc e = c_norm ROps e)).
    { unfold max_step. destruct (Rltb acc (c_norm ROps e)) eqn:E.
      - apply Rltb_lt in E. repeat split; auto; lra.
      - apply Rltb_ge in E. repeat split; auto; lra. }
    destruct A as (A1 & A2 & A3). destruct (IH (max_step acc e) ltac:(lra)) as (B1 & B2 & B3).
    split; [lra|]. split; [constructor; [lra|exact B2]|].
    destruct B3 as [B3|B3]; [|right; now right].
    destruct A3 as [A3|A3]; [left; lra|]. right. left. lra.
Qed.

Lemma normalize_R : forall (sig : list RC) y, normalize ROps sig = Ret y -> normalised y.
Proof.
  intros sig y H. unfold normalize in H.
  change (fold_left _ sig (fzero ROps)) with (fold_left max_step sig 0) in H.
  destruct (max_fold sig 0 (Rle_refl 0)) as (M0 & M1 & M2). cbv zeta in *. set (m := fold_left max_step sig 0) in *.
  change (feqb ROps m (fzero ROps)) with (Reqb m 0) in H. destruct (Reqb m 0) eqn:E; cbn [negb] in H.
  - injection H as <-. apply Reqb_eq in E. right. eapply Forall_impl; [|exact M1]. intros e He.
    apply norm_zero. pose proof (norm_pos_R e). cbn beta in He. apply Rle_antisym; [|assumption]. rewrite <- E. exact He.
  - apply Reqb_neq in E. left.
    change (fzero ROps) with 0 in H.
    rewrite (mapM_ret _ (fun e : RC => mkC (re e / m) (im e / m) : RC)) in H by (intros e _; now apply div_max).
    injection H as <-. assert (P : 0 < m) by lra.
    destruct M2 as [M2|M2]; [lra|]. split.
    + apply Forall_map. eapply Forall_impl; [|exact M1]. intros e He. cbn beta in *. rewrite norm_div by exact P.
      apply (Rmult_le_reg_r m); [exact P|]. unfold Rdiv. rewrite Rmult_assoc, Rinv_l by lra. lra.
    + apply Exists_exists in M2 as (e & He & Ee). apply Exists_exists.
      exists (mkC (re e / m) (im e / m)). split; [apply (in_map (fun e : RC => mkC (re e / m) (im e / m) : RC)); exact He|].
      rewrite norm_div by exact P. rewrite Ee. change (m / m = 1). field. lra.
Qed.

Lemma zero_R : feqb ROps (fzero ROps) (fzero ROps) = true.
Proof. change (feqb ROps (fzero ROps) (fzero ROps)) with (Reqb 0 0). now apply Reqb_eq. Qed.

Lemma div_R : forall z : RC, let m := c_norm ROps z in feqb ROps m (fzero ROps) = false ->
  feqb ROps (fadd ROps (fsq ROps m) (fsq ROps (fzero ROps))) (fzero ROps) = false.
Proof.
  intros z m. change (feqb ROps m (fzero ROps)) with (Reqb m 0).
  change (feqb ROps (fadd ROps (fsq ROps m) (fsq ROps (fzero ROps))) (fzero ROps)) with (Reqb (m * m + 0 * 0) 0).
  clearbody m. cbn in m. intros H. apply Reqb_neq in H. apply Reqb_neq. nra.
Qed.

(** With an even number of samples and seeds that do not overflow, the call
    returns, and every clean signal is normalised. *)
Theorem C60_exact : forall pr samples batch thr train test, Nat.even samples = true ->
  seed_ok pr train -> seed_ok pr test ->
  exists train' test' dtr dte,
    signal_reconstruction ROps pr samples batch thr train test = Ret (train', test', dtr, dte) /\
    seed_ok pr train' /\ seed_ok pr test' /\
    forall x y, In (IOScalar x, IOScalar y) (points dtr) \/ In (IOScalar x, IOScalar y) (points dte) -> normalised y.
Proof.
  intros pr samples batch thr train test Ev Ha Hb.
  destruct (signal_total ROps pr zero_R div_R samples batch thr train test Ev Ha Hb) as (a' & b' & d1 & d2 & E & Sa & Sb).
  exists a', b', d1, d2. split; [exact E|]. split; [exact Sa|]. split; [exact Sb|]. intros x y.
  apply signal_made in E as (ps & qs & -> & -> & L1 & L2 & F1 & F2).
  assert (P : forall l : list (IOType RC * IOType RC), points (ds_of l) = l).
  { intros l. destruct (C58_history l) as (_ & _ & _ & X & _). exact X. }
  rewrite !P. intros [I|I]; eapply Forall_forall in I; try eassumption;
    destruct I as (x0 & y0 & w & chs & Ept & N & _); injection Ept as <- <-; eapply normalize_R; eassumption.
Qed.
Print Assumptions C60_exact.

(** In f32, whatever the mathematical library: the generator never fails either. *)
Theorem C60_never_fails : forall L pr samples batch thr train test, Nat.even samples = true ->
  seed_ok pr train -> seed_ok pr test ->
  exists train' test' dtr dte,
    signal_reconstruction (B32Ops L) pr samples batch thr train test = Ret (train', test', dtr, dte) /\
    seed_ok pr train' /\ seed_ok pr test'.
Proof. intros L pr. exact (signal_total (B32Ops L) pr eq_refl (norm_divisible L)). Qed.
Print Assumptions C60_never_fails.

(** ** The clean signals *)
(** The value at time [t] of a sum of waves (amplitude, frequency, phase). *)
Definition superposition (ws : list (R * R * R)) (t : R) : RC :=
  mkC (fold_right (fun '(a, om, ph) s => a * cos (om * t + ph) + s) 0 ws)
      (fold_right (fun '(a, om, ph) s => a * sin (om * t + ph) + s) 0 ws).

Definition wave_range (w : R * R * R) : Prop :=
  let '(a, om, ph) := w in 1 / 10 <= a < 1 /\ 1 / 10 <= om < 1 /\ 0 <= ph < 2 * PI.

Lemma wave_sum_R : forall (ws : list (R * R * R)) (t : R), wave_sum ROps ws t = superposition ws t.
Proof.
  intros ws t. unfold wave_sum, superposition. 
  assert (G : forall (ws : list (R * R * R)) (x y : R), fold_left (fun (acc : RC) awp => let '(a, w, phi) := awp in
     c_add ROps acc (c_newe ROps a (fadd ROps (fmul ROps w t) phi))) ws (mkC x y) =
     mkC (x + fold_right (fun '(a, om, ph) s => a * cos (om * t + ph) + s) 0 ws) (y + fold_right (fun '(a, om, ph) s => a * sin (om * t + ph) + s) 0 ws)).
  { induction ws0 as [|[[a om] ph] ws0 IH]; intros x y; cbn [fold_left fold_right]; [f_equal; ring|].
    change (c_add ROps (mkC x y : RC) (c_newe ROps a (fadd ROps (fmul ROps om t) ph)))
      with (mkC (x + a * cos (om * t + ph)) (y + a * sin (om * t + ph)) : RC). rewrite IH. f_equal; ring. }
  etransitivity; [apply (G ws 0 0)|]. f_equal; ring.
Qed.

Lemma draw_R : forall pr s s' u, lcgf ROps pr s = Ret (s', u) -> 0 <= u < 1.
Proof.
  intros pr s s' u H. unfold lcgf in H. destruct (lcg_next pr s) as [s0|] eqn:E; [|discriminate]. cbn [obind] in H.
  injection H as _ <-. apply lcg_next_range in E. exact (draw_range _ E).
Qed.

Lemma drawn_R : forall pr ws, drawn ROps pr ws -> (1 <= length ws <= 9)%nat /\ Forall wave_range ws.
Proof.
  intros pr ws (s & s1 & k & s2 & E & G). apply gen_n_draws in G as (D & L). split.
  - unfold lcgi in E. destruct (lcg_next pr s) as [s0|] eqn:E0; [|discriminate]. cbn in E. injection E as <- <-.
    apply lcg_next_range in E0. assert (X : (s0 / 268435455 <= 8)%N).
    { apply N.lt_succ_r. apply N.div_lt_upper_bound; [discriminate|]. unfold P in E0. lia. }
    rewrite L. match goal with |- context [N.to_nat ?q] => replace q with (s0 / 268435455)%N by reflexivity end. set (q := (s0 / 268435455)%N) in *. clearbody q. lia.
  - clear - D. induction D as [|s s1 s2 w l H D IH]; constructor; [|exact IH]. clear IH D.
    unfold draw_wave in H. apply obind_inv in H as [[t1 u1] [E1 H]]. apply obind_inv in H as [[t2 u2] [E2 H]]. apply obind_inv in H as [[t3 u3] [E3 H]].
    injection H as <- <-. apply draw_R in E1, E2, E3. cbn in u1, u2, u3. pose proof PI_RGT_0.
    unfold wave_range. cbn. repeat split; try lra; nra.
Qed.

Lemma normalize_by : forall (sig : list RC) y, normalize ROps sig = Ret y ->
  (exists m, 0 < m /\ Forall (fun e => c_norm ROps e <= m) sig /\ Exists (fun e => c_norm ROps e = m) sig /\
     y = map (fun e : RC => mkC (re e / m) (im e / m) : RC) sig) \/
  (Forall (fun e => e = mkC 0 0 :> RC) sig /\ y = sig).
Proof.
  intros sig y H. unfold normalize in H.
  change (fold_left _ sig (fzero ROps)) with (fold_left max_step sig 0) in H.
  destruct (max_fold sig 0 (Rle_refl 0)) as (M0 & M1 & M2). cbv zeta in *. set (m := fold_left max_step sig 0) in *.
  change (feqb ROps m (fzero ROps)) with (Reqb m 0) in H. destruct (Reqb m 0) eqn:E; cbn [negb] in H.
  - injection H as <-. apply Reqb_eq in E. right. split; [|reflexivity]. eapply Forall_impl; [|exact M1]. intros e He.
    apply norm_zero. pose proof (norm_pos_R e). cbn beta in He. apply Rle_antisym; [|assumption]. rewrite <- E. exact He.
  - apply Reqb_neq in E. left. change (fzero ROps) with 0 in H.
    rewrite (mapM_ret _ (fun e : RC => mkC (re e / m) (im e / m) : RC)) in H by (intros e _; now apply div_max).
    injection H as <-. exists m. split; [lra|]. split; [exact M1|]. split; [|reflexivity]. destruct M2 as [M2|M2]; [lra|exact M2].
Qed.

(** Every target is a sum of one to nine waves sampled at [samples] equidistant
    times over two periods of e^it, divided by its largest modulus. *)
Definition clean_signal (samples : nat) (y : list RC) : Prop :=
  exists ws : list (R * R * R), (1 <= length ws <= 9)%nat /\ Forall wave_range ws /\
    let sig i := superposition ws (4 * PI / INR samples * INR i) in
    (exists m, 0 < m /\ (forall i, (i < samples)%nat -> c_norm ROps (sig i) <= m) /\
       (exists i, (i < samples)%nat /\ c_norm ROps (sig i) = m) /\
       y = map (fun i => mkC (re (sig i) / m) (im (sig i) / m) : RC) (seq 0 samples)) \/
    (y = map sig (seq 0 samples) /\ forall i, (i < samples)%nat -> sig i = mkC 0 0).

Theorem C60_clean : forall pr samples batch thr train test train' test' dtr dte,
  signal_reconstruction ROps pr samples batch thr train test = Ret (train', test', dtr, dte) ->
  forall x y, In (IOScalar x, IOScalar y) (points dtr) \/ In (IOScalar x, IOScalar y) (points dte) -> clean_signal samples y.
Proof.
  intros pr samples batch thr train test train' test' dtr dte H x y.
  apply signal_made in H as (ps & qs & -> & -> & L1 & L2 & F1 & F2).
  assert (Q : forall l : list (IOType RC * IOType RC), points (ds_of l) = l).
  { intros l. destruct (C58_history l) as (_ & _ & _ & X & _). exact X. }
  assert (M : forall pt, made ROps pr (times ROps samples) thr pt -> pt = (IOScalar x, IOScalar y) -> clean_signal samples y).
  { intros pt (x0 & y0 & w & chs & -> & Ny & _ & _ & D) Ept. injection Ept as -> ->. apply drawn_R in D as (D1 & D2).
    exists w. split; [exact D1|]. split; [exact D2|]. cbv zeta.
    assert (E : map (wave_sum ROps w) (times ROps samples) = map (fun i => superposition w (4 * PI / INR samples * INR i)) (seq 0 samples)).
    { unfold times. rewrite map_map. apply map_ext. intros i. rewrite wave_sum_R.
      change (fofnat ROps) with (fun k => IZR (Z.of_N (N.of_nat k))). cbv beta. rewrite !nat_N_Z, <- !INR_IZR_INZ.
      change (flit ROps 4 1) with 4. change (fpi ROps) with PI. change (fmul ROps) with Rmult. change (fdiv ROps) with Rdiv.
      reflexivity. }
    rewrite E in Ny. apply normalize_by in Ny as [(m & P & Fa & Ex & ->)|(Fa & ->)]; [left|right].
    - exists m. split; [exact P|]. split; [|split].
      + intros i Hi. rewrite Forall_map in Fa. apply (proj1 (Forall_forall _ _) Fa). apply in_seq. lia.
      + apply Exists_exists in Ex as (e & He & Ee). apply in_map_iff in He as (i & <- & Hi). exists i. apply in_seq in Hi. split; [lia|exact Ee].
      + now rewrite map_map.
    - split; [reflexivity|]. intros i Hi. rewrite Forall_map in Fa. apply (proj1 (Forall_forall _ _) Fa). apply in_seq. lia. }
  rewrite !Q. intros [I|I]; eapply Forall_forall in I; try eassumption; eapply M; eauto.
Qed.
Print Assumptions C60_clean.

(** ** Noise *)
Lemma noisy_le : forall s, (s < P)%N -> 0 <= sqrt (- (2) * ln (draw s)) <= sqrt (62 * ln 2).
Proof.
  intros s H. split; [apply sqrt_pos|]. apply sqrt_le_1_alt.
  pose proof ln_lt_2 as L2.
  destruct (N.eq_dec s 0) as [->|N].
  - unfold draw. replace (IZR (Z.of_N 0) / 2147483648) with 0 by (cbn; field).
    assert (Z : ln 0 = 0) by (unfold ln; destruct (Rlt_dec 0 0); [exfalso; lra|reflexivity]). rewrite Z. lra.
  - unfold draw. assert (1 <= IZR (Z.of_N s)) by (apply IZR_le; lia).
    assert (ln (1 / 2147483648) <= ln (IZR (Z.of_N s) / 2147483648)).
    { destruct (Req_dec (1 / 2147483648) (IZR (Z.of_N s) / 2147483648)) as [->|Nq]; [lra|].
      left. apply ln_increasing; lra. }
    assert (ln (1 / 2147483648) = - (31 * ln 2)).
    { replace (1 / 2147483648) with (/ 2 ^ 31) by (simpl; field). rewrite ln_Rinv by (apply pow_lt; lra).
      rewrite ln_pow by lra. simpl INR. lra. }
    lra.
Qed.

(** How far the noise can move a sample of modulus at most 1. *)
Definition noise_bound (thr : R) : R := 1.05 * thr * sqrt (62 * ln 2).

Lemma shift_norm : forall (e : RC) (z p : R), c_norm ROps (c_sub ROps (c_add ROps e (c_newe ROps z p)) e) = Rabs z.
Proof.
  intros [a b] z p. rewrite <- (polar_norm z p). f_equal. unfold c_sub, c_add, c_newe. cbn. f_equal; ring.
Qed.

Lemma z_bound : forall g c n t m : R, 0 <= g <= m -> -1 <= c <= 1 -> 0 <= n <= t -> Rabs (g * c * n) <= t * m.
Proof.
  intros g c n t m Hg Hc Hn. rewrite !Rabs_mult, (Rabs_pos_eq g), (Rabs_pos_eq n) by lra.
  assert (Rabs c <= 1) by (now apply Rabs_le). pose proof (Rabs_pos c).
  assert (g * Rabs c <= m * 1) by (apply Rmult_le_compat; lra).
  assert (g * Rabs c * n <= m * 1 * t) by (apply Rmult_le_compat; try lra; nra). lra.
Qed.

(** The point [i] of [x] is within [b] of the point [i] of [y]. *)
Definition close (b : R) (x y : list RC) : Prop := Forall2 (fun u v => c_norm ROps (c_sub ROps u v) <= b) x y.

Lemma noisy_close : forall pr (thr : R) chs x, 0 <= thr -> noisy ROps pr thr chs x ->
  Forall (fun c => (length c <= 2)%nat) chs -> Forall (fun e : RC => c_norm ROps e <= 1) (concat chs) ->
  close (noise_bound thr) x (concat chs).
Proof.
  intros pr thr chs x Ht H. induction H as [|e1 e2 tl chs x u1 u2 p1 p2 s1 s1' s2 s2' N IH E1 E2]; intros B Fn; [constructor|].
  inversion B as [|? ? B1 B2]; subst. destruct tl as [|? ?]; [|cbn in B1; lia].
  cbn [concat app] in Fn. inversion Fn as [|? ? N1 Fn']; subst. inversion Fn' as [|? ? N2 Fn'']; subst.
  specialize (IH B2 Fn''). cbn [concat]. unfold close. apply Forall2_app; [|exact IH].
  assert (U : u1 = draw s1' /\ (s1' < P)%N).
  { unfold lcgf in E1. destruct (lcg_next pr s1) as [s|] eqn:X; [|discriminate]. cbn [obind] in E1.
    injection E1 as <- <-. apply lcg_next_range in X. split; [reflexivity|exact X]. }
  destruct U as [-> Us]. pose proof (noisy_le s1' Us) as G.
  unfold corrupt_pair. cbv zeta. pose proof (norm_pos_R e1) as P1. pose proof (norm_pos_R e2) as P2.
  constructor; [|constructor; [|constructor]]; rewrite shift_norm; unfold noise_bound.
  - change (Rabs (sqrt (- (2) * ln (draw s1')) * cos (2 * PI * u2) * (thr + thr / 20 * c_norm ROps e1))
      <= 1.05 * thr * sqrt (62 * ln 2)).
    apply z_bound; [exact G|apply COS_bound|]. set (n := c_norm ROps e1) in *. clearbody n. cbn in n. nra.
  - change (Rabs (sqrt (- (2) * ln (draw s1')) * sin (2 * PI * u2) * (thr + thr / 20 * c_norm ROps e2))
      <= 1.05 * thr * sqrt (62 * ln 2)).
    apply z_bound; [exact G|apply SIN_bound|]. set (n := c_norm ROps e2) in *. clearbody n. cbn in n. nra.
Qed.

(** In exact arithmetic the noise moves no sample by more than
    1.05 * thr * sqrt (62 ln 2), about 6.9 thr; in particular inputs and
    targets coincide when the threshold is zero.  (A draw of exactly zero
    makes the code take the logarithm of zero: in exact arithmetic the model
    then adds no noise, in floating point see C60_zero_draw.) *)
Theorem C60_noise : forall pr samples batch (thr : R) train test train' test' dtr dte, 0 <= thr ->
  signal_reconstruction ROps pr samples batch thr train test = Ret (train', test', dtr, dte) ->
  forall x y, In (IOScalar x, IOScalar y) (points dtr) \/ In (IOScalar x, IOScalar y) (points dte) ->
  close (noise_bound thr) x y.
Proof.
  intros pr samples batch thr train test train' test' dtr dte Ht H x y.
  apply signal_made in H as (ps & qs & -> & -> & L1 & L2 & F1 & F2).
  assert (Q : forall l : list (IOType RC * IOType RC), points (ds_of l) = l).
  { intros l. destruct (C58_history l) as (_ & _ & _ & X & _). exact X. }
  assert (M : forall pt, made ROps pr (times ROps samples) thr pt -> pt = (IOScalar x, IOScalar y) ->
    close (noise_bound thr) x y).
  { intros pt (x0 & y0 & w & chs & -> & Ny & Ec & N & _) Ept. injection Ept as -> ->.
    destruct (chunks_ret 2 y) as (cs & E & Cc); [lia|]. assert (cs = chs) by congruence. subst cs.
    rewrite <- Cc. apply (noisy_close pr); auto.
    - eapply chunks_short; eassumption.
    - rewrite Cc. destruct (normalize_R _ _ Ny) as [[Z _]|Z]; [exact Z|].
      eapply Forall_impl; [|exact Z]. intros e ->. change (sqrt (0 * 0 + 0 * 0) <= 1).
      rewrite Rmult_0_l, Rplus_0_l, sqrt_0. lra. }
  rewrite !Q. intros [I|I]; eapply Forall_forall in I; try eassumption; eapply M; eauto.
Qed.
Print Assumptions C60_noise.

Theorem C60_no_noise : forall pr samples batch train test train' test' dtr dte,
  signal_reconstruction ROps pr samples batch 0 train test = Ret (train', test', dtr, dte) ->
  forall x y, In (IOScalar x, IOScalar y) (points dtr) \/ In (IOScalar x, IOScalar y) (points dte) -> x = y.
Proof.
  intros pr samples batch train test train' test' dtr dte H x y I.
  pose proof (C60_noise _ _ _ _ _ _ _ _ _ _ (Rle_refl 0) H x y I) as Cl. clear H I.
  unfold close, noise_bound in Cl. rewrite Rmult_0_r, Rmult_0_l in Cl.
  induction Cl as [|u v x y Huv _ IH]; [reflexivity|]. f_equal; [|exact IH].
  assert (Z : c_sub ROps u v = mkC 0 0).
  { apply norm_zero. apply Rle_antisym; [exact Huv|apply norm_pos_R]. }
  destruct u as [a b], v as [c d]. cbn in a, b, c, d. unfold c_sub in Z. cbn in Z. injection Z as Z1 Z2. f_equal; lra.
Qed.
Print Assumptions C60_no_noise.

(** ** The noise on the training set *)
Section First.
Context (Fl : FloatOps) (pr : profile).

Lemma first_pair : forall (thr : F Fl) a b a' b' d1 d2 a1 k a2 w b1 k' b2 w',
  signal_reconstruction Fl pr 2 1 thr a b = Ret (a', b', d1, d2) ->
  lcgi pr a 8 = Ret (a1, k) -> gen_n (draw_wave Fl pr) (N.to_nat k + 1) a1 = Ret (a2, w) ->
  lcgi pr b 8 = Ret (b1, k') -> gen_n (draw_wave Fl pr) (N.to_nat k' + 1) b1 = Ret (b2, w') ->
  exists e1 e2 b3 u1 b4 u2 a3 p1 a4 p2,
    normalize Fl (map (wave_sum Fl w) (times Fl 2)) = Ret [e1; e2] /\
    lcgf Fl pr b2 = Ret (b3, u1) /\ lcgf Fl pr b3 = Ret (b4, u2) /\
    lcgf Fl pr a2 = Ret (a3, p1) /\ lcgf Fl pr a3 = Ret (a4, p2) /\
    points d1 = [(IOScalar (corrupt_pair Fl thr (fdiv Fl thr (flit Fl 20 1)) e1 e2 u1 u2 p1 p2), IOScalar [e1; e2])].
Proof.
  intros thr a b a' b' d1 d2 a1 k a2 w b1 k' b2 w' H Ek Ew Ek' Ew'.
  unfold signal_reconstruction in H. cbv zeta in H. fold (times Fl 2) in H. cbn [seq] in H. cbn [foldM] in H.
  apply obind_inv in H as [[[[? ?] ?] ?] [H H']]. injection H' as -> -> -> ->.
  unfold signal_step in H. rewrite Ek in H. cbn [obind] in H. rewrite Ew in H. cbn [obind] in H.
  rewrite Ek' in H. cbn [obind] in H. rewrite Ew' in H. cbn [obind] in H.
  apply obind_inv in H as [y [Ey H]]. apply obind_inv in H as [y' [Ey' H]]. cbv zeta in H.
  pose proof (normalize_length _ _ _ Ey) as Ly. unfold times in Ly. rewrite !map_length, seq_length in Ly.
  destruct y as [|e1 [|e2 [|? ?]]]; try (cbn in Ly; lia).
  change (chunks 2 [e1; e2]) with (@Ret (list (list (cplx (F Fl)))) [[e1; e2]]) in H. cbn [obind foldM] in H.
  apply obind_inv in H as [[[a5 b5] x] [Ex H]].
  unfold corrupt_train in Ex.
  change (index [e1; e2] 0) with (Ret e1) in Ex. change (index [e1; e2] 1) with (Ret e2) in Ex. cbn [obind] in Ex.
  apply obind_inv in Ex as [st [Ex Ex']].
  apply obind_inv in Ex as [[b3 u1] [E1 Ex]]. apply obind_inv in Ex as [[b4 u2] [E2 Ex]].
  apply obind_inv in Ex as [[a3 p1] [E3 Ex]]. apply obind_inv in Ex as [[a4 p2] [E4 Ex]].
  injection Ex as <-. injection Ex' as _ _ <-.
  apply obind_inv in H as [chs [_ H]]. apply obind_inv in H as [[b6 x'] [_ H]]. injection H as _ _ <- _.
  do 10 eexists. repeat (split; [eassumption|]). reflexivity.
Qed.
End First.

Lemma iter_shift : forall (f : N -> N) n s, Nat.iter (S n) f s = Nat.iter n f (f s).
Proof. intros f n. induction n as [|n IH]; intros s; [reflexivity|]. change (f (Nat.iter (S n) f s) = f (Nat.iter n f (f s))). now rewrite IH. Qed.

Lemma waves_seed : forall Fl pr n s, (s < P)%N ->
  exists w, gen_n (draw_wave Fl pr) n s = Ret (Nat.iter (3 * n) next s, w) /\ (Nat.iter (3 * n) next s < P)%N.
Proof.
  intros Fl pr n. assert (N : forall s, (s < P)%N -> exists u, lcgf Fl pr s = Ret (next s, u)).
  { intros s H. unfold lcgf. rewrite lcg_next_small by exact H. cbn [obind]. eauto. }
  induction n as [|n IH]; intros s H; [eexists; split; [reflexivity|exact H]|].
  cbn [gen_n]. unfold draw_wave at 1.
  destruct (N s H) as (u1 & E1). rewrite E1. cbn [obind].
  destruct (N (next s) (next_lt _)) as (u2 & E2). rewrite E2. cbn [obind].
  destruct (N (next (next s)) (next_lt _)) as (u3 & E3). rewrite E3. cbn [obind].
  destruct (IH (next (next (next s))) (next_lt _)) as (w & Ew & L). rewrite Ew. cbn [obind].
  assert (X : Nat.iter (3 * S n) next s = Nat.iter (3 * n) next (next (next (next s)))).
  { replace (3 * S n)%nat with (S (S (S (3 * n)))) by lia. rewrite !iter_shift. reflexivity. }
  rewrite X. eexists. split; [reflexivity|exact L].
Qed.

(** The training set is not determined by the training seed: its noise is
    drawn from the test seed. *)
Theorem C60_seed_refuted : exists train test test2 s1 s2 dtr dte s3 s4 dtr2 dte2,
  signal_reconstruction ROps Dev 2 1 1 train test = Ret (s1, s2, dtr, dte) /\
  signal_reconstruction ROps Dev 2 1 1 train test2 = Ret (s3, s4, dtr2, dte2) /\
  points dtr <> points dtr2.
Proof.
  assert (SO : forall s, (s < 100)%N -> seed_ok Dev s) by (intros s H; right; lia).
  destruct (C60_exact Dev 2 1 1 1 8 eq_refl) as (s1 & s2 & dtr & dte & H1 & _); [apply SO; lia|apply SO; lia|].
  destruct (C60_exact Dev 2 1 1 1 2 eq_refl) as (s3 & s4 & dtr2 & dte2 & H2 & _); [apply SO; lia|apply SO; lia|].
  exists 1%N, 8%N, 2%N, s1, s2, dtr, dte, s3, s4, dtr2, dte2. split; [exact H1|]. split; [exact H2|].
  destruct (waves_seed ROps Dev 5 1103527590 eq_refl) as (w & Ew & La).
  destruct (waves_seed ROps Dev 1 (next 8) (next_lt _)) as (w1 & Ew1 & Lb1).
  destruct (waves_seed ROps Dev 1 (next 2) (next_lt _)) as (w2 & Ew2 & Lb2).
  destruct (first_pair ROps Dev _ _ _ _ _ _ _ _ 4%N _ w _ 0%N _ w1 H1 eq_refl Ew eq_refl Ew1)
    as (e1 & e2 & b3 & u1 & b4 & u2 & a3 & p1 & a4 & p2 & Ny & U1 & U2 & P1 & P2 & ->).
  destruct (first_pair ROps Dev _ _ _ _ _ _ _ _ 4%N _ w _ 0%N _ w2 H2 eq_refl Ew eq_refl Ew2)
    as (f1 & f2 & c3 & v1 & c4 & v2 & g3 & q1 & g4 & q2 & Ny' & V1 & V2 & Q1 & Q2 & ->).
  rewrite Ny in Ny'. injection Ny' as <- <-.
  rewrite P1 in Q1. injection Q1 as <- <-.
  rewrite lcgf_R in U1 by exact Lb1. injection U1 as <- <-. rewrite lcgf_R in U2 by apply next_lt. injection U2 as _ <-.
  rewrite lcgf_R in V1 by exact Lb2. injection V1 as <- <-. rewrite lcgf_R in V2 by apply next_lt. injection V2 as _ <-.
  intros H. apply (f_equal (fun l => match l with (IOScalar (z :: _), _) :: _ => z | _ => e1 end)) in H.
  change (Nat.iter (3 * 1) next (next 8)) with 1553067318%N in H.
  change (Nat.iter (3 * 1) next (next 2)) with 472300942%N in H.
  change (next (next 1553067318)) with 120806730%N in H. change (next (next 472300942)) with 989206969%N in H.
  change (next 1553067318) with 1035872543%N in H. change (next 472300942) with 42693406%N in H.
  set (z := sqrt (- (2) * ln (draw 1035872543)) * cos (2 * PI * draw 120806730) * (1 + 1 / 20 * c_norm ROps e1)).
  set (z' := sqrt (- (2) * ln (draw 42693406)) * cos (2 * PI * draw 989206969) * (1 + 1 / 20 * c_norm ROps e1)).
  change (c_add ROps e1 (c_newe ROps z (2 * PI * p1)) = c_add ROps e1 (c_newe ROps z' (2 * PI * p1))) in H.
  assert (Hn : 0 <= c_norm ROps e1) by apply norm_pos_R. unfold z, z' in *. clear z z'.
  set (n := c_norm ROps e1) in *. clearbody n. cbn in n.
  set (z := sqrt (- (2) * ln (draw 1035872543)) * cos (2 * PI * draw 120806730) * (1 + 1 / 20 * n)).
  set (z' := sqrt (- (2) * ln (draw 42693406)) * cos (2 * PI * draw 989206969) * (1 + 1 / 20 * n)).
  fold z z' in H.
  destruct e1 as [x y]. cbn in x, y. unfold c_add, c_newe in H. cbn in H.
  set (ph := 2 * PI * p1) in H. clearbody ph.
  assert (Hc : z * cos ph = z' * cos ph) by (injection H; intros; lra).
  assert (Hs : z * sin ph = z' * sin ph) by (injection H; intros; lra).
  assert (Z : z = z').
  { pose proof (sin2_cos2 ph) as S. unfold Rsqr in S.
    assert (z * (sin ph * sin ph + cos ph * cos ph) = z' * (sin ph * sin ph + cos ph * cos ph)).
    { transitivity (z * sin ph * sin ph + z * cos ph * cos ph); [ring|]. rewrite Hs, Hc. ring. }
    rewrite S in H0. lra. }
  assert (G : forall s : N, (0 < s < P)%N -> 0 < sqrt (- (2) * ln (draw s))).
  { intros s Hs'. apply sqrt_lt_R0. assert (D : 0 < draw s < 1).
    { split; [|apply draw_range; lia]. unfold draw. assert (0 < IZR (Z.of_N s)) by (apply IZR_lt; lia). lra. }
    assert (ln (draw s) < 0) by (rewrite <- ln_1; apply ln_increasing; lra). lra. }
  assert (Zp : 0 < z).
  { unfold z. apply Rmult_lt_0_compat; [|lra]. apply Rmult_lt_0_compat; [apply G; split; reflexivity|].
    pose proof PI_RGT_0. apply cos_gt_0; unfold draw; cbn [Z.of_N]; nra. }
  assert (Zn : z' < 0).
  { unfold z'. assert (Kc : cos (2 * PI * draw 989206969) < 0).
    { pose proof PI_RGT_0. apply cos_lt_0; unfold draw; cbn [Z.of_N]; nra. }
    pose proof (G 42693406%N ltac:(split; reflexivity)) as Kg.
    assert (X : forall g c m : R, 0 < g -> c < 0 -> 0 <= m -> g * c * (1 + 1 / 20 * m) < 0).
    { intros g c m Hg Hc1 Hm. assert (g * c < 0) by nra. nra. }
    apply X; [exact Kg|exact Kc|exact Hn]. }
  lra.
Qed.
Print Assumptions C60_seed_refuted.

(** ** A zero draw in floating point *)
Lemma corrupt_nth : forall Fl pr (thr intp : F Fl) pre c post a b out a' b' out', (b < P)%N ->
  foldM (corrupt_train Fl pr thr intp) (pre ++ c :: post) (a, b, out) = Ret (a', b', out') ->
  exists e1 e2 u1 u2 p1 p2 b1, lcgf Fl pr (Nat.iter (2 * length pre) next b) = Ret (b1, u1) /\
    nth_error out' (length out + 2 * length pre) = nth_error (corrupt_pair Fl thr intp e1 e2 u1 u2 p1 p2) 0.
Proof.
  intros Fl pr thr intp. induction pre as [|c0 pre IH]; intros c post a b out a' b' out' Hb H; cbn [app foldM] in H;
    apply obind_inv in H as [[[a1 b1] o1] [H1 H2]]; unfold corrupt_train in H1.
  - destruct c as [|e1 [|e2 tl]]; [discriminate|discriminate|].
    change (index (e1 :: e2 :: tl) 0) with (Ret e1) in H1. change (index (e1 :: e2 :: tl) 1) with (Ret e2) in H1.
    cbn [obind] in H1.
    apply obind_inv in H1 as [[t1 u1] [E1 H1]]. apply obind_inv in H1 as [[t2 u2] [E2 H1]].
    apply obind_inv in H1 as [[r1 p1] [E3 H1]]. apply obind_inv in H1 as [[r2 p2] [E4 H1]]. injection H1 as <- <- <-.
    exists e1, e2, u1, u2, p1, p2, t1. split; [exact E1|].
    assert (G : forall chs x y o x' y' o', foldM (corrupt_train Fl pr thr intp) chs (x, y, o) = Ret (x', y', o') ->
      exists z, o' = o ++ z).
    { clear. induction chs as [|c chs IH]; intros x y o x' y' o' H; cbn [foldM] in H.
      - injection H as _ _ <-. exists []. now rewrite app_nil_r.
      - apply obind_inv in H as [[[x1 y1] o1] [H1 H2]]. apply IH in H2 as (z & ->). unfold corrupt_train in H1.
        apply obind_inv in H1 as [? [_ H1]]. apply obind_inv in H1 as [? [_ H1]].
        apply obind_inv in H1 as [[? ?] [_ H1]]. apply obind_inv in H1 as [[? ?] [_ H1]].
        apply obind_inv in H1 as [[? ?] [_ H1]]. apply obind_inv in H1 as [[? ?] [_ H1]]. injection H1 as _ _ <-.
        eexists. rewrite <- app_assoc. reflexivity. }
    destruct (G _ _ _ _ _ _ _ H2) as (z & ->). cbn [length Nat.mul]. rewrite Nat.add_0_r.
    rewrite <- app_assoc, nth_error_app2, Nat.sub_diag by lia. reflexivity.
  - destruct c0 as [|e1 [|e2 tl]]; [discriminate|discriminate|].
    change (index (e1 :: e2 :: tl) 0) with (Ret e1) in H1. change (index (e1 :: e2 :: tl) 1) with (Ret e2) in H1.
    cbn [obind] in H1. unfold lcgf in H1. rewrite lcg_next_small in H1 by exact Hb. cbn [obind] in H1.
    rewrite lcg_next_small in H1 by apply next_lt. cbn [obind] in H1.
    apply obind_inv in H1 as [[r1 p1] [E3 H1]]. apply obind_inv in H1 as [[r2 p2] [E4 H1]]. injection H1 as <- <- <-.
    apply IH in H2; [|apply next_lt].
    destruct H2 as (f1 & f2 & v1 & v2 & q1 & q2 & b1 & E & N). exists f1, f2, v1, v2, q1, q2, b1. split.
    + replace (2 * length ((e1 :: e2 :: tl) :: pre))%nat with (S (S (2 * length pre))) by (cbn [length]; lia).
      rewrite !iter_shift. exact E.
    + rewrite <- N. f_equal. rewrite app_length. cbn [length corrupt_pair]. lia.
Qed.

Lemma seventh : forall Fl pr (thr : F Fl) a b a' b' d1 d2 b1 k' b2 w',
  signal_reconstruction Fl pr 8 1 thr a b = Ret (a', b', d1, d2) ->
  lcgi pr b 8 = Ret (b1, k') -> gen_n (draw_wave Fl pr) (N.to_nat k' + 1) b1 = Ret (b2, w') -> (b2 < P)%N ->
  exists x y e1 e2 u1 u2 p1 p2 b3, points d1 = [(IOScalar x, IOScalar y)] /\
    lcgf Fl pr (Nat.iter 6 next b2) = Ret (b3, u1) /\
    nth_error x 6 = nth_error (corrupt_pair Fl thr (fdiv Fl thr (flit Fl 20 1)) e1 e2 u1 u2 p1 p2) 0.
Proof.
  intros Fl pr thr a b a' b' d1 d2 b1 k' b2 w' H K Ew Lt. unfold signal_reconstruction in H. cbv zeta in H.
  fold (times Fl 8) in H. cbn [seq] in H. cbn [foldM] in H.
  apply obind_inv in H as [[[[? ?] ?] ?] [H H']]. injection H' as -> -> -> ->.
  unfold signal_step in H. apply obind_inv in H as [[a1 k] [_ H]]. apply obind_inv in H as [[a2 w] [_ H]].
  rewrite K in H. cbn [obind] in H. rewrite Ew in H. cbn [obind] in H.
  apply obind_inv in H as [y [Ey H]]. apply obind_inv in H as [y' [_ H]]. cbv zeta in H.
  pose proof (normalize_length _ _ _ Ey) as Ly. unfold times in Ly. rewrite !map_length, seq_length in Ly.
  destruct (chunks_two 4 y) as (chs & Ec & _ & Fc); [lia|].
  assert (Lc : length chs = 4%nat).
  { destruct y as [|y0 [|y1 [|y2 [|y3 [|y4 [|y5 [|y6 [|y7 [|? ?]]]]]]]]]; try (cbn in Ly; lia).
    cbv in Ec. injection Ec as <-. reflexivity. }
  rewrite Ec in H. cbn [obind] in H. apply obind_inv in H as [[[a3 b3] x] [Ex H]].
  apply obind_inv in H as [? [_ H]]. apply obind_inv in H as [[? ?] [_ H]]. injection H as _ _ <- _.
  exists x, y.
  destruct chs as [|c0 [|c1 [|c2 [|c3 [|? ?]]]]]; try discriminate Lc.
  apply (corrupt_nth _ _ _ _ [c0; c1; c2] c3 []) in Ex; [|exact Lt].
  destruct Ex as (e1 & e2 & u1 & u2 & p1 & p2 & b4 & E & N). exists e1, e2, u1, u2, p1, p2, b4.
  split; [reflexivity|]. split; [exact E|exact N].
Qed.

Lemma Bplus_nf_r : forall pr em Hp He (x y : binary_float pr em), is_finite y = false ->
  is_finite (@Bplus pr em Hp He mode_NE x y) = false.
Proof. intros pr em Hp He [s|s| |s m e H] [s'|s'| |s' m' e' H']; simpl; auto; try discriminate; intros _; destruct (Bool.eqb _ _); reflexivity. Qed.

Lemma zero_seed : Nat.iter 6 next (Nat.iter 9 next 783234220%N) = 1871412062%N.
Proof. vm_compute. reflexivity. Qed.

Lemma zero_log : forall L, l_ln L (B754_zero false) = B754_infinity true ->
  fsqrt (B32Ops L) (fmul (B32Ops L) (fneg (B32Ops L) (ftwo (B32Ops L)))
    (fln (B32Ops L) (fdiv (B32Ops L) (fofN (B32Ops L) 0) (fofN (B32Ops L) lcg_m)))) = (B754_infinity false : b32).
Proof.
  intros L Hln.
  assert (E : fdiv (B32Ops L) (fofN (B32Ops L) 0) (fofN (B32Ops L) lcg_m) = (B754_zero false : b32)) by reflexivity.
  rewrite E. cbn [fln B32Ops BOps]. rewrite Hln. reflexivity.
Qed.

Lemma pair_eq : forall {A B} (a a' : A) (b b' : B), Ret (a, b) = Ret (a', b') -> b = b'.
Proof. intros A B a a' b b' H. now injection H. Qed.

Lemma pair_first : forall Fl (thr intp : F Fl) e1 e2 u1 u2 p1 p2,
  nth_error (corrupt_pair Fl thr intp e1 e2 u1 u2 p1 p2) 0 =
  Some (c_add Fl e1 (c_newe Fl (fmul Fl (fmul Fl (fsqrt Fl (fmul Fl (fneg Fl (ftwo Fl)) (fln Fl u1)))
    (fcos Fl (fmul Fl (fmul Fl (ftwo Fl) (fpi Fl)) u2))) (fadd Fl thr (fmul Fl intp (c_norm Fl e1))))
    (fmul Fl (fmul Fl (ftwo Fl) (fpi Fl)) p1))).
Proof. reflexivity. Qed.

Lemma noise_nf : forall L e1 (c n ph : b32),
  let z := c_add (B32Ops L) e1 (c_newe (B32Ops L) (fmul (B32Ops L) (fmul (B32Ops L) (B754_infinity false : b32) c) n) ph) in
  is_finite (re z : b32) = false /\ is_finite (im z : b32) = false.
Proof.
  intros L e1 c n ph z. split; subst z; cbn [c_add c_newe re im]; apply Bplus_nf_r; repeat apply Bmult_nf_l; reflexivity.
Qed.

(** With the test seed 285924089 the fourth pair of training samples of an
    8-sample signal draws 0, and the seventh noisy sample is not finite. *)
Theorem C60_zero_draw : forall L, l_ln L (B754_zero false) = B754_infinity true ->
  forall pr thr train s1 s2 dtr dte,
  signal_reconstruction (B32Ops L) pr 8 1 thr train 285924089 = Ret (s1, s2, dtr, dte) ->
  exists x y z, points dtr = [(IOScalar x, IOScalar y)] /\ nth_error x 6 = Some z /\
    is_finite (re z : b32) = false /\ is_finite (im z : b32) = false.
Proof.
  intros L Hln pr thr train s1 s2 dtr dte H.
  assert (K : lcgi pr 285924089 8 = Ret (783234220%N, 2%N)).
  { unfold lcgi. rewrite lcg_next_small by reflexivity. reflexivity. }
  destruct (waves_seed (B32Ops L) pr (N.to_nat 2 + 1) 783234220 eq_refl) as (w' & Ew & Lt).
  destruct (seventh _ _ _ _ _ _ _ _ _ _ _ _ _ H K Ew Lt) as (x & y & e1 & e2 & u1 & u2 & p1 & p2 & b1 & Ed & E & N).
  exists x, y.
  assert (Es : Nat.iter 6 next (Nat.iter (3 * (N.to_nat 2 + 1)) next 783234220%N) = 1871412062%N) by exact zero_seed.
  rewrite Es in E. clear Es. unfold lcgf in E. rewrite lcg_next_small in E by reflexivity. cbn [obind] in E.
  assert (Ez : next 1871412062 = 0%N) by (vm_compute; reflexivity). rewrite Ez in E.
  apply pair_eq in E. pose proof (zero_log L Hln) as S. rewrite E in S. clear E.
  rewrite pair_first, S in N. eexists. split; [exact Ed|]. split; [exact N|]. apply noise_nf.
Qed.
Print Assumptions C60_zero_draw.

Example C60_ex : Nat.even 4 = true /\ seed_ok Dev 7 /\ Nat.odd 3 = true /\ noise_bound 0 = 0.
Proof. split; [reflexivity|]. split; [right; reflexivity|]. split; [reflexivity|]. unfold noise_bound. ring. Qed.

(** A libm for which the call of [C60_zero_draw] returns. *)
Definition toy_libm : libm b32 :=
  mkLibm b32 (fun x => x) (fun x => match x with B754_zero _ => B754_infinity true | y => y end)
    (fun x => x) (fun _ => Bofz 24 128 prec24 emax128 1) (fun x => x) (fun x => x) (fun x => x) (fun x _ => x) (fun _ => false).
Example C60_ex_zero : l_ln toy_libm (B754_zero false) = B754_infinity true /\
  match signal_reconstruction (B32Ops toy_libm) Dev 8 1 (Bofz 24 128 prec24 emax128 1) 1 285924089 with
  | Ret _ => true | Panic => false end = true.
Proof. split; [reflexivity|]. vm_compute. reflexivity. Qed.
