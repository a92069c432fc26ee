(** * Properties C06-C12: random numbers *)
From Coq Require Import ZArith NArith Reals Lra Psatz.
From Flocq Require Import Core BinarySingleNaN Mult_error.
From Verif Require Import Base BaseFacts Float Matrix Cplx Random RFloat BFloat CFacts BFacts.
Local Open Scope N_scope.
Local Notation P32 := Float.P32.
Local Notation P64 := Float.P64.
Local Notation re := Cplx.re.
Local Notation im := Cplx.im.

(** The textbook recurrence. *)
Definition P : N := 2147483647.
Definition next (s : N) : N := (1103515245 * s + 12345) mod P.

Lemma P_eq : lcg_m - 1 = P.
Proof. reflexivity. Qed.

Lemma next_lt : forall s, next s < P.
Proof. intros. apply N.mod_lt. discriminate. Qed.

Lemma lcg_next_no_overflow : forall pr s, 1103515245 * s + 12345 < 2 ^ 128 -> lcg_next pr s = Ret (next s).
Proof.
  intros pr s H. unfold lcg_next, u128_muladd. change u128_max1 with (2 ^ 128).
  change lcg_a with 1103515245. change lcg_b with 12345. rewrite P_eq. destruct pr.
  - rewrite (proj2 (N.ltb_lt _ _)) by lia. rewrite (proj2 (N.ltb_lt _ _)) by lia. reflexivity.
  - rewrite (N.mod_small (1103515245 * s)) by lia. rewrite (N.mod_small (_ + _)) by lia. reflexivity.
Qed.

Lemma lcg_next_small : forall pr s, s < P -> lcg_next pr s = Ret (next s).
Proof. intros. apply lcg_next_no_overflow. unfold P in *. lia. Qed.

Lemma lcg_next_range : forall pr s s', lcg_next pr s = Ret s' -> s' < P.
Proof.
  intros pr s s' H. unfold lcg_next in H. rewrite P_eq in H. destruct (u128_muladd _ _ _ _); [|discriminate].
  cbn [obind] in H. injection H as <-. apply N.mod_lt. discriminate.
Qed.

Lemma lcg_next_dev : forall s, lcg_next Dev s = Panic <-> 2 ^ 128 <= 1103515245 * s + 12345.
Proof.
  intros s. unfold lcg_next, u128_muladd. change u128_max1 with (2 ^ 128).
  change lcg_a with 1103515245. change lcg_b with 12345.
  destruct (N.ltb_spec (1103515245 * s) (2 ^ 128)).
  - destruct (N.ltb_spec (1103515245 * s + 12345) (2 ^ 128)); cbn [obind]; split; intros; try discriminate; auto; lia.
  - cbn [obind]. split; intros; auto; lia.
Qed.

Lemma lcg_next_release : forall s, exists s', lcg_next Release s = Ret s'.
Proof. intros. unfold lcg_next. simpl. eauto. Qed.

(** ** C06 *)
Theorem C06_range : forall Fl pr seed limit s,
  (forall u, lcgf Fl pr seed = Ret (s, u) -> s <= 2 ^ 31 - 2) /\
  (forall k, lcgi pr seed limit = Ret (s, k) -> s <= 2 ^ 31 - 2).
Proof.
  intros Fl pr seed limit s. split; intros x H; unfold lcgf, lcgi in H; destruct (lcg_next pr seed) as [s'|] eqn:E;
    try discriminate; apply lcg_next_range in E; cbn [obind] in H; unfold P in E.
  - injection H as <- _. lia.
  - destruct (limit =? 0); [discriminate|]. destruct (_ =? 0); [discriminate|]. injection H as <- _. lia.
Qed.
Print Assumptions C06_range.

(** With overflow checks a float draw panics exactly for initial seeds whose
    product overflows; without them it never panics, and the two profiles
    agree where the first does not panic. *)
Theorem C06_first_call : forall Fl seed,
  (lcgf Fl Dev seed = Panic <-> (2 ^ 128 - 1 - 12345) / 1103515245 < seed) /\
  (exists r, lcgf Fl Release seed = Ret r) /\
  (seed <= (2 ^ 128 - 1 - 12345) / 1103515245 ->
     forall pr, lcgf Fl pr seed = Ret (next seed, fdiv Fl (fofN Fl (next seed)) (fofN Fl (2 ^ 31)))).
Proof.
  intros Fl seed. change ((2 ^ 128 - 1 - 12345) / 1103515245) with 308362180280471307365920991360.
  split; [|split].
  - unfold lcgf. destruct (lcg_next Dev seed) as [s|] eqn:E; cbn [obind].
    + split; [discriminate|]. intros H. assert (X : lcg_next Dev seed = Panic) by (apply lcg_next_dev; lia). congruence.
    + apply lcg_next_dev in E. split; auto; lia.
  - unfold lcgf. destruct (lcg_next_release seed) as [s ->]. cbn [obind]. eauto.
  - intros H pr. unfold lcgf. rewrite lcg_next_no_overflow by lia. reflexivity.
Qed.
Print Assumptions C06_first_call.

(** Any mix of calls of the three functions, on a shared seed. *)
Inductive call := CallF32 | CallF64 | CallI (limit : N).
Definition do_call (F32 F64 : FloatOps) (pr : profile) (s : N) (c : call) : outcome N :=
  match c with
  | CallF32 => r <- lcgf F32 pr s ;; Ret (fst r)
  | CallF64 => r <- lcgf F64 pr s ;; Ret (fst r)
  | CallI limit => r <- lcgi pr s limit ;; Ret (fst r)
  end.
Definition legal (c : call) : Prop := match c with CallI limit => 1 <= limit <= P | _ => True end.

Lemma lcgi_ok : forall pr s limit, 1 <= limit <= P -> s < P -> lcgi pr s limit = Ret (next s, next s / (P / limit)).
Proof.
  intros pr s limit H Hs. unfold lcgi. rewrite lcg_next_small by auto. cbn [obind].
  rewrite (proj2 (N.eqb_neq limit 0)) by lia. rewrite P_eq.
  assert (1 <= P / limit) by (apply N.div_le_lower_bound; lia).
  rewrite (proj2 (N.eqb_neq _ 0)) by lia. reflexivity.
Qed.

Theorem C06_history : forall F32 F64 pr cs seed c s, Forall legal cs ->
  do_call F32 F64 pr seed c = Ret s ->
  foldM (do_call F32 F64 pr) cs s = Ret (Nat.iter (length cs) next s) /\ Nat.iter (length cs) next s < P.
Proof.
  intros F32 F64 pr cs seed c s L H.
  assert (Hs : s < P).
  { destruct c; cbn [do_call] in H.
    - destruct (lcgf F32 pr seed) as [[x u]|] eqn:E; [|discriminate]. cbn in H. injection H as <-.
      apply (proj1 (C06_range F32 pr seed 0 x)) in E. unfold P. lia.
    - destruct (lcgf F64 pr seed) as [[x u]|] eqn:E; [|discriminate]. cbn in H. injection H as <-.
      apply (proj1 (C06_range F64 pr seed 0 x)) in E. unfold P. lia.
    - destruct (lcgi pr seed limit) as [[x u]|] eqn:E; [|discriminate]. cbn in H. injection H as <-.
      apply (proj2 (C06_range F32 pr seed limit x)) in E. unfold P. lia. }
  clear H seed c. revert s Hs. induction L as [|c cs Hc L IH]; intros s Hs; [auto|].
  cbn [foldM length]. assert (E : do_call F32 F64 pr s c = Ret (next s)).
  { destruct c; cbn [do_call]; unfold lcgf; try rewrite lcg_next_small by auto; try reflexivity.
    rewrite lcgi_ok by auto. reflexivity. }
  rewrite E. cbn [obind]. destruct (IH (next s) (next_lt s)) as [H1 H2].
  assert (Q : forall n x, Nat.iter n next (next x) = Nat.iter (S n) next x).
  { induction n; intros; [reflexivity|].
    change (next (Nat.iter n next (next x)) = next (Nat.iter (S n) next x)). now rewrite IHn. }
  rewrite Q in H1, H2. auto.
Qed.
Print Assumptions C06_history.

Example C06_ex : do_call ROps ROps Dev 5 (CallI 8) = Ret 1222621276 /\ legal (CallI 8)
  /\ foldM (do_call ROps ROps Dev) [CallI 8; CallI 3] 1222621276 = Ret 1321508414.
Proof. split; [|split]; [reflexivity | split; discriminate | reflexivity]. Qed.

(** ** C07 *)
(** One step of the generator on a legal state (C06): [next].  Its inverse is
    multiplication by the inverse 2104886853 of the multiplier modulo P. *)
Definition prev (t : N) : N := (2104886853 * (t + P - 12345)) mod P.

Lemma prev_next : forall s, s < P -> prev (next s) = s.
Proof.
  intros s H. unfold prev, next. set (t := 1103515245 * s + 12345).
  pose proof (N.div_mod t P ltac:(discriminate)) as D. pose proof (N.mod_lt t P ltac:(discriminate)) as L.
  set (k := t / P) in *. set (n := t mod P) in *. clearbody k n. unfold P in *.
  symmetry. apply (N.mod_unique _ _ (1081626272 * s + 2104886853 - 2104886853 * k)); [assumption|].
  unfold t in D. lia.
Qed.
Lemma next_prev : forall t, t < P -> next (prev t) = t.
Proof.
  intros t H. unfold prev, next. set (u := 2104886853 * (t + P - 12345)).
  pose proof (N.div_mod u P ltac:(discriminate)) as D. pose proof (N.mod_lt u P ltac:(discriminate)) as L.
  set (k := u / P) in *. set (n := u mod P) in *. clearbody k n. unfold P in *.
  symmetry. apply (N.mod_unique _ _ (1 + 1081626272 * (t + 2147483647 - 12345) - 1103515245 * k)); [assumption|].
  unfold u in D. lia.
Qed.

Theorem C07_permutation :
  (forall s t, s < P -> t < P -> next s = next t -> s = t) /\
  (forall t, t < P -> exists s, s < P /\ next s = t) /\
  (forall n s t, s < P -> t < P -> Nat.iter n next s = Nat.iter n next t -> s = t) /\
  (forall pr s, s < P -> lcg_next pr s = Ret (next s)).
Proof.
  assert (I : forall s t, s < P -> t < P -> next s = next t -> s = t).
  { intros s t Hs Ht E. rewrite <- (prev_next s), <- (prev_next t), E; auto. }
  split; [exact I | split; [|split]].
  - intros t Ht. exists (prev t). split; [apply N.mod_lt; discriminate | now apply next_prev].
  - induction n as [|n IH]; intros s t Hs Ht E; [exact E|].
    change (next (Nat.iter n next s) = next (Nat.iter n next t)) in E.
    assert (B : forall x, x < P -> Nat.iter n next x < P).
    { intros x Hx. destruct n; [exact Hx | apply next_lt]. }
    apply IH; auto.
  - exact lcg_next_small.
Qed.
Print Assumptions C07_permutation.

(** A seed of any size, unless it makes the first call overflow, acts like one
    below 2^31 - 1, in every function that draws numbers. *)
Theorem C07_any_seed : forall pr seed, (pr = Dev /\ (2 ^ 128 - 1 - 12345) / 1103515245 < seed) \/ exists t, t < P /\
  (forall limit, lcgi pr seed limit = lcgi pr t limit) /\
  forall Fl, lcgf Fl pr seed = lcgf Fl pr t /\ (forall scale, r_gen Fl pr seed scale = r_gen Fl pr t scale) /\
    (forall p scale, c_gen Fl p pr seed scale = c_gen Fl p pr t scale) /\ forall p m, init_gen Fl p pr m seed = init_gen Fl p pr m t.
Proof.
  intros pr seed. change ((2 ^ 128 - 1 - 12345) / 1103515245) with 308362180280471307365920991360.
  assert (S : (exists s, lcg_next pr seed = Ret s) \/ pr = Dev /\ 308362180280471307365920991360 < seed).
  { destruct pr; [|left; apply lcg_next_release]. destruct (lcg_next Dev seed) as [s|] eqn:E; [eauto|]. right. apply lcg_next_dev in E. split; [reflexivity | lia]. }
  destruct S as [(s & E)|S]; [right|now left]. assert (SP : s < P).
  { unfold lcg_next in E. destruct (u128_muladd pr lcg_a seed lcg_b) as [t|]; [|discriminate]. cbn [obind] in E. injection E as <-. apply N.mod_lt. discriminate. }
  destruct C07_permutation as (_ & O & _ & N1). destruct (O s SP) as (t & T & TS). exists t. split; [exact T|].
  assert (EQ : lcg_next pr seed = lcg_next pr t) by (rewrite (N1 pr t T), TS; exact E).
  split; [intros; unfold lcgi; now rewrite EQ|]. intros Fl. assert (L : lcgf Fl pr seed = lcgf Fl pr t) by (unfold lcgf; now rewrite EQ).
  split; [exact L|]. split; [intros; unfold r_gen; now rewrite L|]. split; [intros; unfold c_gen; now rewrite L|].
  intros p []; unfold init_gen, c_gen, gen_xagu, gen_xagn, gen_he, gen_normal, gen_xa; now rewrite L.
Qed.
Print Assumptions C07_any_seed.

Example C07_ex_any : lcgi Dev (2 ^ 64) 8 = lcgi Dev 4 8 /\ lcgi Release (2 ^ 127) 8 <> Panic.
Proof. split; [reflexivity | discriminate]. Qed.

Theorem C07_stuck_seed : exists z, z < P /\ (forall s, s < P -> (next s = s <-> s = z)) /\
  forall n, Nat.iter n next z = z.
Proof.
  exists 1934915413. split; [reflexivity|]. split.
  - intros s Hs. split; [|intros ->; reflexivity].
    unfold next. pose proof (N.div_mod (1103515245 * s + 12345) P ltac:(discriminate)) as D.
    intros E. rewrite E in D. set (k := (1103515245 * s + 12345) / P) in D. clearbody k. clear E.
    unfold P in *.
    (* multiply by the inverse 339752785 of 1103515244 *)
    assert (E : s + 12345 * 339752785 = 2147483647 * (339752785 * k - 174586837 * s)) by lia.
    set (q := 339752785 * k - 174586837 * s) in E. clearbody q. lia.
  - induction n as [|n IH]; [reflexivity|].
    change (next (Nat.iter n next 1934915413) = 1934915413). rewrite IH. reflexivity.
Qed.
Print Assumptions C07_stuck_seed.

Example C07_ex : next 1871412062 = 0 /\ next 1914008856 = P - 1 /\ next 1934915413 = 1934915413.
Proof. repeat split. Qed.

(** ** C08 *)
Lemma fofN_small : forall pr em Hp He L s, (Z.of_N s <= 2 ^ pr)%Z ->
  let x := fofN (BOps pr em Hp He L) s in
  is_finite (x : binary_float pr em) = true /\ B2R (x : binary_float pr em) = IZR (Z.of_N s).
Proof.
  intros pr em Hp He L s H x. destruct (Bofz_exact pr em Hp He (Z.of_N s)) as [H1 H2]; [lia|]. auto.
Qed.

Local Open Scope R_scope.

Theorem C08_f64 : forall L pr seed s u, lcgf (B64Ops L) pr seed = Ret (s, u) ->
  is_finite (u : b64) = true /\ B2R (u : b64) = IZR (Z.of_N s) / 2 ^ 31 /\ 0 <= B2R (u : b64) < 1.
Proof.
  intros L pr seed s u H. pose proof (proj1 (C06_range _ _ _ 0 _) _ H) as Hs. change (2 ^ 31 - 2)%N with 2147483646%N in Hs.
  unfold lcgf in H. destruct (lcg_next pr seed) as [s'|]; [|discriminate]. cbn [obind] in H.
  assert (E1 : s' = s) by congruence. subst s'.
  assert (E2 : u = fdiv (B64Ops L) (fofN (B64Ops L) s) (fofN (B64Ops L) lcg_m)) by congruence. clear H. rewrite E2.
  set (x := fofN (B64Ops L) s). set (y := fofN (B64Ops L) lcg_m).
  destruct (fofN_small 53 1024 prec53 emax1024 L s ltac:(lia)) as [Fx Rx].
  destruct (fofN_small 53 1024 prec53 emax1024 L lcg_m ltac:(discriminate)) as [Fy Ry].
  fold (B64Ops L) in Fx, Rx, Fy, Ry. fold x in Fx, Rx. fold y in Fy, Ry.
  pose proof (Bdiv_correct 53 1024 prec53 emax1024 mode_NE x y) as D. change (Z.of_N lcg_m) with 2147483648%Z in Ry.
  rewrite Ry, Rx in D. specialize (D ltac:(lra)).
  assert (V : IZR (Z.of_N s) / 2147483648 = F2R (Float radix2 (Z.of_N s) (-31))).
  { unfold F2R. simpl. unfold Rdiv. reflexivity. }
  assert (Bd : 0 <= IZR (Z.of_N s) / 2147483648 < 1).
  { assert (0 <= IZR (Z.of_N s) <= 2147483646) by (split; apply IZR_le; lia). lra. }
  rewrite round_generic in D.
  - rewrite Rlt_bool_true in D.
    + destruct D as [D1 [D2 _]]. change (fdiv (B64Ops L) x y) with (Bdiv mode_NE (x : b64) y). rewrite D1, D2. split; [exact Fx|].
      split; [|exact Bd]. simpl. lra.
    + rewrite Rabs_pos_eq by lra. apply Rlt_le_trans with (bpow radix2 0); [simpl; lra|]. apply bpow_le. discriminate.
  - auto with typeclass_instances.
  - rewrite V. apply generic_format_F2R. intros N. cbn [Fnum Fexp]. unfold cexp, SpecFloat.fexp, SpecFloat.emin.
    assert (mag radix2 (F2R (Float radix2 (Z.of_N s) (-31))) <= 0)%Z.
    { apply mag_le_bpow; rewrite <- V.
      - assert (IZR (Z.of_N s) <> 0) by (now apply IZR_neq). lra.
      - rewrite Rabs_pos_eq by lra. simpl. lra. }
    lia.
Qed.
Print Assumptions C08_f64.

Lemma f32_parts : forall L (s : N), (s < P)%N ->
  let x := fofN (B32Ops L) s in let y := fofN (B32Ops L) lcg_m in
  is_finite (x : b32) = true /\ 0 <= B2R (x : b32) <= 2147483648 /\
  B2R (x : b32) = round radix2 (FLT_exp (-149) 24) ZnearestE (IZR (Z.of_N s)) /\
  B2R (y : b32) = 2147483648.
Proof.
  intros L s Hs x y. unfold P in Hs.
  pose proof (binary_normalize_correct 24 128 prec24 emax128 mode_NE (Z.of_N s) 0 false) as H.
  cbn [round_mode] in H. replace (F2R (Float radix2 (Z.of_N s) 0)) with (IZR (Z.of_N s)) in H by (unfold F2R; simpl; ring).
  change (SpecFloat.fexp 24 128) with (FLT_exp (-149) 24) in H.
  set (v := round radix2 (FLT_exp (-149) 24) ZnearestE (IZR (Z.of_N s))) in *.
  assert (V : 0 <= v <= 2147483648).
  { split.
    - rewrite <- (round_0 radix2 (FLT_exp (-149) 24) ZnearestE). apply round_le; auto with typeclass_instances.
      apply IZR_le. lia.
    - assert (G : generic_format radix2 (FLT_exp (-149) 24) 2147483648).
      { change 2147483648 with (bpow radix2 31). apply generic_format_bpow. unfold FLT_exp. lia. }
      rewrite <- (round_generic radix2 (FLT_exp (-149) 24) ZnearestE _ G). apply round_le; auto with typeclass_instances.
      apply IZR_le. lia. }
  rewrite Rlt_bool_true in H.
  - destruct H as [H1 [H2 _]]. change (B2R x = v) in H1. change (is_finite x = true) in H2.
    split; [exact H2|]. rewrite H1. split; [exact V|]. split; [reflexivity|].
    pose proof (binary_normalize_correct 24 128 prec24 emax128 mode_NE 2147483648 0 false) as K.
    cbn [round_mode] in K. replace (F2R (Float radix2 2147483648 0)) with 2147483648 in K by (unfold F2R; simpl; ring).
    rewrite round_generic in K; auto with typeclass_instances.
    + rewrite Rlt_bool_true in K; [apply K|]. rewrite Rabs_pos_eq by lra.
      change 2147483648 with (bpow radix2 31). apply bpow_lt. reflexivity.
    + change 2147483648 with (bpow radix2 31). apply generic_format_bpow. unfold SpecFloat.fexp, SpecFloat.emin. lia.
  - rewrite Rabs_pos_eq by lra. apply Rle_lt_trans with (bpow radix2 31); [simpl; lra|]. apply bpow_lt. reflexivity.
Qed.

(** The f32 draw is the state rounded to 24 bits, divided by 2^31 exactly. *)
Theorem C08_f32 : forall L pr seed s u, lcgf (B32Ops L) pr seed = Ret (s, u) ->
  is_finite (u : b32) = true /\ 0 <= B2R (u : b32) <= 1 /\
  B2R (u : b32) = round radix2 (FLT_exp (-149) 24) ZnearestE (IZR (Z.of_N s)) / 2 ^ 31.
Proof.
  intros L pr seed s u H. pose proof (proj1 (C06_range _ _ _ 0 _) _ H) as Hs.
  unfold lcgf in H. destruct (lcg_next pr seed) as [s'|]; [|discriminate]. cbn [obind] in H.
  assert (E1 : s' = s) by congruence. subst s'.
  assert (E2 : u = fdiv (B32Ops L) (fofN (B32Ops L) s) (fofN (B32Ops L) lcg_m)) by congruence. clear H. rewrite E2.
  destruct (f32_parts L s) as [Fx [Bx [Rx Ry]]].
  { unfold P. change (2 ^ 31 - 2)%N with 2147483646%N in Hs. lia. }
  set (x := fofN (B32Ops L) s) in *. set (y := fofN (B32Ops L) lcg_m) in *.
  set (v := round radix2 (FLT_exp (-149) 24) ZnearestE (IZR (Z.of_N s))) in *.
  pose proof (Bdiv_correct 24 128 prec24 emax128 mode_NE x y) as D.
  rewrite Ry in D. specialize (D ltac:(lra)). rewrite Rx in *.
  change (SpecFloat.fexp 24 128) with (FLT_exp (-149) 24) in D.
  assert (G : generic_format radix2 (FLT_exp (-149) 24) (v / 2147483648)).
  { change (v / 2147483648) with (v * bpow radix2 (-31)).
    destruct (Req_dec v 0) as [->|Nz]; [rewrite Rmult_0_l; apply generic_format_0|].
    apply mult_bpow_exact_FLT; [apply generic_format_round; auto with typeclass_instances|].
    assert (N1 : s <> 0%N).
    { intros ->. apply Nz. unfold v. apply round_0. auto with typeclass_instances. }
    assert (1 <= v).
    { assert (G1 : generic_format radix2 (FLT_exp (-149) 24) 1).
      { change 1 with (bpow radix2 0). apply generic_format_bpow. unfold FLT_exp. lia. }
      rewrite <- (round_generic radix2 (FLT_exp (-149) 24) ZnearestE _ G1). apply round_le; auto with typeclass_instances.
      apply IZR_le. lia. }
    assert (1 <= mag radix2 v)%Z. { apply mag_ge_bpow. simpl. rewrite Rabs_pos_eq; lra. }
    lia. }
  cbn [round_mode] in D. rewrite round_generic in D by auto with typeclass_instances.
  rewrite Rlt_bool_true in D.
  - destruct D as [D1 [D2 _]]. change (fdiv (B32Ops L) x y) with (Bdiv mode_NE (x : b32) y). rewrite D1, D2. split; [exact Fx|]. split; [lra|]. simpl. lra.
  - rewrite Rabs_pos_eq by lra. apply Rle_lt_trans with (bpow radix2 0); [simpl; lra|]. apply bpow_lt. reflexivity.
Qed.
Print Assumptions C08_f32.

(** The interval is not half open for f32: this seed draws exactly 1.0. *)
Theorem C08_f32_refuted : forall L, exists seed s u,
  lcgf (B32Ops L) Dev seed = Ret (s, u) /\ B2R (u : b32) = 1.
Proof.
  intros L. exists 1914008856%N, 2147483646%N. eexists. split; [reflexivity|].
  destruct (C08_f32 L Dev 1914008856%N 2147483646%N _ eq_refl) as [_ [_ ->]].
  destruct (f32_parts L 2147483646%N eq_refl) as [_ [_ [<- Ry]]].
  change (fofN (B32Ops L) 2147483646) with (Bofz 24 128 prec24 emax128 2147483646).
  assert (E : B2SF (Bofz 24 128 prec24 emax128 2147483646) = B2SF (Bofz 24 128 prec24 emax128 2147483648))
    by (vm_compute; reflexivity).
  apply B2SF_inj in E. rewrite E. change (B2R (Bofz 24 128 prec24 emax128 2147483648) = 2147483648) in Ry.
  rewrite Ry. simpl. lra.
Qed.
Print Assumptions C08_f32_refuted.

Example C08_ex : forall L, exists u, lcgf (B64Ops L) Dev 5 = Ret (1222621276%N, u) /\ B2R (u : b64) = 1222621276 / 2147483648.
Proof.
  intros L. eexists. split; [reflexivity|].
  destruct (C08_f64 L Dev 5 1222621276 _ eq_refl) as [_ [-> _]]. simpl. lra.
Qed.

Local Open Scope N_scope.

(** ** C09 *)
Theorem C09_panics : forall pr seed limit, seed < P ->
  (lcgi pr seed limit = Panic <-> limit = 0 \/ P < limit).
Proof.
  intros pr seed limit Hs. destruct (N.eq_dec limit 0) as [->|N0].
  - split; auto. intros _. unfold lcgi. rewrite lcg_next_small by auto. reflexivity.
  - destruct (N.le_gt_cases limit P) as [H|H].
    + rewrite lcgi_ok by lia. split; [discriminate | intros [|]; lia].
    + split; auto. intros _. unfold lcgi. rewrite lcg_next_small by auto. cbn [obind].
      rewrite (proj2 (N.eqb_neq limit 0)) by auto. rewrite P_eq, N.div_small by auto. reflexivity.
Qed.
Print Assumptions C09_panics.

Theorem C09_range : forall pr limit, 1 <= limit <= P ->
  let top := (P - 1) / (P / limit) in
  (forall seed, seed < P -> exists k, lcgi pr seed limit = Ret (next seed, k) /\ k <= top) /\
  (exists seed, seed < P /\ lcgi pr seed limit = Ret (next seed, top)) /\
  ((forall seed s k, seed < P -> lcgi pr seed limit = Ret (s, k) -> k < limit) <-> N.divide limit P) /\
  (limit <= 46340 -> top <= limit).
Proof.
  intros pr limit H top. assert (Q : 1 <= P / limit) by (apply N.div_le_lower_bound; lia).
  pose proof (N.div_mod P limit ltac:(lia)) as D. pose proof (N.mod_lt P limit ltac:(lia)) as M.
  assert (A : exists seed, seed < P /\ lcgi pr seed limit = Ret (next seed, top)).
  { exists 1914008856. split; [reflexivity|]. rewrite lcgi_ok by (auto; reflexivity). reflexivity. }
  split; [|split; [exact A|split]].
  - intros seed Hs. rewrite lcgi_ok by auto. eexists. split; [reflexivity|].
    apply N.div_le_mono; [lia|]. pose proof (next_lt seed). lia.
  - split.
    + intros K. destruct A as [seed [Hs E]]. specialize (K _ _ _ Hs E).
      apply N.mod_divide; [lia|]. set (q := P / limit) in *. set (r := P mod limit) in *.
      assert (top < limit) by exact K. unfold top in H0.
      pose proof (N.div_mod (P - 1) q ltac:(lia)) as D2. pose proof (N.mod_lt (P - 1) q ltac:(lia)).
      set (t := (P - 1) / q) in *. set (r2 := (P - 1) mod q) in *. clearbody t r2 q r.
      assert (q * (t + 1) <= q * limit) by (apply N.mul_le_mono_l; lia).
      assert (limit * q = q * limit) by apply N.mul_comm. lia.
    + intros [c Hc] seed s k Hs E. rewrite lcgi_ok in E by auto. injection E as _ <-.
      assert (Hq : P / limit = c) by (rewrite Hc; apply N.div_mul; lia).
      rewrite Hq. apply N.div_lt_upper_bound; [lia|]. rewrite <- Hc. apply next_lt.
  - intros L. unfold top. apply N.lt_succ_r. apply N.div_lt_upper_bound; [lia|].
    set (q := P / limit) in *. set (r := P mod limit) in *.
    assert (limit <= q).
    { unfold q. apply N.div_le_lower_bound; [lia|]. transitivity (46340 * 46340); [|discriminate].
      apply N.mul_le_mono; lia. }
    assert (q * N.succ limit = limit * q + q) by (rewrite N.mul_succ_r, (N.mul_comm q); reflexivity).
    unfold P in *. clearbody q r. lia.
Qed.
Print Assumptions C09_range.

(** The library asks for an index into 8 waves and can get index 8. *)
Theorem C09_refuted : exists seed s, seed < P /\ lcgi Dev seed 8 = Ret (s, 8).
Proof. exists 1914008856, 2147483646. split; reflexivity. Qed.
Print Assumptions C09_refuted.

Example C09_ex : lcgi Dev 5 8 = Ret (1222621276, 4) /\ lcgi Dev 5 0 = Panic /\ ~ N.divide 8 P.
Proof. repeat split; try reflexivity. intros H. apply N.mod_divide in H; discriminate. Qed.

(** ** C10 *)
Local Open Scope R_scope.
(** The draw belonging to a generator state, in exact arithmetic. *)
Definition draw (s : N) : R := IZR (Z.of_N s) / 2147483648.

Lemma draw_range : forall s, (s < P)%N -> 0 <= draw s < 1.
Proof.
  intros s H. unfold draw, P in *. assert (0 <= IZR (Z.of_N s) <= 2147483647) by (split; apply IZR_le; lia). lra.
Qed.

Lemma lcgf_R : forall pr s, (s < P)%N -> lcgf ROps pr s = Ret (next s, draw (next s)).
Proof. intros. unfold lcgf. rewrite lcg_next_small by auto. reflexivity. Qed.

Lemma phase_R : forall pr s, (s < P)%N -> draw_phase ROps pr s = Ret (next s, 2 * draw (next s) * PI).
Proof. intros. unfold draw_phase. rewrite lcgf_R by auto. reflexivity. Qed.

Lemma polar_norm : forall r phi, c_norm ROps (mkC (r * cos phi) (r * sin phi)) = Rabs r.
Proof.
  intros. unfold c_norm, fsq. cbn [fsqrt fadd fmul ROps re im].
  replace (r * cos phi * (r * cos phi) + r * sin phi * (r * sin phi)) with (Rsqr r).
  - apply sqrt_Rsqr_abs.
  - pose proof (sin2_cos2 phi) as E. unfold Rsqr in *. nra.
Qed.

Lemma spread : forall a u, 0 <= a -> 0 <= u < 1 -> Rabs (a * u) <= a /\ Rabs (u * a) <= a /\
  Rabs (2 * a * u - a) <= a /\ Rabs (2 * u * a - a) <= a.
Proof. intros a u Ha Hu. repeat split; apply Rabs_le; nra. Qed.

Lemma nat_R : forall n, fofnat ROps n = INR n.
Proof. intros. unfold fofnat. simpl. rewrite nat_N_Z. symmetry. apply INR_IZR_INZ. Qed.

Theorem C10_disc : forall (p : prec) pr seed, (seed < P)%N ->
  (forall scale, exists z, c_gen ROps p pr seed scale = Ret (next (next seed), z)
      /\ c_norm ROps z <= INR scale) /\
  (forall n, exists z, gen_xa ROps p pr seed n = Ret (next (next seed), z)
      /\ ((1 <= n)%nat -> c_norm ROps z <= sqrt (12 / INR n))) /\
  (forall n, exists z, gen_xagu ROps p pr seed n = Ret (next (next seed), z)
      /\ ((1 <= n)%nat -> c_norm ROps z <= sqrt (6 / INR n))).
Proof.
  intros p pr seed H.
  pose proof (draw_range _ (next_lt seed)) as U. set (u := draw (next seed)) in *.
  split; [|split].
  - intros scale. unfold c_gen. rewrite lcgf_R by auto. cbn [obind]. rewrite phase_R by apply next_lt. cbn [obind].
    eexists. split; [reflexivity|]. cbn [fmul fcos fsin ROps]. rewrite polar_norm, nat_R. fold u.
    destruct (spread (INR scale) u (pos_INR scale) U) as [H1 [H2 [H3 H4]]].
    destruct p; assumption.
  - intros n. unfold gen_xa. rewrite lcgf_R by auto. cbn [obind]. rewrite phase_R by apply next_lt. cbn [obind].
    eexists. split; [reflexivity|]. intros Hn. cbn [fmul fcos fsin ROps]. rewrite polar_norm, nat_R. fold u.
    cbn [fsqrt fdiv flit ROps]. change (fone ROps) with 1. unfold Rlit.
    replace (1 / INR n * 12) with (12 / INR n) by (unfold Rdiv; ring).
    destruct (spread (sqrt (12 / INR n)) u (sqrt_pos _) U) as [H1 [H2 [H3 H4]]].
    destruct p; assumption.
  - intros n. unfold gen_xagu. rewrite lcgf_R by auto. cbn [obind]. rewrite phase_R by apply next_lt. cbn [obind].
    eexists. split; [reflexivity|]. intros Hn. cbn [fmul fcos fsin ROps]. rewrite polar_norm, nat_R. fold u.
    cbn [fsqrt fdiv flit ROps]. unfold Rlit.
    destruct (spread (sqrt (6 / INR n)) u (sqrt_pos _) U) as [H1 [H2 [H3 H4]]].
    destruct p; assumption.
Qed.
Print Assumptions C10_disc.

(** [gen_he] and [gen_xagn] use three draws: Box-Muller radius and angle, then
    a phase. *)
Theorem C10_normal_draws : forall pr seed n, (seed < P)%N ->
  let s1 := next seed in let s2 := next s1 in let s3 := next s2 in
  let r := sqrt (- (2) * ln (draw s1)) * cos (2 * draw s2 * PI) * sqrt (2 / INR n) in
  let z := mkC (r * cos (2 * draw s3 * PI)) (r * sin (2 * draw s3 * PI)) in
  gen_he ROps pr seed n = Ret (s3, z) /\ gen_xagn ROps pr seed n = Ret (s3, z).
Proof.
  intros pr seed n H s1 s2 s3 r z. assert (E : gen_normal ROps pr seed n = Ret (s3, z)).
  { unfold gen_normal. rewrite lcgf_R by auto. cbn [obind]. rewrite phase_R by apply next_lt. cbn [obind].
    rewrite phase_R by apply next_lt. cbn [obind]. rewrite nat_R. reflexivity. }
  split; exact E.
Qed.
Print Assumptions C10_normal_draws.

(** The value each initialisation method produces, in exact arithmetic: a radius
    drawn first and a uniform phase drawn last.  [amplitude] is the documented
    scale of the method. *)
Definition amplitude (m : InitMethod) : R :=
  match m with
  | Uniform scale => INR scale
  | XavierGlorotU n => sqrt (6 / INR n)
  | Xavier n => sqrt (12 / INR n)
  | XavierGlorotN n | HeInit n => sqrt (2 / INR n)
  end.
Definition gaussian (m : InitMethod) : bool :=
  match m with XavierGlorotN _ | HeInit _ => true | _ => false end.
(** The uniform methods use the draw itself in single precision and spread it
    over both signs in double precision. *)
Definition uniform_factor (p : prec) (u : R) : R := match p with P32 => u | P64 => 2 * u - 1 end.
Definition box_muller (u v : R) : R := sqrt (- (2) * ln u) * cos (2 * PI * v).
Definition polar (r phi : R) : cplx R := mkC (r * cos phi) (r * sin phi).

Theorem C10_methods : forall (p : prec) pr m seed, (seed < P)%N ->
  let s1 := next seed in let s2 := next s1 in let s3 := next s2 in
  init_gen ROps p pr m seed =
    if gaussian m then Ret (s3, polar (amplitude m * box_muller (draw s1) (draw s2)) (2 * PI * draw s3))
    else Ret (s2, polar (amplitude m * uniform_factor p (draw s1)) (2 * PI * draw s2)).
Proof.
  intros p pr m seed H s1 s2 s3.
  assert (A : forall x, 2 * x * PI = 2 * PI * x) by (intros; ring).
  destruct m; cbn [gaussian init_gen amplitude].
  - unfold c_gen. rewrite lcgf_R by auto. cbn [obind]. rewrite phase_R by apply next_lt. cbn [obind].
    rewrite nat_R, A. unfold polar, uniform_factor. cbn [fmul fsub fcos fsin ROps]. change (ftwo ROps) with 2.
    fold s1 s2. do 2 f_equal. destruct p; f_equal; ring.
  - unfold gen_xagu. rewrite lcgf_R by auto. cbn [obind]. rewrite phase_R by apply next_lt. cbn [obind].
    rewrite nat_R, A. unfold polar, uniform_factor. cbn [fmul fsub fdiv fsqrt flit fcos fsin ROps]. change (ftwo ROps) with 2.
    unfold Rlit. fold s1 s2. do 2 f_equal. destruct p; f_equal; ring.
  - rewrite (proj2 (C10_normal_draws pr seed io_units H)). fold s1 s2 s3. rewrite !A.
    unfold polar, box_muller. do 2 f_equal. f_equal; ring.
  - unfold gen_xa. rewrite lcgf_R by auto. cbn [obind]. rewrite phase_R by apply next_lt. cbn [obind].
    rewrite nat_R, A. unfold polar, uniform_factor. cbn [fmul fsub fdiv fsqrt flit fcos fsin ROps]. change (ftwo ROps) with 2.
    change (fone ROps) with 1. unfold Rlit. replace (1 / INR i_units * 12) with (12 / INR i_units) by (unfold Rdiv; ring).
    fold s1 s2. do 2 f_equal. destruct p; f_equal; ring.
  - rewrite (proj1 (C10_normal_draws pr seed i_units H)). fold s1 s2 s3. rewrite !A.
    unfold polar, box_muller. do 2 f_equal. f_equal; ring.
Qed.
Print Assumptions C10_methods.

(** The real generator draws once, uniformly between -scale and scale. *)
Theorem C10_real : forall pr seed scale, (seed < P)%N ->
  r_gen ROps pr seed scale = Ret (next seed, INR scale * (2 * draw (next seed) - 1)) /\
  Rabs (INR scale * (2 * draw (next seed) - 1)) <= INR scale.
Proof.
  intros pr seed scale H. split.
  - unfold r_gen. rewrite lcgf_R by auto. cbn [obind]. rewrite nat_R. cbn [fmul fsub ROps]. change (ftwo ROps) with 2.
    do 2 f_equal. ring.
  - destruct (spread (INR scale) _ (pos_INR scale) (draw_range _ (next_lt seed))) as [_ [_ [S _]]].
    replace (INR scale * (2 * draw (next seed) - 1)) with (2 * INR scale * draw (next seed) - INR scale) by ring. exact S.
Qed.
Print Assumptions C10_real.

Example C10_ex : (7 < P)%N /\ 0 < draw (next 7).
Proof. split; [reflexivity|]. unfold draw. simpl. lra. Qed.

(** ** C11 *)
Lemma Bmult_nf_l : forall pr em Hp He (x y : binary_float pr em), is_finite x = false ->
  is_finite (@Bmult pr em Hp He mode_NE x y) = false.
Proof. intros pr em Hp He [s|s| |s m e H] [s'|s'| |s' m' e' H']; simpl; auto; discriminate. Qed.

Lemma nf_gen : forall prc em Hp He L,
  let Fl := BOps prc em Hp He L in
  fdiv Fl (fofN Fl 0) (fofN Fl lcg_m) = (B754_zero false : binary_float prc em) ->
  is_finite (@Bmult prc em Hp He mode_NE (Bopp (Bofz prc em Hp He 2)) (B754_infinity true)) = false ->
  @Bsqrt prc em Hp He mode_NE (@Bmult prc em Hp He mode_NE (Bopp (Bofz prc em Hp He 2)) (B754_infinity true)) = B754_infinity false ->
  l_ln L (B754_zero false) = B754_infinity true ->
  forall pr n, exists s z, gen_normal Fl pr 1871412062 n = Ret (s, z)
    /\ is_finite (re z : binary_float prc em) = false /\ is_finite (im z : binary_float prc em) = false.
Proof.
  intros prc em Hp He L Fl Z _ Q Hln pr n. unfold gen_normal, draw_phase.
  assert (A : lcgf Fl pr 1871412062 = Ret (0%N, fdiv Fl (fofN Fl 0) (fofN Fl lcg_m))).
  { unfold lcgf. rewrite lcg_next_small by reflexivity. reflexivity. }
  rewrite A, Z. cbn [obind].
  assert (A1 : forall s, (s < P)%N -> lcgf Fl pr s = Ret (next s, fdiv Fl (fofN Fl (next s)) (fofN Fl lcg_m))).
  { intros s Hs. unfold lcgf. rewrite lcg_next_small by exact Hs. reflexivity. }
  rewrite A1 by reflexivity. cbn [obind]. rewrite A1 by apply next_lt. cbn [obind].
  eexists. eexists. split; [reflexivity|]. cbn [re im].
  assert (S : fsqrt Fl (fmul Fl (fneg Fl (ftwo Fl)) (fln Fl (B754_zero false : binary_float prc em)))
              = (B754_infinity false : binary_float prc em)).
  { unfold Fl. cbn [fln fmul fneg fsqrt BOps]. rewrite Hln. exact Q. }
  rewrite S. split; repeat apply Bmult_nf_l; reflexivity.
Qed.

(** For every libm whose logarithm is IEEE at zero (ln(+0) = -inf) the seed
    1871412062, which draws 0, gives a weight with neither part finite. *)
Theorem C11_zero_draw_not_finite : exists seed, (seed < P)%N /\ next seed = 0%N /\
  (forall L, l_ln L (B754_zero false) = B754_infinity true -> forall pr n, exists s z,
     gen_he (B32Ops L) pr seed n = Ret (s, z) /\ gen_xagn (B32Ops L) pr seed n = Ret (s, z) /\
     is_finite (re z : b32) = false /\ is_finite (im z : b32) = false) /\
  (forall L, l_ln L (B754_zero false) = B754_infinity true -> forall pr n, exists s z,
     gen_he (B64Ops L) pr seed n = Ret (s, z) /\ gen_xagn (B64Ops L) pr seed n = Ret (s, z) /\
     is_finite (re z : b64) = false /\ is_finite (im z : b64) = false).
Proof.
  exists 1871412062%N. split; [reflexivity|]. split; [reflexivity|]. split; intros L H pr n.
  - destruct (nf_gen 24 128 prec24 emax128 L) with (pr := pr) (n := n) as [s [z [E [H1 H2]]]]; try reflexivity; auto.
    exists s, z. repeat split; auto.
  - destruct (nf_gen 53 1024 prec53 emax1024 L) with (pr := pr) (n := n) as [s [z [E [H1 H2]]]]; try reflexivity; auto.
    exists s, z. repeat split; auto.
Qed.
Print Assumptions C11_zero_draw_not_finite.

(** The value they compute, for every arithmetic: Box-Muller on the draws. *)
Theorem C11_formula : forall Fl pr seed n, (seed < P)%N ->
  let d s := fdiv Fl (fofN Fl s) (fofN Fl (2 ^ 31)) in
  let s1 := next seed in let s2 := next s1 in let s3 := next s2 in
  let phi s := fmul Fl (fmul Fl (ftwo Fl) (d s)) (fpi Fl) in
  let r := fmul Fl (fmul Fl (fsqrt Fl (fmul Fl (fneg Fl (ftwo Fl)) (fln Fl (d s1)))) (fcos Fl (phi s2)))
                   (fsqrt Fl (fdiv Fl (ftwo Fl) (fofnat Fl n))) in
  let z := mkC (fmul Fl r (fcos Fl (phi s3))) (fmul Fl r (fsin Fl (phi s3))) in
  gen_he Fl pr seed n = Ret (s3, z) /\ gen_xagn Fl pr seed n = Ret (s3, z) /\
  forall p, init_gen Fl p pr (HeInit n) seed = Ret (s3, z) /\ init_gen Fl p pr (XavierGlorotN n) seed = Ret (s3, z).
Proof.
  intros Fl pr seed n H d s1 s2 s3 phi r z. assert (E : gen_normal Fl pr seed n = Ret (s3, z)).
  { unfold gen_normal, draw_phase, lcgf.
    rewrite lcg_next_small by auto. cbn [obind]. rewrite lcg_next_small by apply next_lt. cbn [obind].
    rewrite lcg_next_small by apply next_lt. reflexivity. }
  split; [exact E|]. split; [exact E|]. intros p. split; exact E.
Qed.
Print Assumptions C11_formula.

(** A libm with an IEEE logarithm at zero exists. *)
Example C11_ex : exists L : libm b32, l_ln L (B754_zero false) = B754_infinity true.
Proof.
  exists (mkLibm b32 (fun x => x) (fun x => match x with B754_zero _ => B754_infinity true | y => y end)
    (fun x => x) (fun x => x) (fun x => x) (fun x => x) (fun x => x) (fun x _ => x) (fun _ => false)).
  reflexivity.
Qed.

(** ** C12 *)
Local Open Scope nat_scope.
Theorem C12_one_hot : forall {A} (zero one : A) add size k m,
  (k < size -> exists v, gen_pred zero one add size k m = Ret (Ok v) /\ length v = size /\
     forall i, i < size -> nth_error v i = Some (if i =? k then add zero one else zero)) /\
  (size < k -> gen_pred zero one add size k m = Ret (Err CriticalIndexOverflow)) /\
  (k = size -> gen_pred zero one add size k m = Panic).
Proof.
  intros A zero one add size k m. unfold gen_pred. split; [|split].
  - intros H. rewrite (proj2 (Nat.ltb_ge size k)) by lia.
    assert (X : index (repeat zero size) k = Ret zero).
    { rewrite (index_ok _ _ zero) by (rewrite repeat_length; auto). now rewrite nth_repeat. }
    rewrite X. cbn [obind]. eexists. split; [reflexivity|]. split.
    + now rewrite set_nth_length, repeat_length.
    + intros i Hi. destruct (Nat.eqb_spec i k) as [->|N].
      * apply nth_error_set_nth_eq. now rewrite repeat_length.
      * rewrite nth_error_set_nth_neq by auto. apply nth_error_repeat. assumption.
  - intros H. now rewrite (proj2 (Nat.ltb_lt size k)) by lia.
  - intros ->. rewrite Nat.ltb_irrefl. rewrite index_panic by (rewrite repeat_length; auto). reflexivity.
Qed.
Print Assumptions C12_one_hot.

(** The entry at [k] is exactly 1 in all four instances of the generator. *)
Theorem C12_instances : forall L32 L64 size k m, k < size ->
  (exists v, r_gen_pred (B32Ops L32) size k m = Ret (Ok v) /\ length v = size /\
     forall i, i < size -> nth_error v i = Some (if i =? k then fone (B32Ops L32) else fzero (B32Ops L32))) /\
  (exists v, r_gen_pred (B64Ops L64) size k m = Ret (Ok v) /\ length v = size /\
     forall i, i < size -> nth_error v i = Some (if i =? k then fone (B64Ops L64) else fzero (B64Ops L64))) /\
  (exists v, c_gen_pred (B32Ops L32) size k m = Ret (Ok v) /\ length v = size /\
     forall i, i < size -> nth_error v i = Some (if i =? k then c_unit (B32Ops L32) else c_default (B32Ops L32))) /\
  (exists v, c_gen_pred (B64Ops L64) size k m = Ret (Ok v) /\ length v = size /\
     forall i, i < size -> nth_error v i = Some (if i =? k then c_unit (B64Ops L64) else c_default (B64Ops L64))) /\
  (exists v, c_gen_pred ROps size k m = Ret (Ok v) /\ length v = size /\
     forall i, i < size -> nth_error v i = Some (if i =? k then mkC 1%R 0%R else mkC 0%R 0%R)).
Proof.
  intros L32 L64 size k m H.
  assert (E32 : fadd (B32Ops L32) (fzero (B32Ops L32)) (fone (B32Ops L32)) = fone (B32Ops L32)).
  { apply B2SF_inj. vm_compute. reflexivity. }
  assert (E64 : fadd (B64Ops L64) (fzero (B64Ops L64)) (fone (B64Ops L64)) = fone (B64Ops L64)).
  { apply B2SF_inj. vm_compute. reflexivity. }
  assert (Z32 : fadd (B32Ops L32) (fzero (B32Ops L32)) (fzero (B32Ops L32)) = fzero (B32Ops L32)) by reflexivity.
  assert (Z64 : fadd (B64Ops L64) (fzero (B64Ops L64)) (fzero (B64Ops L64)) = fzero (B64Ops L64)) by reflexivity.
  assert (C : forall Fl, fadd Fl (fzero Fl) (fone Fl) = fone Fl -> fadd Fl (fzero Fl) (fzero Fl) = fzero Fl ->
     c_add_assign Fl (c_default Fl) (c_unit Fl) = c_unit Fl).
  { intros Fl H1 H2. unfold c_add_assign, c_default, c_unit. cbn [re im]. now rewrite H1, H2. }
  assert (K : forall (A : Type) (zero one e : A) add, add zero one = e ->
     exists v, gen_pred zero one add size k m = Ret (Ok v) /\ length v = size /\
     forall i, i < size -> nth_error v i = Some (if i =? k then e else zero)).
  { intros A zero one e add <-. apply (C12_one_hot zero one add size k m), H. }
  split; [|split; [|split; [|split]]].
  - exact (K _ _ _ _ _ E32).
  - exact (K _ _ _ _ _ E64).
  - exact (K _ _ _ _ _ (C _ E32 Z32)).
  - exact (K _ _ _ _ _ (C _ E64 Z64)).
  - apply K. unfold c_add_assign, c_default, c_unit. cbn. f_equal; ring.
Qed.
Print Assumptions C12_instances.

Example C12_ex : gen_pred 0 1 Nat.add 4 2 Sparse = Ret (Ok [0; 0; 1; 0])
  /\ gen_pred 0 1 Nat.add 4 4 Sparse = Panic /\ gen_pred 0 1 Nat.add 4 5 Sparse = Ret (Err CriticalIndexOverflow).
Proof. repeat split. Qed.
