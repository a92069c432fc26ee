(** * Lemmas about the signal dataset *)
From Coq Require Import ZArith NArith.
From Verif Require Import Base BaseFacts Float Matrix Cplx Random Input Dense Dataset SpecLayer PropRandom DenseFacts PropData.
Local Open Scope nat_scope.
Local Open Scope list_scope.

Lemma chunks_short : forall {A} n (l : list A) cs, chunks n l = Ret cs -> Forall (fun c => length c <= n) cs.
Proof.
  intros A n l cs H. unfold chunks in H. destruct (n =? 0); [discriminate|]. injection H as <-.
  generalize (length l) as f. intros f. revert l. induction f as [|f IH]; intros l; cbn [chunks_fuel]; [constructor|].
  destruct l as [|a l]; constructor; [apply firstn_le_length | apply IH].
Qed.

Lemma chunks_two : forall {A} k (l : list A), length l = 2 * k ->
  exists cs, chunks 2 l = Ret cs /\ concat cs = l /\ Forall (fun c => length c = 2) cs.
Proof.
  intros A. induction k as [|k IH]; intros l H.
  - apply length_zero_iff_nil in H. subst. exists []. repeat split. constructor.
  - destruct l as [|a [|b l]]; try (cbn in H; lia). destruct (IH l) as (cs & E & C & F); [cbn in H; lia|].
    exists ([a; b] :: cs). split; [|split; [cbn; now rewrite C | constructor; auto]].
    rewrite chunks_cons by discriminate. cbn [skipn firstn]. now rewrite E.
Qed.

Section Sig.
Context (Fl : FloatOps) (pr : profile).
Local Notation C := (cplx (F Fl)).
Local Notation rnd := (lcgf Fl pr).

Lemma rnd_ok : forall s, seed_ok pr s -> exists s' u, rnd s = Ret (s', u) /\ seed_ok pr s'.
Proof. intros s H. destruct (lcg_next_ok pr s H) as (s' & E & H'). unfold lcgf. rewrite E. cbn [obind]. eauto. Qed.

Lemma lcgi_ok8 : forall s, seed_ok pr s -> exists s' k, lcgi pr s 8 = Ret (s', k) /\ seed_ok pr s'.
Proof. intros s H. destruct (lcg_next_ok pr s H) as (s' & E & H'). unfold lcgi. rewrite E. cbn. eauto. Qed.

Lemma wave_ok : forall s, seed_ok pr s -> exists s' w, draw_wave Fl pr s = Ret (s', w) /\ seed_ok pr s'.
Proof.
  intros s H. unfold draw_wave. destruct (rnd_ok s H) as (s1 & u1 & E1 & H1). rewrite E1. cbn [obind].
  destruct (rnd_ok s1 H1) as (s2 & u2 & E2 & H2). rewrite E2. cbn [obind].
  destruct (rnd_ok s2 H2) as (s3 & u3 & E3 & H3). rewrite E3. cbn [obind]. eauto.
Qed.

Lemma normalize_length : forall sig y, normalize Fl sig = Ret y -> length y = length sig.
Proof.
  intros sig y H. unfold normalize in H. destruct (negb _).
  - now apply mapM_length in H.
  - injection H as <-. reflexivity.
Qed.

(** A noisy copy [x] of the pieces [chs] of a signal; the uniforms come from
    the generator. *)
Inductive noisy (thr : F Fl) : list (list C) -> list C -> Prop :=
| noisy_nil : noisy thr [] []
| noisy_cons : forall e1 e2 tl chs x u1 u2 p1 p2 s1 s1' s2 s2', noisy thr chs x ->
    rnd s1 = Ret (s1', u1) -> rnd s2 = Ret (s2', u2) ->
    noisy thr ((e1 :: e2 :: tl) :: chs)
      (corrupt_pair Fl thr (fdiv Fl thr (flit Fl 20 1)) e1 e2 u1 u2 p1 p2 ++ x).

Lemma corrupt_train_noisy : forall thr chs a b out a' b' out',
  foldM (corrupt_train Fl pr thr (fdiv Fl thr (flit Fl 20 1))) chs (a, b, out) = Ret (a', b', out') ->
  exists x, out' = out ++ x /\ noisy thr chs x.
Proof.
  intros thr. induction chs as [|c chs IH]; intros a b out a' b' out' H; cbn [foldM] in H.
  - injection H as <- <- <-. exists []. split; [now rewrite app_nil_r | constructor].
  - apply obind_inv in H as [[[a1 b1] o1] [H1 H2]]. unfold corrupt_train in H1.
    destruct c as [|e1 [|e2 tl]]; [discriminate|discriminate|]. cbn [index nth_error unwrap_opt obind] in H1.
    change (index (e1 :: e2 :: tl) 0) with (Ret e1) in H1. change (index (e1 :: e2 :: tl) 1) with (Ret e2) in H1.
    cbn [obind] in H1.
    apply obind_inv in H1 as [[t1 u1] [Eu1 H1]]. apply obind_inv in H1 as [[t2 u2] [Eu2 H1]].
    apply obind_inv in H1 as [[r1 p1] [Ep1 H1]]. apply obind_inv in H1 as [[r2 p2] [Ep2 H1]].
    injection H1 as <- <- <-. apply IH in H2 as (x & -> & N). eexists. split; [rewrite <- app_assoc; reflexivity|].
    econstructor; eauto.
Qed.

Lemma corrupt_test_noisy : forall thr chs b out b' out',
  foldM (corrupt_test Fl pr thr (fdiv Fl thr (flit Fl 20 1))) chs (b, out) = Ret (b', out') ->
  exists x, out' = out ++ x /\ noisy thr chs x.
Proof.
  intros thr. induction chs as [|c chs IH]; intros b out b' out' H; cbn [foldM] in H.
  - injection H as <- <-. exists []. split; [now rewrite app_nil_r | constructor].
  - apply obind_inv in H as [[b1 o1] [H1 H2]]. unfold corrupt_test in H1.
    destruct c as [|e1 [|e2 tl]]; [discriminate|discriminate|].
    change (index (e1 :: e2 :: tl) 0) with (Ret e1) in H1. change (index (e1 :: e2 :: tl) 1) with (Ret e2) in H1.
    cbn [obind] in H1.
    apply obind_inv in H1 as [[t1 u1] [Eu1 H1]]. apply obind_inv in H1 as [[t2 u2] [Eu2 H1]].
    apply obind_inv in H1 as [[r1 p1] [Ep1 H1]]. apply obind_inv in H1 as [[r2 p2] [Ep2 H1]].
    injection H1 as <- <-. apply IH in H2 as (x & -> & N). eexists. split; [rewrite <- app_assoc; reflexivity|].
    econstructor; eauto.
Qed.

(** The waves of one signal: their number and parameters come from the generator. *)
Definition drawn (w : list (F Fl * F Fl * F Fl)) : Prop :=
  exists s s1 k s2, lcgi pr s 8 = Ret (s1, k) /\ gen_n (draw_wave Fl pr) (N.to_nat k + 1) s1 = Ret (s2, w).

(** The point [(x, y)] built from a signal [y]. *)
Definition made (t : list (F Fl)) (thr : F Fl) (pt : IOType C * IOType C) : Prop :=
  exists x y w chs, pt = (IOScalar x, IOScalar y) /\ normalize Fl (map (wave_sum Fl w) t) = Ret y /\
    chunks 2 y = Ret chs /\ noisy thr chs x /\ drawn w.

Lemma step_made : forall t thr st i st', signal_step Fl pr t thr st i = Ret st' ->
  let '(_, _, d1, d2) := st in let '(_, _, d1', d2') := st' in
  exists p p', d1' = ds_add_point d1 p /\ d2' = ds_add_point d2 p' /\ made t thr p /\ made t thr p'.
Proof.
  intros t thr [[[a b] d1] d2] i [[[a' b'] d1'] d2'] H. unfold signal_step in H.
  apply obind_inv in H as [[a1 k] [Dk H]]. apply obind_inv in H as [[a2 w] [Dw H]].
  apply obind_inv in H as [[b1 k'] [Dk' H]]. apply obind_inv in H as [[b2 w'] [Dw' H]].
  apply obind_inv in H as [y [Ey H]]. apply obind_inv in H as [y' [Ey' H]]. cbv zeta in H.
  apply obind_inv in H as [chs [Ec H]]. apply obind_inv in H as [[[a3 b3] x] [Ex H]].
  apply obind_inv in H as [chs' [Ec' H]]. apply obind_inv in H as [[b4 x'] [Ex' H]].
  injection H as <- <- <- <-. do 2 eexists. split; [reflexivity|]. split; [reflexivity|].
  apply corrupt_train_noisy in Ex as (z & -> & N). apply corrupt_test_noisy in Ex' as (z' & -> & N').
  split; [exists ([] ++ z), y, w, chs | exists ([] ++ z'), y', w', chs']; (repeat (split; [auto|])).
  - exists a, a1, k, a2. auto.
  - exists b, b1, k', b2. auto.
Qed.

Definition times (samples : nat) : list (F Fl) :=
  map (fun i => fmul Fl (fdiv Fl (fmul Fl (flit Fl 4 1) (fpi Fl)) (fofnat Fl samples)) (fofnat Fl i)) (seq 0 samples).

Lemma signal_made : forall samples batch thr a b a' b' d1 d2,
  signal_reconstruction Fl pr samples batch thr a b = Ret (a', b', d1, d2) ->
  exists ps qs, d1 = ds_of ps /\ d2 = ds_of qs /\ length ps = batch /\ length qs = batch /\
    Forall (made (times samples) thr) ps /\ Forall (made (times samples) thr) qs.
Proof.
  intros samples batch thr a b a' b' d1 d2 H. unfold signal_reconstruction in H. cbv zeta in H.
  fold (times samples) in H.
  apply (foldM_inv _ (fun pre st => let '(_, _, d1, d2) := st in
    exists ps qs, d1 = ds_of ps /\ d2 = ds_of qs /\ length ps = length pre /\ length qs = length pre /\
    Forall (made (times samples) thr) ps /\ Forall (made (times samples) thr) qs)) in H.
  - rewrite seq_length in H. exact H.
  - exists [], []. repeat split; constructor.
  - intros pre i st st' Hst _ Hs. apply step_made in Hs. destruct st as [[[? ?] e1] e2]. destruct st' as [[[? ?] e1'] e2'].
    destruct Hst as (ps & qs & -> & -> & L1 & L2 & F1 & F2). destruct Hs as (p & q & -> & -> & M1 & M2).
    exists (ps ++ [p]), (qs ++ [q]). unfold ds_of. rewrite !fold_left_app, !app_length. cbn [length fold_left].
    repeat split; try lia; apply Forall_app; auto.
Qed.

(** The pieces of a noisy signal are all complete. *)
Lemma noisy_length : forall thr chs x, noisy thr chs x -> Forall (fun c => length c <= 2) chs ->
  length x = 2 * length chs /\ length (concat chs) = 2 * length chs.
Proof.
  intros thr chs x H. induction H as [|e1 e2 tl chs x u1 u2 p1 p2 s1 s1' s2 s2' N IH E1 E2]; intros B; [now split|].
  inversion B as [|? ? B1 B2]; subst. destruct (IH B2) as [L1 L2]. cbn [length] in B1.
  destruct tl; [|cbn in B1; lia]. cbn [concat]. rewrite !app_length. cbn [length corrupt_pair]. lia.
Qed.

Lemma made_shape : forall samples thr pt, made (times samples) thr pt ->
  exists x y, pt = (IOScalar x, IOScalar y) /\ length x = samples /\ length y = samples /\ Nat.even samples = true.
Proof.
  intros samples thr pt (x & y & w & chs & -> & Ey & Ec & N & _). exists x, y. split; [reflexivity|].
  apply normalize_length in Ey. unfold times in Ey. rewrite !map_length, seq_length in Ey.
  pose proof (chunks_short _ _ _ Ec) as B. destruct (chunks_ret 2 y) as (cs & E & Cc); [lia|].
  assert (cs = chs) by congruence. subst cs.
  destruct (noisy_length _ _ _ N B) as [L1 L2]. rewrite Cc in L2. split; [lia|]. split; [lia|].
  apply Nat.even_spec. exists (length chs). lia.
Qed.

(** ** Totality *)
Context (Hz : feqb Fl (fzero Fl) (fzero Fl) = true).
Context (Hdiv : forall z : C, let m := c_norm Fl z in feqb Fl m (fzero Fl) = false ->
  feqb Fl (fadd Fl (fsq Fl m) (fsq Fl (fzero Fl))) (fzero Fl) = false).

Lemma normalize_total : forall sig, exists y, normalize Fl sig = Ret y.
Proof.
  intros sig. unfold normalize. set (mx := fold_left _ _ _). destruct (feqb Fl mx (fzero Fl)) eqn:E; cbn [negb]; [eauto|].
  assert (M : mx = fzero Fl \/ exists z, mx = c_norm Fl z).
  { unfold mx. assert (G : forall l acc, (acc = fzero Fl \/ exists z, acc = c_norm Fl z) ->
      let r := fold_left (fun acc e => let n := c_norm Fl e in if fltb Fl acc n then n else acc) l acc in r = fzero Fl \/ exists z, r = c_norm Fl z).
    { induction l as [|e l IH]; intros acc H; [exact H|]. cbn [fold_left]. apply IH. cbv zeta. destruct (fltb Fl acc (c_norm Fl e)); eauto. }
    now apply G; left. }
  destruct (mapM_cases (fun e => c_div_assign Fl e (c_new Fl mx (fzero Fl))) sig) as [H|[_ (e & _ & H)]]; [exact H|].
  unfold c_div_assign in H. cbn [re im c_new] in H.
  destruct M as [M|(z & M)].
  - rewrite M, Hz in E. discriminate.
  - rewrite M in E, H. rewrite (Hdiv z E) in H. discriminate.
Qed.

Lemma corrupt_train_total : forall thr intp chs a b out, Forall (fun c => length c = 2) chs -> seed_ok pr a -> seed_ok pr b ->
  exists a' b' out', foldM (corrupt_train Fl pr thr intp) chs (a, b, out) = Ret (a', b', out') /\ seed_ok pr a' /\ seed_ok pr b'.
Proof.
  intros thr intp. induction chs as [|c chs IH]; intros a b out H Ha Hb; cbn [foldM]; [eauto 6|].
  inversion H as [|? ? Hc Hcs]; subst. destruct c as [|e1 [|e2 tl]]; try (cbn in Hc; lia).
  unfold corrupt_train at 1.
  change (index (e1 :: e2 :: tl) 0) with (Ret e1). change (index (e1 :: e2 :: tl) 1) with (Ret e2). cbn [obind].
  destruct (rnd_ok b Hb) as (b1 & u1 & E1 & B1). rewrite E1. cbn [obind].
  destruct (rnd_ok b1 B1) as (b2 & u2 & E2 & B2). rewrite E2. cbn [obind].
  destruct (rnd_ok a Ha) as (a1 & v1 & E3 & A1). rewrite E3. cbn [obind].
  destruct (rnd_ok a1 A1) as (a2 & v2 & E4 & A2). rewrite E4. cbn [obind].
  now apply IH.
Qed.

Lemma corrupt_test_total : forall thr intp chs b out, Forall (fun c => length c = 2) chs -> seed_ok pr b ->
  exists b' out', foldM (corrupt_test Fl pr thr intp) chs (b, out) = Ret (b', out') /\ seed_ok pr b'.
Proof.
  intros thr intp. induction chs as [|c chs IH]; intros b out H Hb; cbn [foldM]; [eauto 6|].
  inversion H as [|? ? Hc Hcs]; subst. destruct c as [|e1 [|e2 tl]]; try (cbn in Hc; lia).
  unfold corrupt_test at 1.
  change (index (e1 :: e2 :: tl) 0) with (Ret e1). change (index (e1 :: e2 :: tl) 1) with (Ret e2). cbn [obind].
  destruct (rnd_ok b Hb) as (b1 & u1 & E1 & B1). rewrite E1. cbn [obind].
  destruct (rnd_ok b1 B1) as (b2 & u2 & E2 & B2). rewrite E2. cbn [obind].
  destruct (rnd_ok b2 B2) as (b3 & v1 & E3 & B3). rewrite E3. cbn [obind].
  destruct (rnd_ok b3 B3) as (b4 & v2 & E4 & B4). rewrite E4. cbn [obind].
  now apply IH.
Qed.

Lemma signal_total : forall samples batch thr a b, Nat.even samples = true -> seed_ok pr a -> seed_ok pr b ->
  exists a' b' d1 d2, signal_reconstruction Fl pr samples batch thr a b = Ret (a', b', d1, d2) /\ seed_ok pr a' /\ seed_ok pr b'.
Proof.
  intros samples batch thr a b Ev Ha Hb. unfold signal_reconstruction. cbv zeta. fold (times samples).
  destruct (foldM_total (signal_step Fl pr (times samples) thr)
    (fun _ st => let '(a, b, _, _) := st in seed_ok pr a /\ seed_ok pr b) (seq 0 batch) (a, b, ds_new, ds_new)) as (st & E & Q).
  - auto.
  - clear a b Ha Hb. intros pre i post [[[a b] d1] d2] _ [Ha Hb]. unfold signal_step.
    destruct (lcgi_ok8 a Ha) as (a1 & k & E1 & A1). rewrite E1. cbn [obind].
    destruct (gen_n_total (seed_ok pr) (draw_wave Fl pr) (N.to_nat k + 1) a1) as (a2 & w & E2 & A2);
      [intros s Hs; apply (wave_ok s Hs)|exact A1|]. rewrite E2. cbn [obind].
    destruct (lcgi_ok8 b Hb) as (b1 & k' & E3 & B1). rewrite E3. cbn [obind].
    destruct (gen_n_total (seed_ok pr) (draw_wave Fl pr) (N.to_nat k' + 1) b1) as (b2 & w' & E4 & B2);
      [intros s Hs; apply (wave_ok s Hs)|exact B1|]. rewrite E4. cbn [obind].
    destruct (normalize_total (map (wave_sum Fl w) (times samples))) as (y & Ey). rewrite Ey. cbn [obind].
    destruct (normalize_total (map (wave_sum Fl w') (times samples))) as (y' & Ey'). rewrite Ey'. cbn [obind]. cbv zeta.
    apply normalize_length in Ey, Ey'. unfold times in Ey, Ey'. rewrite !map_length, seq_length in Ey, Ey'.
    apply Nat.even_spec in Ev as [h Ev].
    destruct (chunks_two h y) as (chs & Ec & _ & Fc); [lia|]. destruct (chunks_two h y') as (chs' & Ec' & _ & Fc'); [lia|].
    rewrite Ec. cbn [obind].
    destruct (corrupt_train_total thr (fdiv Fl thr (flit Fl 20 1)) chs a2 b2 [] Fc A2 B2) as (a3 & b3 & x & Ex & A3 & B3).
    rewrite Ex. cbn [obind]. rewrite Ec'. cbn [obind].
    destruct (corrupt_test_total thr (fdiv Fl thr (flit Fl 20 1)) chs' b3 [] Fc' B3) as (b4 & x' & Ex' & B4).
    rewrite Ex'. cbn [obind]. eexists. split; [reflexivity|]. split; assumption.
  - destruct st as [[[a1 b1] d1] d2]. destruct Q. exists a1, b1, d1, d2. auto.
Qed.

End Sig.
