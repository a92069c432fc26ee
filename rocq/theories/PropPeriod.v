(** * Property C67: the period of the random number generator *)
From Coq Require Import ZArith NArith Znumtheory List Permutation Lia Reals Lra.
From Flocq Require Import Core BinarySingleNaN.
From Verif Require Import Base BaseFacts Float Random RFloat BFloat BFacts PropRandom PeriodFacts.
Import ListNotations.
Local Open Scope N_scope.

(** ** C67 *)
(** [stuck] is the one seed the generator never leaves (C07).  From any other
    state, any mix of calls brings the state back exactly after a multiple of
    2^31 - 2 calls. *)
Theorem C67_period : forall F32 F64 pr cs s, Forall legal cs -> s < 2 ^ 31 - 1 -> s <> 1934915413 ->
  (foldM (do_call F32 F64 pr) cs s = Ret s <-> N.divide (2 ^ 31 - 2) (N.of_nat (length cs))).
Proof.
  intros F32 F64 pr cs s L Hs N. change (2 ^ 31 - 1) with P in Hs.
  assert (E : foldM (do_call F32 F64 pr) cs s = Ret (Nat.iter (length cs) next s)).
  { apply (C06_history F32 F64 pr cs (prev s) CallF32 s L). cbn [do_call].
    unfold lcgf. rewrite lcg_next_small by (apply N.mod_lt; discriminate). cbn [obind fst]. now rewrite next_prev. }
  rewrite E. change 1934915413 with stuck in N. pose proof (iter_id (length cs) s Hs N) as I.
  assert (D : N.divide (2 ^ 31 - 2) (N.of_nat (length cs)) <-> (M - 1 | Z.of_nat (length cs))%Z).
  { change (2 ^ 31 - 2) with 2147483646. change (M - 1)%Z with 2147483646%Z. split; intros [k Hk]; [exists (Z.of_N k) | exists (Z.to_N k)]; lia. }
  rewrite D, <- I. split; [intros H; congruence | intros ->; reflexivity].
Qed.
Print Assumptions C67_period.

(** In one period every state but the stuck one is visited exactly once,
    whatever the starting seed. *)
Theorem C67_cycle : forall s, s < 2 ^ 31 - 1 -> s <> 1934915413 ->
  Permutation (1934915413 :: map (fun n => Nat.iter n next s) (below (2 ^ 31 - 2))) (map N.of_nat (below (2 ^ 31 - 1))).
Proof. intros s Hs N. exact (orbit_perm s Hs N). Qed.
Print Assumptions C67_cycle.

(** So any state can be reached from any other. *)
Theorem C67_reachable : forall s t, s < 2 ^ 31 - 1 -> t < 2 ^ 31 - 1 -> s <> 1934915413 -> t <> 1934915413 ->
  exists n, N.of_nat n < 2 ^ 31 - 2 /\ Nat.iter n next s = t.
Proof.
  intros s t Hs Ht Ns Nt. assert (I : In t (1934915413 :: map (fun n => Nat.iter n next s) (below (2 ^ 31 - 2)))).
  { apply (Permutation_in t (Permutation_sym (C67_cycle s Hs Ns))). now apply in_states. }
  destruct I as [E|I]; [congruence|]. apply in_map_iff in I as (n & E & H). apply in_below in H. exists n. split; [|exact E].
  change (2 ^ 31 - 2) with 2147483646 in *. lia.
Qed.
Print Assumptions C67_reachable.

(** How often an integer draw gives the index [k] in one period: the length of
    the part of [0, 2^31 - 1) that maps to [k], less the stuck state. *)
Definition drew (k : N) (o : outcome (N * N)) : bool := match o with Ret (_, j) => j =? k | Panic => false end.
Theorem C67_index : forall pr limit s k, 1 <= limit <= 2 ^ 31 - 1 -> s < 2 ^ 31 - 1 -> s <> 1934915413 ->
  let q := (2 ^ 31 - 1) / limit in
  N.of_nat (length (filter (fun n => drew k (lcgi pr (Nat.iter n next s) limit)) (below (2 ^ 31 - 2)))) +
    (if 1934915413 / q =? k then 1 else 0) = N.min ((k + 1) * q) (2 ^ 31 - 1) - N.min (k * q) (2 ^ 31 - 1).
Proof.
  intros pr limit s k HL Hs N q. change (2 ^ 31 - 1) with P in *. change (2 ^ 31 - 2) with (P - 1).
  assert (Q : 1 <= q) by (apply N.div_le_lower_bound; lia).
  rewrite (filter_eq _ (fun n => next (Nat.iter n next s) / q =? k)).
  - rewrite <- count_states by exact Q.
    pose proof (Permutation_length (filter_perm (fun x => x / q =? k) _ _ (orbit_next s Hs N))) as E.
    cbn [filter] in E. rewrite <- E. change stuck with 1934915413.
    assert (X : length (filter (fun n => next (Nat.iter n next s) / q =? k) (below (P - 1))) =
                length (filter (fun x => x / q =? k) (map next (orbit s)))).
    { unfold orbit. rewrite !filter_map_length. reflexivity. }
    rewrite X. destruct (1934915413 / q =? k); cbn [length]; lia.
  - intros n _. rewrite lcgi_ok; [reflexivity | exact HL | now apply iter_lt].
Qed.
Print Assumptions C67_index.

(** Every limit strictly between 1 and 2^31 - 1 gives an index out of range,
    from every seed but the stuck one, within one period. *)
Theorem C67_out_of_range : forall pr limit s, 1 < limit < 2 ^ 31 - 1 -> s < 2 ^ 31 - 1 -> s <> 1934915413 ->
  exists n s' k, N.of_nat n < 2 ^ 31 - 2 /\ lcgi pr (Nat.iter n next s) limit = Ret (s', k) /\ limit <= k.
Proof.
  intros pr limit s HL Hs N. destruct (C67_reachable s 1914008856 Hs ltac:(reflexivity) N ltac:(discriminate)) as (n & Hn & E).
  change (2 ^ 31 - 1) with P in *.
  destruct (C09_range pr limit ltac:(lia)) as (_ & _ & D & _).
  exists n, (next 1914008856), (next 1914008856 / (P / limit)). split; [exact Hn|]. rewrite E.
  split; [apply lcgi_ok; [lia | reflexivity]|]. apply N.nlt_ge. intros H.
  assert (V : N.divide limit P).
  { change (next 1914008856) with (P - 1) in H. apply D. intros seed s1 k Hseed E1.
    rewrite lcgi_ok in E1 by (auto; lia). injection E1 as _ <-. eapply N.le_lt_trans; [|exact H].
    apply N.div_le_mono; [|pose proof (next_lt seed); lia].
    assert (1 <= P / limit) by (apply N.div_le_lower_bound; lia). lia. }
  assert (V' : (Z.of_N limit | M)%Z). { destruct V as [c Hc]. exists (Z.of_N c). change M with (Z.of_N P). rewrite Hc. lia. }
  apply prime_divisors in V'; [|exact M_prime]. change M with (Z.of_N P) in V'. lia.
Qed.
Print Assumptions C67_out_of_range.

(** For the eight waves of the signal data: seven draws per period give
    index 8. *)
Example C67_ex : forall pr, N.of_nat (length (filter (fun n => drew 8 (lcgi pr (Nat.iter n next 5) 8)) (below (2 ^ 31 - 2)))) = 7
  /\ N.of_nat (length (filter (fun n => drew 0 (lcgi pr (Nat.iter n next 5) 8)) (below (2 ^ 31 - 2)))) = 268435455.
Proof.
  intros pr. split.
  - pose proof (C67_index pr 8 5 8 ltac:(split; discriminate) ltac:(reflexivity) ltac:(discriminate)) as H. cbv zeta in H.
    change (if 1934915413 / ((2 ^ 31 - 1) / 8) =? 8 then 1 else 0) with 0 in H. rewrite N.add_0_r in H. rewrite H. reflexivity.
  - pose proof (C67_index pr 8 5 0 ltac:(split; discriminate) ltac:(reflexivity) ltac:(discriminate)) as H. cbv zeta in H.
    change (if 1934915413 / ((2 ^ 31 - 1) / 8) =? 0 then 1 else 0) with 0 in H. rewrite N.add_0_r in H. rewrite H. reflexivity.
Qed.

(** The 64-bit draws of one period are all different; the 32-bit draws are
    not, and are not 2^31 in number. *)
Theorem C67_f64_distinct : forall L pr s t a b u, lcgf (B64Ops L) pr s = Ret (a, u) -> lcgf (B64Ops L) pr t = Ret (b, u) -> a = b.
Proof.
  intros L pr s t a b u H1 H2. apply C08_f64 in H1 as (_ & H1 & _). apply C08_f64 in H2 as (_ & H2 & _).
  rewrite H1 in H2. assert (E : (IZR (Z.of_N a) = IZR (Z.of_N b))%R) by (simpl in H2; lra). apply eq_IZR in E. lia.
Qed.
Print Assumptions C67_f64_distinct.

Theorem C67_f32_refuted : forall L, exists s t a b u,
  s < 2 ^ 31 - 1 /\ t < 2 ^ 31 - 1 /\ lcgf (B32Ops L) Dev s = Ret (a, u) /\ lcgf (B32Ops L) Dev t = Ret (b, u) /\ a <> b.
Proof.
  intros L. exists (prev 2147483646), (prev 2147483645), 2147483646, 2147483645.
  exists (fdiv (B32Ops L) (fofN (B32Ops L) 2147483646) (fofN (B32Ops L) lcg_m)).
  assert (E : fofN (B32Ops L) 2147483645 = fofN (B32Ops L) 2147483646).
  { change (Bofz 24 128 prec24 emax128 2147483645 = Bofz 24 128 prec24 emax128 2147483646). apply B2SF_inj. vm_compute. reflexivity. }
  split; [reflexivity|]. split; [reflexivity|]. split; [|split; [|discriminate]].
  - unfold lcgf. rewrite lcg_next_small by reflexivity. change (next (prev 2147483646)) with 2147483646. reflexivity.
  - unfold lcgf. rewrite lcg_next_small by reflexivity. change (next (prev 2147483645)) with 2147483645. cbn [obind]. now rewrite E.
Qed.
Print Assumptions C67_f32_refuted.

Example C67_ex_period : legal CallF64 /\ legal (CallI 8) /\ 5 < 2 ^ 31 - 1 /\ 5 <> 1934915413 /\
  foldM (do_call ROps ROps Dev) [CallF64; CallI 8] 5 = Ret (next (next 5)) /\ next (next 5) <> 5.
Proof. repeat split; try discriminate; try reflexivity. Qed.
