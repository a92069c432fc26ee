(** * A rectifier network of tents over many variables *)
From Coq Require Import Reals Lra Psatz.
From Verif Require Import Base BaseFacts Float Matrix Cplx Act Input Loss Dense Conv Layer Dataset Network RFloat CFacts
  SpecMatrix MatrixFacts SpecLayer SpecConv SpecNet SpecEval SpecLoss DenseFacts NetFacts LossFacts PropDense SpecMemory MemoryFacts SpecApprox MaxNet.
Local Open Scope nat_scope.

(** The 2N real coordinates of N complex numbers, and the sum of their distances. *)
Definition crd (N : nat) (x : list RC) (k : nat) : R := if k <? N then re (nth k x 0%RC) else im (nth (k - N) x 0%RC).
Definition dist (N : nat) (x c : list RC) : R := lsumr (fun k => Rabs (crd N x k - crd N c k))%R (seq 0 (N + N)).

Lemma lsumr_nonneg : forall {U} (f : U -> R) us, (forall u, In u us -> (0 <= f u)%R) -> (0 <= lsumr f us)%R.
Proof. intros U f. induction us as [|u us IH]; intros H; [cbn; lra|]. rewrite lsumr_cons. pose proof (H u (or_introl eq_refl)). pose proof (IH (fun v I => H v (or_intror I))). lra. Qed.
Lemma lsumr_ge : forall {U} (f : U -> R) us u, (forall u, In u us -> (0 <= f u)%R) -> In u us -> (f u <= lsumr f us)%R.
Proof.
  intros U f. induction us as [|v us IH]; intros u H I; [destruct I|]. rewrite lsumr_cons. destruct I as [->|I].
  - pose proof (lsumr_nonneg f us (fun v I => H v (or_intror I))). lra.
  - pose proof (H v (or_introl eq_refl)). pose proof (IH u (fun v I => H v (or_intror I)) I). lra.
Qed.
Lemma lsumr_le_const : forall {U} (f : U -> R) us c, (forall u, In u us -> (f u <= c)%R) -> (lsumr f us <= INR (length us) * c)%R.
Proof.
  intros U f. induction us as [|v us IH]; intros c H; [cbn; lra|]. rewrite lsumr_cons. change (length (v :: us)) with (S (length us)). rewrite S_INR.
  pose proof (H v (or_introl eq_refl)). pose proof (IH c (fun v I => H v (or_intror I))). lra.
Qed.

Lemma dist_nonneg : forall N x c, (0 <= dist N x c)%R.
Proof. intros. apply lsumr_nonneg. intros. apply Rabs_pos. Qed.

Lemma dist_near : forall d N x c, near d N x c -> (dist N x c <= INR (N + N) * d)%R.
Proof.
  intros d N x c H. replace (INR (N + N)) with (INR (length (seq 0 (N + N)))) by now rewrite seq_length. apply lsumr_le_const. intros k I. apply in_seq in I. unfold crd. destruct (Nat.ltb_spec k N) as [L|L].
  - left. apply (H k L).
  - left. apply (H (k - N)). lia.
Qed.

Lemma dist_far : forall d N x c, ~ near d N x c -> (d <= dist N x c)%R.
Proof.
  intros d N x c H. destruct (Rle_dec d (dist N x c)) as [L|L]; [exact L|]. exfalso. apply H. intros k K.
  assert (G : forall j, j < N + N -> (Rabs (crd N x j - crd N c j) <= dist N x c)%R).
  { intros j J. apply (lsumr_ge (fun k => Rabs (crd N x k - crd N c k))); [intros; apply Rabs_pos | apply in_seq; lia]. }
  pose proof (G k ltac:(lia)) as G1. pose proof (G (N + k) ltac:(lia)) as G2. unfold crd in G1, G2. rewrite (proj2 (Nat.ltb_lt k N) K) in G1. rewrite (proj2 (Nat.ltb_ge (N + k) N)) in G2 by lia.
  replace (N + k - N) with k in G2 by lia. split; lra.
Qed.

Section Tents.
Context (p : prec) (N M K : nat) (NP : 0 < N) (MP : 0 < M) (KP : 0 < K) (B : R) (cs : nat -> list RC) (G : nat -> nat -> R) (L D : R).

(** ** The first layer: how far is each coordinate from each centre? *)
Definition feats : list (nat * nat * bool) := list_prod (list_prod (seq 0 K) (seq 0 (N + N))) [true; false].
Definition sg (s : bool) : R := if s then 1%R else (-1)%R.
Definition look (f : nat * nat * bool) (j : nat) : RC :=
  let '(_, k, s) := f in if k <? N then (if j =? k then mkC (sg s) 0%R else 0%RC) else (if j =? k - N then mkC 0%R (- sg s)%R else 0%RC).
Definition from (f : nat * nat * bool) : RC := let '(i, k, s) := f in mkC (- sg s * crd N (cs i) k)%R (- B)%R.
Definition layer1 : dense ROps := llayer 0 (0, 0, true) (seq 0 N) feats look from RITReLU.
Definition off (x : list RC) (f : nat * nat * bool) : R := let '(i, k, s) := f in relu ROps (sg s * (crd N x k - crd N (cs i) k))%R.

Lemma lsum_pick : forall (w : RC) (v : nat -> RC) n s k, s <= k < s + n -> lsum (fun j => (if j =? k then w else 0) * v j)%RC (seq s n) = (w * v k)%RC.
Proof.
  intros w v. assert (Z : forall n s k, k < s -> lsum (fun j => (if j =? k then w else 0) * v j)%RC (seq s n) = 0%RC).
  { induction n as [|n IH]; intros s k H; [reflexivity|]. cbn [seq]. rewrite lsum_cons, IH by lia. destruct (Nat.eqb_spec s k); [lia|]. ring. }
  induction n as [|n IH]; intros s k H; [lia|]. cbn [seq]. rewrite lsum_cons. destruct (Nat.eqb_spec s k) as [->|].
  - rewrite Z by lia. ring.
  - rewrite IH by lia. ring.
Qed.

Lemma layer1_forward : forall x, in_box B N x -> fwd ROps p (LDense layer1) (IOScalar x) = Ret (IOScalar (map (fun f => mkC (off x f) 0%R : RC) feats)).
Proof.
  intros x (X & BX). assert (E : x = map (fun j => nth j x 0%RC) (seq 0 N)).
  { apply (nth_ext _ _ 0%RC 0%RC); [now rewrite map_length, seq_length|]. intros j J. rewrite nth_map_seq; [reflexivity | lia]. }
  rewrite E at 1. unfold layer1. rewrite (llayer_forward p 0 (0, 0, true) (seq 0 N) feats look from RITReLU (ritrelu ROps) (fun j => nth j x 0%RC)); [| destruct N; [lia | discriminate] | reflexivity].
  do 2 f_equal. apply map_ext_in. intros ((i & k) & s) I. apply in_prod_iff in I as (I & _). apply in_prod_iff in I as (_ & I). apply in_seq in I.
  cbn [look from off].
  assert (SB : forall a : R, (Rabs a <= B)%R -> (sg s * a + - B <= 0)%R /\ (- sg s * a + - B <= 0)%R).
  { intros a A. assert (H : (- B <= a <= B)%R) by (unfold Rabs in A; destruct (Rcase_abs a); lra). unfold sg. destruct s; lra. }
  unfold crd. destruct (Nat.ltb_spec k N) as [H|H].
  - rewrite (lsum_pick (mkC (sg s) 0%R) (fun j => nth j x 0%RC)) by lia. destruct (BX k H) as (_ & B2). revert B2. destruct (nth k x 0%RC) as [a b]. intros B2. unfold ritrelu.
    apply c_ext; [cbn [re im]; f_equal; cbn; ring|]. cbn [re im]. apply relu_neg. cbn. pose proof (proj1 (SB b B2)). cbn in *. lra.
  - rewrite (lsum_pick (mkC 0%R (- sg s)%R) (fun j => nth j x 0%RC)) by lia. destruct (BX (k - N) ltac:(lia)) as (B1 & _). revert B1. destruct (nth (k - N) x 0%RC) as [a b]. intros B1. unfold ritrelu.
    apply c_ext; [cbn [re im]; f_equal; cbn; ring|]. cbn [re im]. apply relu_neg. cbn. pose proof (proj2 (SB a B1)). cbn in *. lra.
Qed.

(** ** The second layer: a tent over each centre *)
Let Q := M + M.
Definition tent (x : list RC) (q i : nat) : R := relu ROps (G q i - L * dist N x (cs i))%R.
Definition raise (y : nat * slot) (f : nat * nat * bool) : R := match snd y with Hs i => if fst (fst f) =? i then (- L)%R else 0%R | _ => 0%R end.
Definition peak (y : nat * slot) : R := match snd y with Hs i => G (fst y) i | _ => 0%R end.
Definition layer2 : dense ROps := llayer (0, 0, true) c0 feats (cells Q K) (fun y u => mkC (raise y u) 0%R) (fun y => mkC (peak y) (-1)%R) RITReLU.

Lemma feats_ne : feats <> [].
Proof. unfold feats. destruct K as [|k]; [lia|]. destruct N as [|n]; [lia|]. discriminate. Qed.

Lemma relu_abs : forall a : R, (relu ROps (1 * a) + relu ROps (-1 * a) = Rabs a)%R.
Proof.
  intros a. rewrite Rmult_1_l. replace (-1 * a)%R with (- a)%R by ring. unfold Rabs. destruct (Rcase_abs a) as [A|A].
  - rewrite (relu_neg a) by (cbn; lra). rewrite relu_pos by (cbn; lra). cbn. ring.
  - rewrite (relu_pos a) by (cbn; lra). rewrite relu_neg by (cbn; lra). cbn. ring.
Qed.

Lemma raise_sum : forall x q i, i < K -> lsumr (fun f => raise (q, Hs i) f * off x f)%R feats = (- L * dist N x (cs i))%R.
Proof.
  intros x q i I. unfold feats. rewrite !lsumr_prod. rewrite (lsumr_ext _ (fun j => if j =? i then (- L * dist N x (cs j))%R else 0%R)); [now rewrite (lsumr_pick (fun j => (- L * dist N x (cs j))%R)) by lia|].
  intros j _. unfold raise. cbn [snd fst]. destruct (j =? i).
  - unfold dist. induction (seq 0 (N + N)) as [|k ks IH]; [cbn; ring|]. rewrite (lsumr_cons _ k ks), IH. rewrite (lsumr_cons _ k ks). cbn [lsumr fold_right off sg]. rewrite <- relu_abs. ring.
  - apply lsumr_zero. intros k _. cbn. ring.
Qed.

Lemma layer2_forward : forall x, fwd ROps p (LDense layer2) (IOScalar (map (fun f => mkC (off x f) 0%R : RC) feats)) = Ret (shown Q K (fun u => state (tent x (fst u)) 0 (snd u))).
Proof.
  intros x. unfold layer2. rewrite (real_layer p (0, 0, true) c0 feats (cells Q K) raise peak (off x) feats_ne). unfold shown. do 2 f_equal. apply map_ext_in. intros (q & s) I. apply in_cells in I as (I1 & I2). f_equal.
  destruct s as [i| |]; cbn [state fst snd].
  - assert (i < K). { unfold slots in I2. apply in_app_or in I2 as [J|[J|[J|[]]]]; try discriminate. apply in_map_iff in J as (j & J & J'). injection J as ->. apply in_seq in J'. lia. }
    rewrite raise_sum by assumption. unfold tent, peak. cbn [fst snd]. f_equal. cbn. ring.
  - rewrite lsumr_zero by (intros; unfold raise; cbn; ring). apply relu_neg. cbn. lra.
  - rewrite lsumr_zero by (intros; unfold raise; cbn; ring). apply relu_neg. cbn. lra.
Qed.

Lemma relu_ge : forall a : R, (0 <= relu ROps a /\ a <= relu ROps a)%R.
Proof. intros a. destruct (Rle_dec 0 a) as [H|H]; [rewrite relu_pos by exact H; lra | rewrite relu_neg by (cbn; lra); cbn; lra]. Qed.

(** ** The whole network *)
Definition tent_layers : list (dense ROps) := layer1 :: layer2 :: map (step_layer Q K) (seq 0 K).
Definition tent_net : network ROps := map LDense (tent_layers ++ [last_layer Q K M D]).

Lemma tent_shape : rectifier_net N M tent_net.
Proof.
  assert (QP : 0 < Q) by (unfold Q; lia). exists tent_layers, (last_layer Q K M D). split; [reflexivity|]. destruct (steps_fit Q K KP QP K) as (F1 & F2 & F3).
  destruct (llayer_wf 0 (0, 0, true) (seq 0 N) feats look from RITReLU) as (W1 & I1 & U1); [destruct N; [lia | discriminate]|]. rewrite seq_length in I1.
  destruct (llayer_wf (0, 0, true) c0 feats (cells Q K) (fun y u => mkC (raise y u) 0%R) (fun y => mkC (peak y) (-1)%R) RITReLU feats_ne) as (W2 & I2 & U2).
  destruct (llayer_wf c0 0 (cells Q K) (seq 0 M) (read M) (fun _ => mkC (- D)%R (- D)%R) ActNone (cells_ne Q K KP QP)) as (W3 & I3 & U3). rewrite seq_length in U3.
  assert (APP : forall ls w l, widths_fit ROps ls w -> dense_wf ROps l -> inputs ROps l = out_width ROps ls w -> widths_fit ROps (ls ++ [l]) w).
  { induction ls as [|l' ls IH]; intros w l A C E; cbn; [auto|]. destruct A as (A1 & A2 & A3). split; [exact A1|]. split; [exact A2|]. now apply IH. }
  split; [|split; [|split]].
  - apply APP; [|exact W3|].
    + split; [exact W1|]. split; [exact I1|]. split; [exact W2|]. split; [exact I2 | exact F1].
    + change (inputs ROps (last_layer Q K M D)) with (length (cells Q K)). symmetry. exact F2.
  - unfold out_width. rewrite fold_left_app. cbn [fold_left]. exact U3.
  - constructor; [reflexivity|]. constructor; [reflexivity | exact F3].
  - reflexivity.
Qed.

Lemma tent_value : forall x, in_box B N x ->
  predicts ROps p tent_net (IOScalar x) (map (fun o => mkC (top (tent x o) K - D)%R (top (tent x (M + o)) K - D)%R : RC) (seq 0 M)).
Proof.
  intros x X. assert (QP : 0 < Q) by (unfold Q; lia). unfold predicts. rewrite forward_fold by discriminate. unfold tent_net, tent_layers. rewrite map_app, foldM_app. cbn [map foldM].
  rewrite layer1_forward by exact X. cbn [obind]. rewrite layer2_forward. cbn [obind]. rewrite (steps_forward p Q K KP QP (fun q i => tent x q i)) by (auto; intros; apply relu_ge). cbn [obind].
  rewrite (last_forward p Q K KP QP M eq_refl D). cbn [obind]. do 3 f_equal. apply map_ext. intros o. cbn [fst snd]. now rewrite !state_top.
Qed.
End Tents.

(** ** How close tents come *)
(** [g] is between 0 and [T] at the centres, changes by at most [e] over
    distances below [d], and some centre is closer than [r]; the slopes are T / d. *)
Lemma tents_close : forall N K (cs : nat -> list RC) (g : list RC -> R) (T d r e : R) x,
  (0 < d)%R -> (r <= d)%R -> (0 <= T)%R -> (0 <= e)%R -> (0 <= g x)%R ->
  (forall i, i < K -> (0 <= g (cs i) <= T)%R) ->
  (forall i, i < K -> near d N x (cs i) -> (Rabs (g x - g (cs i)) <= e)%R) ->
  (exists i, i < K /\ near r N x (cs i)) -> (T / d * (INR (N + N) * r) <= e)%R ->
  (Rabs (top (fun i => relu ROps (g (cs i) - T / d * dist N x (cs i))%R) K - g x) <= 2 * e)%R.
Proof.
  intros N K cs g T d r e x DP RD TP EP GP GT GC (i & I & NI) S.
  assert (L0 : (0 <= T / d)%R) by (apply Rmult_le_pos; [exact TP | left; now apply Rinv_0_lt_compat]).
  assert (Up : (top (fun i => relu ROps (g (cs i) - T / d * dist N x (cs i))%R) K <= g x + e)%R).
  { apply top_le; [lra|]. intros j J. destruct (Rle_dec 0 (g (cs j) - T / d * dist N x (cs j))%R) as [H|H]; [|rewrite relu_neg by (cbn; lra); cbn; lra]. rewrite relu_pos by exact H.
    destruct (Rlt_dec 0 (g (cs j) - T / d * dist N x (cs j))%R) as [H'|H']; [|cbn in *; lra].
    assert (NJ : near d N x (cs j)).
    { apply Classical_Prop.NNPP. intros NN. apply dist_far in NN. pose proof (GT j J). apply (Rmult_le_compat_l (T / d)) in NN; [|exact L0]. replace (T / d * d)%R with T in NN by (field; lra). cbn in *. lra. }
    pose proof (GC j J NJ) as C. pose proof (Rmult_le_pos _ _ L0 (dist_nonneg N x (cs j))). unfold Rabs in C. destruct (Rcase_abs _); cbn in *; lra. }
  assert (Lo : (g x - 2 * e <= top (fun i => relu ROps (g (cs i) - T / d * dist N x (cs i))%R) K)%R).
  { eapply Rle_trans; [|apply (top_ge _ K i I)]. eapply Rle_trans; [|apply relu_ge].
    assert (ND : near d N x (cs i)) by (intros k Hk; destruct (NI k Hk); split; lra).
    pose proof (GC i I ND) as C. pose proof (Rmult_le_compat_l _ _ _ L0 (dist_near r N x (cs i) NI)). unfold Rabs in C. destruct (Rcase_abs _); cbn in *; lra. }
  unfold Rabs. destruct (Rcase_abs _); cbn in *; lra.
Qed.
