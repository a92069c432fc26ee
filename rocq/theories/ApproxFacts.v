(** * Approximating continuous functions of one variable *)
From Coq Require Import Reals Lra Psatz.
From Verif Require Import Base BaseFacts Float Matrix Cplx Act Input Loss Dense Conv Layer Dataset Network RFloat CFacts
  SpecMatrix MatrixFacts SpecLayer SpecConv SpecNet SpecEval SpecLoss DenseFacts NetFacts LossFacts PropDense SpecGeom SpecRound SpecPlain PropPlain SpecMemory MemoryFacts.
Local Open Scope R_scope.

(** ** Piecewise linear interpolation by ramps *)
Section Interpolate.
Context (a h : R) (Hh : 0 < h) (v : nat -> R).
Definition knot (k : nat) : R := a + INR k * h.
Definition slope (k : nat) : R := (v (S k) - v k) / h.
Definition coef (k : nat) : R := match k with O => slope 0 | S j => slope k - slope j end.

Lemma knot_mono : forall i j, (i <= j)%nat -> knot i <= knot j.
Proof. intros i j H. unfold knot. apply Rplus_le_compat_l, Rmult_le_compat_r; [lra | now apply le_INR]. Qed.

Lemma linear_part : forall j t, rsum (fun k => coef k * (t - knot k)) (S j) = v j - v 0%nat + slope j * (t - knot j).
Proof.
  induction j as [|j IH]; intros t.
  - rewrite rsum_S. change (rsum _ 0) with 0. unfold coef. ring.
  - rewrite rsum_S, IH. unfold coef. unfold knot. rewrite S_INR. unfold slope. field. lra.
Qed.

Lemma tail_part : forall K j t, (S j <= K)%nat -> t <= knot (S j) -> rsum (fun k => coef k * relu ROps (t - knot k)) K = rsum (fun k => coef k * relu ROps (t - knot k)) (S j).
Proof.
  induction K as [|K IH]; intros j t H T; [lia|]. destruct (Nat.eq_dec (S j) (S K)) as [->|N]; [reflexivity|].
  rewrite rsum_S, (IH j t) by (auto; lia). rewrite relu_neg; [ring|]. pose proof (knot_mono (S j) K ltac:(lia)). lra.
Qed.

Lemma interpolate : forall K j t, (j < K)%nat -> knot j <= t <= knot (S j) ->
  v 0%nat + rsum (fun k => coef k * relu ROps (t - knot k)) K = v j + (v (S j) - v j) * ((t - knot j) / h).
Proof.
  intros K j t H (T1 & T2). rewrite (tail_part K j t H T2).
  assert (E : forall i, (i <= S j)%nat -> rsum (fun k => coef k * relu ROps (t - knot k)) i = rsum (fun k => coef k * (t - knot k)) i).
  { induction i as [|i IH]; intros I; [reflexivity|]. rewrite !rsum_S, IH by lia. f_equal. f_equal. apply relu_pos. pose proof (knot_mono i j ltac:(lia)). lra. }
  rewrite E by lia. rewrite linear_part. unfold slope. field. lra.
Qed.

Lemma locate : forall K t, a <= t <= knot K -> (0 < K)%nat -> exists j, (j < K)%nat /\ knot j <= t <= knot (S j).
Proof.
  induction K as [|K IH]; intros t (T1 & T2) P; [lia|]. destruct (Rle_dec (knot K) t) as [G|G]; [exists K; split; [lia | split; assumption]|].
  destruct K as [|K]; [exfalso; apply G; unfold knot; cbn; lra|]. destruct (IH t) as (j & J & H); [split; [exact T1 | lra] | lia|]. exists j. split; [lia | exact H].
Qed.

(** Between two values that are close to a third one. *)
Lemma convex_near : forall x y z s e, 0 <= s <= 1 -> Rabs (x - z) <= e -> Rabs (y - z) <= e -> Rabs (x + (y - x) * s - z) <= e.
Proof.
  intros x y z s e (S1 & S2) H1 H2. replace (x + (y - x) * s - z) with ((1 - s) * (x - z) + s * (y - z)) by ring.
  eapply Rle_trans; [apply Rabs_triang|]. rewrite !Rabs_mult, (Rabs_pos_eq s), (Rabs_pos_eq (1 - s)) by lra. nra.
Qed.
End Interpolate.

Lemma near_interp : forall (g : R -> R) a h K e, 0 < h -> (0 < K)%nat ->
  (forall x y, a <= x <= knot a h K -> a <= y <= knot a h K -> Rabs (x - y) <= h -> Rabs (g x - g y) <= e) ->
  forall t, a <= t <= knot a h K -> Rabs (g a + rsum (fun k => coef h (fun j => g (knot a h j)) k * relu ROps (t - knot a h k)) K - g t) <= e.
Proof.
  intros g a h K e Hh P H t T. destruct (locate a h K t T P) as (j & J & T1 & T2).
  set (v := fun j => g (knot a h j)). assert (V0 : g a = v 0%nat) by (unfold v, knot; cbn [INR]; f_equal; ring). rewrite V0.
  rewrite (interpolate a h Hh v K j t J (Logic.conj T1 T2)).
  assert (KS : knot a h (S j) = knot a h j + h) by (unfold knot; rewrite S_INR; ring).
  assert (K0 : a <= knot a h j) by (pose proof (knot_mono a h Hh 0 j ltac:(lia)) as Q; unfold knot at 1 in Q; cbn [INR] in Q; lra).
  assert (K1 : knot a h (S j) <= knot a h K) by (apply knot_mono; [exact Hh | lia]).
  apply convex_near.
  - split; [apply Rmult_le_pos; [lra | left; now apply Rinv_0_lt_compat]|]. apply (Rmult_le_reg_r h); [exact Hh|]. unfold Rdiv. rewrite Rmult_assoc, Rinv_l by lra. lra.
  - unfold v. apply H; try (split; lra). unfold Rabs. destruct (Rcase_abs _); lra.
  - unfold v. apply H; try (split; lra). unfold Rabs. destruct (Rcase_abs _); lra.
Qed.

(** ** The network of ramps *)
Local Open Scope nat_scope.
Section Ramps.
Context (p : prec) (M K : nat) (KP : 0 < K) (m : nat -> R) (c : nat -> nat -> RC) (d : nat -> RC).
Definition ramp1 : dense ROps := mkDense ROps (mat K 1 (fun _ _ => 1%RC)) (map (fun k => mkC (- m k)%R (-1)%R : RC) (seq 0 K)) RITReLU.
Definition ramp2 : dense ROps := mkDense ROps (mat M K c) (map d (seq 0 M)) ActNone.

Lemma ramp_layers : two_layers 1 K M [LDense ramp1; LDense ramp2].
Proof.
  exists ramp1, ramp2. split; [reflexivity|]. split; [split; [apply wf_mat|]; split; [cbn; now rewrite map_length, seq_length | discriminate]|]. do 3 (split; [reflexivity|]).
  split; [split; [apply wf_mat|]; split; [cbn; now rewrite map_length, seq_length | cbn; lia]|]. do 2 (split; [reflexivity|]). reflexivity.
Qed.

Lemma ramp_value : forall t : R, predicts ROps p [LDense ramp1; LDense ramp2] (IOScalar [mkC t 0%R]) (map (fun o => csum (fun k => c o k * ramp (t - m k))%RC K + d o)%RC (seq 0 M)).
Proof.
  intros t. destruct ramp_layers as (l1 & l2 & E & W1 & _ & _ & _ & W2 & _). injection E as <- <-.
  pose (h := map (fun k => ramp (t - m k)) (seq 0 K)). unfold predicts. rewrite forward_fold by discriminate. cbn [foldM].
  assert (E1 : dense_forward ROps p ramp1 (IOScalar [mkC t 0%R]) = Ret (Ok (IOScalar h))).
  { apply C40_forward; [exact W1 | reflexivity|]. unfold h. rewrite map_length, seq_length. split; [reflexivity|]. intros k Hk. change (units ROps ramp1) with K in Hk. cbn [d_func ramp1 activate].
    f_equal. change (c_default ROps) with 0%RC. rewrite nth_map_seq by exact Hk.
    assert (P : pre ROps ramp1 [mkC t 0%R] k = mkC (t - m k)%R (-1)%R).
    { change (pre ROps ramp1 [mkC t 0%R] k) with (csum (fun j => weight ROps ramp1 k j * nth j [mkC t 0%R] 0)%RC 1 + nth k (d_biases ramp1) 0)%RC. rewrite csum_S. change (csum _ 0) with 0%RC. cbn [nth].
      unfold weight. cbn [d_weights d_biases ramp1]. rewrite entry_mat by lia. rewrite nth_map_seq by exact Hk. apply c_ext; cbn; ring. }
    rewrite P. unfold ramp, ritrelu. cbn [re im]. apply c_ext; cbn [re im]; [reflexivity|]. apply relu_neg. lra. }
  rewrite (fwd_ok ROps p (LDense ramp1) _ _ E1). cbn [obind].
  assert (E2 : dense_forward ROps p ramp2 (IOScalar h) = Ret (Ok (IOScalar (map (fun o => csum (fun k => c o k * ramp (t - m k))%RC K + d o)%RC (seq 0 M))))).
  { apply C40_forward; [exact W2 | unfold h; now rewrite map_length, seq_length|]. rewrite map_length, seq_length. split; [reflexivity|]. intros o Ho. change (units ROps ramp2) with M in Ho. cbn [d_func ramp2 activate]. f_equal.
    change (c_default ROps) with 0%RC. rewrite nth_map_seq by exact Ho.
    change (pre ROps ramp2 h o) with (csum (fun k => weight ROps ramp2 o k * nth k h 0)%RC K + nth o (d_biases ramp2) 0)%RC. cbn [d_biases ramp2]. rewrite nth_map_seq by exact Ho.
    f_equal. apply csum_ext. intros k Hk. unfold h. rewrite nth_map_seq by exact Hk. f_equal. unfold weight. cbn [d_weights ramp2]. now rewrite entry_mat. }
  rewrite (fwd_ok ROps p (LDense ramp2) _ _ E2). reflexivity.
Qed.
End Ramps.

Lemma ramp_parts : forall (u w : nat -> R) (s : nat -> R) (d : RC) K,
  (csum (fun k => mkC (u k) (w k) * ramp (s k))%RC K + d)%RC = mkC (re d + rsum (fun k => u k * relu ROps (s k))%R K)%R (im d + rsum (fun k => w k * relu ROps (s k))%R K)%R.
Proof.
  intros u w s [d1 d2] K. assert (E : csum (fun k => mkC (u k) (w k) * ramp (s k))%RC K = mkC (rsum (fun k => u k * relu ROps (s k))%R K) (rsum (fun k => w k * relu ROps (s k))%R K)).
  { induction K as [|K IH]; [reflexivity|]. rewrite csum_S, !rsum_S, IH. unfold ramp. apply c_ext; cbn; ring. }
  rewrite E. apply c_ext; cbn; ring.
Qed.

(** Every grid fine enough gives a network as close as the values of the function
    within one cell. *)
Lemma grid_net : forall p M (f : nat -> R -> RC) a b K (e : R), (a < b)%R -> 0 < K ->
  (forall o x y, o < M -> (a <= x <= b)%R -> (a <= y <= b)%R -> (Rabs (x - y) <= (b - a) / INR K)%R -> (Rabs (re (f o x) - re (f o y)) <= e /\ Rabs (im (f o x) - im (f o y)) <= e)%R) ->
  exists n, two_layers 1 K M n /\ forall t, (a <= t <= b)%R -> exists y, predicts ROps p n (IOScalar [mkC t 0%R]) y /\ length y = M /\
    forall o, o < M -> (Rabs (re (nth o y 0%RC) - re (f o t)) <= e /\ Rabs (im (nth o y 0%RC) - im (f o t)) <= e)%R.
Proof.
  intros p M f a b K e AB KP H. pose (h := ((b - a) / INR K)%R). assert (NK : (0 < INR K)%R) by (apply lt_0_INR; exact KP).
  assert (Hh : (0 < h)%R) by (unfold h, Rdiv; apply Rmult_lt_0_compat; [lra | now apply Rinv_0_lt_compat]).
  assert (KE : knot a h K = b) by (unfold knot, h; field; lra).
  pose (c := fun o k => mkC (coef h (fun j => re (f o (knot a h j))) k) (coef h (fun j => im (f o (knot a h j))) k) : RC).
  exists [LDense (ramp1 K (knot a h)); LDense (ramp2 M K c (fun o => f o a))]. split; [apply ramp_layers, KP|].
  intros t T. eexists. split; [apply ramp_value, KP|]. split; [now rewrite map_length, seq_length|]. intros o O. rewrite nth_map_seq by exact O. unfold c.
  rewrite (ramp_parts (fun k => coef h (fun j => re (f o (knot a h j))) k) (fun k => coef h (fun j => im (f o (knot a h j))) k) (fun k => t - knot a h k)%R (f o a) K). cbn [re im]. split.
  - apply (near_interp (fun s => re (f o s))); auto; rewrite KE; [|exact T]. intros x y X Y D. apply (H o x y O X Y D).
  - apply (near_interp (fun s => im (f o s))); auto; rewrite KE; [|exact T]. intros x y X Y D. apply (H o x y O X Y D).
Qed.

(** ** Continuous functions *)
Lemma heine_all : forall M (f : nat -> R -> RC) a b (e : R), (0 < e)%R ->
  (forall o t, o < M -> (a <= t <= b)%R -> continuity_pt (fun s => re (f o s)) t /\ continuity_pt (fun s => im (f o s)) t) ->
  exists d, (0 < d)%R /\ forall o x y, o < M -> (a <= x <= b)%R -> (a <= y <= b)%R -> (Rabs (x - y) < d)%R -> (Rabs (re (f o x) - re (f o y)) <= e /\ Rabs (im (f o x) - im (f o y)) <= e)%R.
Proof.
  intros M f a b e EP. induction M as [|M IH]; intros H; [exists 1%R; split; [lra | intros; lia]|].
  destruct IH as (d & D & HD); [intros o t O T; apply H; [lia | exact T]|].
  destruct (Heine_cor2 (f := fun s => re (f M s)) (a := a) (b := b) (fun t T => proj1 (H M t (Nat.lt_succ_diag_r M) T)) (mkposreal e EP)) as ((d1 & D1) & H1).
  destruct (Heine_cor2 (f := fun s => im (f M s)) (a := a) (b := b) (fun t T => proj2 (H M t (Nat.lt_succ_diag_r M) T)) (mkposreal e EP)) as ((d2 & D2) & H2).
  cbn [pos] in *. exists (Rmin d (Rmin d1 d2)). split; [repeat apply Rmin_pos; assumption|]. intros o x y O X Y Q.
  pose proof (Rmin_l d (Rmin d1 d2)). pose proof (Rmin_r d (Rmin d1 d2)). pose proof (Rmin_l d1 d2). pose proof (Rmin_r d1 d2).
  destruct (Nat.eq_dec o M) as [->|N].
  - split; left; [apply H1 | apply H2]; auto; lra.
  - apply HD; auto; [lia | lra].
Qed.

Lemma fine_enough : forall w d : R, (0 < w)%R -> (0 < d)%R -> exists K, 0 < K /\ (w / INR K < d)%R.
Proof.
  intros w d W D. destruct (archimed_cor1 (d / w)) as (K & E & P); [apply Rmult_lt_0_compat; [exact D | now apply Rinv_0_lt_compat]|]. exists K. split; [exact P|].
  assert (NK : (0 < INR K)%R) by (apply lt_0_INR; exact P). unfold Rdiv in *. apply (Rmult_lt_compat_l w) in E; [|exact W]. replace (w * (d * / w))%R with d in E by (field; lra). exact E.
Qed.

Lemma approx_net : forall p M (f : nat -> R -> RC) a b (e : R), (a < b)%R -> (0 < e)%R ->
  (forall o t, o < M -> (a <= t <= b)%R -> continuity_pt (fun s => re (f o s)) t /\ continuity_pt (fun s => im (f o s)) t) ->
  exists H n, two_layers 1 H M n /\ forall t, (a <= t <= b)%R -> exists y, predicts ROps p n (IOScalar [mkC t 0%R]) y /\ length y = M /\
    forall o, o < M -> (Rabs (re (nth o y 0%RC) - re (f o t)) <= e /\ Rabs (im (nth o y 0%RC) - im (f o t)) <= e)%R.
Proof.
  intros p M f a b e AB EP H. destruct (heine_all M f a b e EP H) as (d & D & HD). destruct (fine_enough (b - a) d ltac:(lra) D) as (K & KP & F).
  exists K. apply (grid_net p M f a b K e AB KP). intros o x y O X Y Q. apply HD; auto. lra.
Qed.

Lemma rate_net : forall p M (f : nat -> R -> RC) a b (L : R) H, (a < b)%R -> 0 < H ->
  (forall o x y, o < M -> (a <= x <= b)%R -> (a <= y <= b)%R -> (Rabs (re (f o x) - re (f o y)) <= L * Rabs (x - y) /\ Rabs (im (f o x) - im (f o y)) <= L * Rabs (x - y))%R) -> (0 <= L)%R ->
  exists n, two_layers 1 H M n /\ forall t, (a <= t <= b)%R -> exists y, predicts ROps p n (IOScalar [mkC t 0%R]) y /\ length y = M /\
    forall o, o < M -> (Rabs (re (nth o y 0%RC) - re (f o t)) <= L * (b - a) / INR H /\ Rabs (im (nth o y 0%RC) - im (f o t)) <= L * (b - a) / INR H)%R.
Proof.
  intros p M f a b L H AB HP Lip L0. apply (grid_net p M f a b H _ AB HP). intros o x y O X Y Q. destruct (Lip o x y O X Y) as (H1 & H2).
  assert (B : (L * Rabs (x - y) <= L * (b - a) / INR H)%R) by (unfold Rdiv in *; rewrite Rmult_assoc; apply Rmult_le_compat_l; assumption).
  split; eapply Rle_trans; eassumption.
Qed.

(** ** Without activations *)
Lemma abs_inv : forall x e, (Rabs x <= e -> - e <= x <= e)%R.
Proof. intros x e H. unfold Rabs in H. destruct (Rcase_abs x); lra. Qed.

Lemma plain_far : forall p n (e : R), fit_all ROps n (Vec 1) (Vec 1) -> Forall plain n -> n <> [] ->
  (forall t, (-1 <= t <= 1)%R -> exists y, predicts ROps p n (IOScalar [mkC t 0%R]) y /\ (Rabs (re (nth 0 y 0%RC) - Rabs t) <= e)%R) -> (1 / 2 <= e)%R.
Proof.
  intros p n e W P N A.
  destruct (C94_mixes p (mkC (1 / 2)%R 0%R) n (Vec 1) (Vec 1) (IOScalar [mkC 1%R 0%R]) (IOScalar [mkC (-1)%R 0%R]) (IOScalar [mkC 0%R 0%R]) W P N) as (u & v & z & U & V & Z & G1 & G2 & G3 & G).
  - split; [reflexivity|]. split; [reflexivity|]. split; [reflexivity|]. intros k K. assert (k = 0) as -> by (cbn in K; lia). cbn. apply c_ext; cbn; lra.
  - destruct (A 1%R ltac:(lra)) as (y1 & P1 & D1). destruct (A (-1)%R ltac:(lra)) as (y2 & P2 & D2). destruct (A 0%R ltac:(lra)) as (y3 & P3 & D3). unfold predicts in *.
    assert (E1 : u = IOScalar y1) by (pose proof (eq_trans (eq_sym U) P1) as E; now injection E). assert (E2 : v = IOScalar y2) by (pose proof (eq_trans (eq_sym V) P2) as E; now injection E).
    assert (E3 : z = IOScalar y3) by (pose proof (eq_trans (eq_sym Z) P3) as E; now injection E). subst u v z. specialize (G 0 ltac:(cbn; lia)). cbn [vals] in G.
    apply (f_equal re) in G. rewrite Rabs_R0 in D3. rewrite (Rabs_pos_eq 1) in D1 by lra. rewrite (Rabs_left (-1)) in D2 by lra.
    apply abs_inv in D1. apply abs_inv in D2. apply abs_inv in D3. revert G D1 D2 D3.
    set (a := nth 0 y1 0%RC). set (b := nth 0 y2 0%RC). set (c := nth 0 y3 0%RC). destruct a as [a a'], b as [b b'], c as [c c']. cbn. intros. lra.
Qed.
