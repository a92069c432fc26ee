(** * Approximating continuous functions of several variables *)
From Coq Require Import Reals Lra Psatz.
From Coquelicot Require Compactness Markov.
From Verif Require Import Base BaseFacts Float Matrix Cplx Act Input Loss Dense Conv Layer Dataset Network RFloat CFacts
  SpecMatrix SpecLayer SpecConv SpecNet SpecEval SpecLoss LossFacts SpecMemory MemoryFacts SpecGeom SpecRound SpecLip LipFacts PropLip SpecApprox MaxNet TentNet.
Import Compactness.
Local Open Scope nat_scope.

(** ** Points of the box as tuples of real numbers *)
Fixpoint get (n : nat) : Tn n R -> nat -> R :=
  match n return Tn n R -> nat -> R with O => fun _ _ => 0%R | S n => fun t k => match k with O => fst t | S k => get n (snd t) k end end.
Fixpoint put (n : nat) (u : nat -> R) : Tn n R := match n return Tn n R with O => tt | S n => (u 0, put n (fun k => u (S k))) end.

Lemma get_put : forall n u k, k < n -> get n (put n u) k = u k.
Proof. induction n as [|n IH]; intros u k H; [lia|]. destruct k as [|k]; [reflexivity|]. cbn. apply (IH (fun k => u (S k))). lia. Qed.

Lemma bounded_get : forall n (a b : R) t, bounded_n n (put n (fun _ => a)) (put n (fun _ => b)) t <-> forall k, k < n -> (a <= get n t k <= b)%R.
Proof.
  induction n as [|n IH]; intros a b t; [split; [intros _ k H; lia | intros; exact I]|]. destruct t as [t1 t2]. cbn. rewrite IH. split.
  - intros (H1 & H2) [|k] K; [exact H1 | apply H2; lia].
  - intros H. split; [apply (H 0); lia | intros k K; apply (H (S k)); lia].
Qed.

Lemma close_get : forall n d x t, close_n n d x t <-> forall k, k < n -> (Rabs (get n x k - get n t k) < d)%R.
Proof.
  induction n as [|n IH]; intros d x t; [split; [intros _ k H; lia | intros; exact I]|]. destruct x as [x1 x2], t as [t1 t2]. cbn. rewrite IH. split.
  - intros (H1 & H2) [|k] K; [exact H1 | apply H2; lia].
  - intros H. split; [apply (H 0); lia | intros k K; apply (H (S k)); lia].
Qed.

Section Box.
Context (N : nat) (B : R).
Definition pt (t : Tn (N + N) R) : list RC := map (fun k => mkC (get _ t k) (get _ t (N + k)) : RC) (seq 0 N).
Definition tn (x : list RC) : Tn (N + N) R := put (N + N) (crd N x).
Local Notation inside := (bounded_n (N + N) (put (N + N) (fun _ => (- B)%R)) (put (N + N) (fun _ => B))).

Lemma crd_pt : forall t k, k < N + N -> crd N (pt t) k = get _ t k.
Proof.
  intros t k H. unfold crd, pt. destruct (Nat.ltb_spec k N) as [L|L].
  - rewrite nth_map_seq by exact L. reflexivity.
  - rewrite nth_map_seq by lia. cbn [im]. f_equal. lia.
Qed.

Lemma abs_le : forall a b : R, (Rabs a <= b <-> - b <= a <= b)%R.
Proof. intros a b. unfold Rabs. destruct (Rcase_abs a); split; intros; lra. Qed.

Lemma crd_all : forall (P : R -> Prop) x, (forall k, k < N + N -> P (crd N x k)) <-> forall k, k < N -> P (re (nth k x 0%RC)) /\ P (im (nth k x 0%RC)).
Proof.
  intros P x. split.
  - intros H k K. pose proof (H k ltac:(lia)) as H1. pose proof (H (N + k) ltac:(lia)) as H2. unfold crd in H1, H2. rewrite (proj2 (Nat.ltb_lt k N) K) in H1. rewrite (proj2 (Nat.ltb_ge (N + k) N)) in H2 by lia.
    replace (N + k - N) with k in H2 by lia. now split.
  - intros H k K. unfold crd. destruct (Nat.ltb_spec k N) as [L|L]; [apply (H k L) | apply (H (k - N)); lia].
Qed.

Lemma near_crd : forall d x y, near d N x y <-> forall k, k < N + N -> (Rabs (crd N x k - crd N y k) < d)%R.
Proof.
  intros d x y. unfold near. split.
  - intros H k K. unfold crd. destruct (Nat.ltb_spec k N) as [L|L]; [apply (H k L) | apply (H (k - N)); lia].
  - intros H k K. pose proof (H k ltac:(lia)) as H1. pose proof (H (N + k) ltac:(lia)) as H2. unfold crd in H1, H2. rewrite (proj2 (Nat.ltb_lt k N) K) in H1. rewrite (proj2 (Nat.ltb_ge (N + k) N)) in H2 by lia.
    replace (N + k - N) with k in H2 by lia. now split.
Qed.

Lemma pt_box : forall t, inside t -> in_box B N (pt t).
Proof.
  intros t H. split; [unfold pt; now rewrite map_length, seq_length|]. rewrite bounded_get in H. apply (crd_all (fun a => Rabs a <= B)%R). intros k K. rewrite crd_pt by exact K. apply abs_le, H, K.
Qed.
Lemma tn_box : forall x, in_box B N x -> inside (tn x).
Proof. intros x (_ & H). apply bounded_get. intros k K. unfold tn. rewrite get_put by exact K. apply abs_le. apply (crd_all (fun a => Rabs a <= B)%R); assumption. Qed.
Lemma near_close : forall d x t, near d N x (pt t) <-> close_n (N + N) d (tn x) t.
Proof.
  intros d x t. rewrite near_crd, close_get. split; intros H k K; specialize (H k K).
  - unfold tn. rewrite get_put by exact K. rewrite crd_pt in H by exact K. exact H.
  - unfold tn in H. rewrite get_put in H by exact K. rewrite crd_pt by exact K. exact H.
Qed.

(** ** Finitely many centres are close to every point *)
Lemma cover : forall d, (0 < d)%R -> (0 <= B)%R -> exists K (cs : nat -> list RC), 0 < K /\ (forall i, i < K -> in_box B N (cs i)) /\ forall x, in_box B N x -> exists i, i < K /\ near d N x (cs i).
Proof.
  intros d D BP. pose proof (Classical_Prop.NNPP _ (compactness_list (N + N) (put (N + N) (fun _ => (- B)%R)) (put (N + N) (fun _ => B)) (fun _ => mkposreal d D))) as (l & H). cbn [pos] in H.
  pose (z := tn (repeat 0%RC N)). assert (Z : in_box B N (repeat 0%RC N)).
  { split; [apply repeat_length|]. intros k K. assert (E : nth k (repeat 0%RC N) 0%RC = 0%RC) by (apply nth_repeat). rewrite E. cbn. rewrite Rabs_R0. auto. }
  pose (ok := fun t => Classical_Prop.classic (inside t)).
  assert (F : forall l : list (Tn (N + N) R), exists l', (forall t, In t l' <-> In t l /\ inside t)).
  { induction l0 as [|t l0 IH]; [exists []; intros t; cbn; tauto|]. destruct IH as (l' & E). destruct (ok t) as [T|T].
    - exists (t :: l'). intros u. cbn. rewrite E. split; [intros [<-|(U1 & U2)]; auto | intros ([<-|U1] & U2); auto].
    - exists l'. intros u. cbn. rewrite E. split; [intros (U1 & U2); auto | intros ([<-|U1] & U2); [contradiction | auto]]. }
  destruct (F l) as (l' & E). exists (length l'), (fun i => pt (nth i l' z)). split; [|split].
  - destruct (H z (tn_box _ Z)) as (t & T1 & T2 & _). destruct l' as [|u l']; [|cbn; lia]. exfalso. apply (proj2 (E t) (Logic.conj T1 T2)).
  - intros i I. apply pt_box. apply (proj1 (E (nth i l' z))). now apply nth_In.
  - intros x X. destruct (H (tn x) (tn_box x X)) as (t & T1 & T2 & T3). destruct (In_nth l' t z (proj2 (E t) (Logic.conj T1 T2))) as (i & I & T). exists i. split; [exact I|]. rewrite T. now apply near_close.
Qed.

(** ** Continuity on the box is uniform *)
Lemma near_mono : forall d d' x y, (d <= d')%R -> near d N x y -> near d' N x y.
Proof. intros d d' x y H H1 k K. destruct (H1 k K). split; lra. Qed.
Lemma near_trans : forall d d' x y z, near d N x y -> near d' N y z -> near (d + d') N x z.
Proof.
  intros d d' x y z H1 H2. apply near_crd. intros k K. rewrite near_crd in H1, H2. specialize (H1 k K). specialize (H2 k K).
  replace (crd N x k - crd N z k)%R with ((crd N x k - crd N y k) + (crd N y k - crd N z k))%R by ring. eapply Rle_lt_trans; [apply Rabs_triang|]. lra.
Qed.
Lemma near_sym : forall d x y, near d N x y -> near d N y x.
Proof. intros d x y H. apply near_crd. rewrite near_crd in H. intros k K. rewrite Rabs_minus_sym. auto. Qed.

Definition steady (f : list RC -> RC) (e d : R) (x : list RC) : Prop :=
  forall y, in_box B N y -> near d N x y -> (Rabs (re (f y) - re (f x)) < e /\ Rabs (im (f y) - im (f x)) < e)%R.

Lemma radius : forall f (e : R) t, (0 < e)%R -> {d : posreal | inside t -> continuous_at B N f (pt t) -> steady f e (2 * d) (pt t)}.
Proof.
  intros f e t EP. pose (q := fun n => (/ (INR n + 1))%R). assert (QP : forall n, (0 < q n)%R) by (intros n; apply Rinv_0_lt_compat; pose proof (pos_INR n); lra).
  destruct (Markov.LPO (fun n => steady f e (2 * q n) (pt t)) (fun n => Classical_Prop.classic _)) as [(n & H)|H].
  - exists (mkposreal (q n) (QP n)). auto.
  - exists (mkposreal 1 Rlt_0_1). intros I C. exfalso. destruct (C e EP) as (d & D & HD). destruct (archimed_cor1 (d / 2)) as (n & A & P); [lra|]. destruct n as [|n]; [lia|].
    apply (H n). intros y Y NY. apply HD; [exact Y|]. apply (near_mono (2 * q n)); [|exact NY]. unfold q. rewrite S_INR in A. lra.
Qed.

Lemma uniform : forall f (e : R), (0 < e)%R -> (forall x, in_box B N x -> continuous_at B N f x) ->
  exists d, (0 < d)%R /\ forall x y, in_box B N x -> in_box B N y -> near d N x y -> (Rabs (re (f x) - re (f y)) < e /\ Rabs (im (f x) - im (f y)) < e)%R.
Proof.
  intros f e EP C. assert (E2 : (0 < e / 2)%R) by lra. pose (dl := fun t => proj1_sig (radius f (e / 2) t E2)).
  destruct (compactness_value (N + N) (put (N + N) (fun _ => (- B)%R)) (put (N + N) (fun _ => B)) dl) as (d & H). exists d. split; [apply cond_pos|]. intros x y X Y NXY.
  destruct (Classical_Prop.NNPP _ (H (tn x) (tn_box x X))) as (t & T1 & T2 & T3). pose proof (proj2_sig (radius f (e / 2) t E2) T1 (C _ (pt_box t T1))) as S. change (proj1_sig (radius f (e / 2) t E2)) with (dl t) in S.
  apply near_close in T2. pose proof (near_sym _ _ _ T2) as T2'.
  destruct (S x X) as (A1 & A2); [apply (near_mono (dl t)); [pose proof (cond_pos (dl t)); lra | exact T2']|].
  destruct (S y Y) as (B1 & B2); [apply (near_mono (dl t + d)); [lra | now apply (near_trans _ _ _ x)]|].
  split; [replace (re (f x) - re (f y))%R with ((re (f x) - re (f (pt t))) + - (re (f y) - re (f (pt t))))%R by ring | replace (im (f x) - im (f y))%R with ((im (f x) - im (f (pt t))) + - (im (f y) - im (f (pt t))))%R by ring].
  all: eapply Rle_lt_trans; [apply Rabs_triang|]; rewrite Rabs_Ropp; lra.
Qed.

(** Both parts of finitely many functions at once, and a bound on them. *)
Lemma uniform_all : forall M (f : nat -> list RC -> RC) (e : R), (0 < e)%R -> (forall o x, o < M -> in_box B N x -> continuous_at B N (f o) x) ->
  exists d, (0 < d)%R /\ forall o x y, o < M -> in_box B N x -> in_box B N y -> near d N x y -> (Rabs (re (f o x) - re (f o y)) <= e /\ Rabs (im (f o x) - im (f o y)) <= e)%R.
Proof.
  intros M f e EP. induction M as [|M IH]; intros C; [exists 1%R; split; [lra | intros; lia]|].
  destruct IH as (d & D & H); [intros o x O; apply C; lia|]. destruct (uniform (f M) e EP) as (d' & D' & H'); [intros x; apply C; lia|].
  exists (Rmin d d'). split; [now apply Rmin_pos|]. intros o x y O X Y NXY. destruct (Nat.eq_dec o M) as [->|NE].
  - destruct (H' x y X Y) as (A1 & A2); [eapply near_mono; [apply Rmin_r | exact NXY]|]. split; lra.
  - apply H; auto; [lia|]. eapply near_mono; [apply Rmin_l | exact NXY].
Qed.

Lemma bound_at : forall M K (f : nat -> list RC -> RC) (cs : nat -> list RC), exists T, (0 <= T)%R /\ forall o i, o < M -> i < K -> (Rabs (re (f o (cs i))) <= T /\ Rabs (im (f o (cs i))) <= T)%R.
Proof.
  intros M K f cs. induction M as [|M (T & P & H)]; [exists 0%R; split; [lra | intros; lia]|].
  assert (A : forall k, exists U, (0 <= U)%R /\ forall i, i < k -> (Rabs (re (f M (cs i))) <= U /\ Rabs (im (f M (cs i))) <= U)%R).
  { induction k as [|k (U & UP & UH)]; [exists 0%R; split; [lra | intros; lia]|]. exists (Rmax U (Rmax (Rabs (re (f M (cs k)))) (Rabs (im (f M (cs k)))))). 
    pose proof (Rmax_l U (Rmax (Rabs (re (f M (cs k)))) (Rabs (im (f M (cs k)))))). pose proof (Rmax_r U (Rmax (Rabs (re (f M (cs k)))) (Rabs (im (f M (cs k)))))).
    pose proof (Rmax_l (Rabs (re (f M (cs k)))) (Rabs (im (f M (cs k))))). pose proof (Rmax_r (Rabs (re (f M (cs k)))) (Rabs (im (f M (cs k))))). split; [lra|].
    intros i I. destruct (Nat.eq_dec i k) as [->|NE]; [split; lra|]. destruct (UH i ltac:(lia)). split; lra. }
  destruct (A K) as (U & UP & UH). exists (Rmax T U). pose proof (Rmax_l T U). pose proof (Rmax_r T U). split; [lra|]. intros o i O I. destruct (Nat.eq_dec o M) as [->|NE].
  - destruct (UH i I). split; lra.
  - destruct (H o i ltac:(lia) I). split; lra.
Qed.
End Box.

Lemma universal_net : forall p N M (f : nat -> list RC -> RC) (B e : R), 0 < N -> 0 < M -> (0 <= B)%R -> (0 < e)%R ->
  (forall o x, o < M -> in_box B N x -> continuous_at B N (f o) x) ->
  exists n, rectifier_net N M n /\ forall x, in_box B N x -> exists y, predicts ROps p n (IOScalar x) y /\ length y = M /\
    forall o, o < M -> (Rabs (re (nth o y 0%RC) - re (f o x)) <= e /\ Rabs (im (nth o y 0%RC) - im (f o x)) <= e)%R.
Proof.
  intros p N M f B e NP MP BP EP C. destruct (uniform_all N B M f (e / 2) ltac:(lra) C) as (d & DP & U).
  destruct (cover N B d DP BP) as (K0 & cs0 & _ & C1 & C2). destruct (bound_at M K0 f cs0) as (T0 & T0P & T0H).
  (* |f| <= D on the box; f + D lies between 0 and 2 D *)
  pose (D := (T0 + e / 2)%R). assert (FB : forall o x, o < M -> in_box B N x -> (Rabs (re (f o x)) <= D /\ Rabs (im (f o x)) <= D)%R).
  { intros o x O X. destruct (C2 x X) as (i & I & NI). destruct (U o x (cs0 i) O X (C1 i I) NI) as (U1 & U2). destruct (T0H o i O I) as (V1 & V2). unfold D.
    split; [replace (re (f o x)) with ((re (f o x) - re (f o (cs0 i))) + re (f o (cs0 i)))%R by ring | replace (im (f o x)) with ((im (f o x) - im (f o (cs0 i))) + im (f o (cs0 i)))%R by ring].
    all: eapply Rle_trans; [apply Rabs_triang|]; lra. }
  assert (DD : (0 < D)%R) by (unfold D; lra). pose (T := (2 * D)%R). pose (W := (T / d * INR (N + N))%R). assert (NN : (0 < INR (N + N))%R) by (apply lt_0_INR; lia).
  assert (WP : (0 < W)%R) by (unfold W, T; apply Rmult_lt_0_compat; [apply Rmult_lt_0_compat; [lra | now apply Rinv_0_lt_compat] | exact NN]).
  pose (r := Rmin d (e / 2 / W)). assert (RP : (0 < r)%R) by (apply Rmin_pos; [exact DP | apply Rmult_lt_0_compat; [lra | now apply Rinv_0_lt_compat]]).
  destruct (cover N B r RP BP) as (K & cs & KP & K1 & K2).
  pose (g := fun q x => if q <? M then (re (f q x) + D)%R else (im (f (q - M)%nat x) + D)%R).
  exists (tent_net N M K B cs (fun q i => g q (cs i)) (T / d)%R D). split; [now apply tent_shape|]. intros x X. eexists. split; [now apply tent_value|]. split; [now rewrite map_length, seq_length|].
  assert (CL : forall q, q < M + M -> (Rabs (top (tent N cs (fun q i => g q (cs i)) (T / d) x q) K - g q x) <= e)%R).
  { intros q Q. assert (GB : forall x, in_box B N x -> (0 <= g q x <= T)%R).
    { intros z Z. unfold g, T. destruct (Nat.ltb_spec q M) as [L|L]; [destruct (FB q z L Z) as (H & _) | destruct (FB (q - M) z ltac:(lia) Z) as (_ & H)]; apply abs_le in H; lra. }
    replace e with (2 * (e / 2))%R by field. apply (tents_close N K cs (g q) T d r (e / 2) x); auto; try lra.
    - apply Rmin_l.
    - unfold T. lra.
    - now apply GB.
    - intros i I NI. unfold g. destruct (Nat.ltb_spec q M) as [L|L].
      + replace (re (f q x) + D - (re (f q (cs i)) + D))%R with (re (f q x) - re (f q (cs i)))%R by ring. apply (U q x (cs i) L X (K1 i I) NI).
      + replace (im (f (q - M)%nat x) + D - (im (f (q - M)%nat (cs i)) + D))%R with (im (f (q - M)%nat x) - im (f (q - M)%nat (cs i)))%R by ring. apply (U (q - M) x (cs i) ltac:(lia) X (K1 i I) NI).
    - rewrite <- Rmult_assoc. fold W. assert (RE : (r <= e / 2 / W)%R) by apply Rmin_r. apply (Rmult_le_compat_l W) in RE; [|lra]. replace (W * (e / 2 / W))%R with (e / 2)%R in RE by (field; lra). exact RE. }
  intros o O. rewrite nth_map_seq by exact O. cbn [re im]. pose proof (CL o ltac:(lia)) as H1. pose proof (CL (M + o) ltac:(lia)) as H2. unfold g in H1 at 2. unfold g in H2 at 2.
  rewrite (proj2 (Nat.ltb_lt o M) O) in H1. rewrite (proj2 (Nat.ltb_ge (M + o) M)) in H2 by lia. replace (M + o - M) with o in H2 by lia. split.
  - match goal with |- (Rabs (?a - D - ?b) <= _)%R => replace (a - D - b)%R with (a - (b + D))%R by ring end. exact H1.
  - match goal with |- (Rabs (?a - D - ?b) <= _)%R => replace (a - D - b)%R with (a - (b + D))%R by ring end. exact H2.
Qed.

(** ** Jumps *)
Lemma dense_fit_all : forall (ls : list (dense ROps)) w, widths_fit ROps ls w -> Forall (fun l => d_func l <> ModZ) ls -> fit_all ROps (map LDense ls) (Vec w) (Vec (out_width ROps ls w)).
Proof.
  induction ls as [|l ls IH]; intros w W F; [apply fit_nil|]. destruct W as (W1 & <- & W3). inversion F as [|? ? F1 F2]; subst. cbn [map out_width fold_left].
  apply (fit_cons ROps _ _ _ (Vec (units ROps l))); [now apply fits_dense | now apply IH].
Qed.

Lemma linear_spread : forall p (ls : list (dense ROps)), Forall (fun l => d_func l = RITReLU \/ d_func l = ActNone) ls ->
  exists g, (0 <= g)%R /\ forall e, net_spread p (map LDense ls) e = (g * e)%R.
Proof.
  intros p. induction ls as [|l ls IH]; intros F; [exists 1%R; split; [lra | intros e; cbn; ring]|]. inversion F as [|? ? F1 F2]; subst. destruct (IH F2) as (g & G & H).
  exists (g * gain (LDense l))%R. split; [apply Rmult_le_pos; [exact G | apply largest_pos]|]. intros e. unfold net_spread in *. cbn [map fold_left]. rewrite H. cbn [layer_spread]. unfold act_spread. destruct F1 as [-> | ->]; ring.
Qed.

Lemma jump_far : forall p n (e : R), rectifier_net 1 1 n ->
  (forall t, (-1 <= t <= 1)%R -> exists y, predicts ROps p n (IOScalar [mkC t 0%R]) y /\ (Rabs (re (nth 0 y 0%RC) - if Rlt_dec t 0 then 0 else 1) <= e)%R) -> (1 / 2 <= e)%R.
Proof.
  intros p n e (ls & l & -> & W & O & A1 & A2) H. assert (A : Forall (fun l => d_func l = RITReLU \/ d_func l = ActNone) (ls ++ [l])).
  { apply Forall_app. split; [eapply Forall_impl; [|exact A1]; auto | constructor; [now right | constructor]]. }
  destruct (linear_spread p (ls ++ [l]) A) as (g & GP & G). destruct (Rle_dec (1 / 2) e) as [E|E]; [exact E|]. exfalso.
  assert (FA : fit_all ROps (map LDense (ls ++ [l])) (Vec 1) (Vec 1)).
  { rewrite <- O at 2. apply dense_fit_all; [exact W|]. eapply Forall_impl; [|exact A]. intros k [-> | ->]; discriminate. }
  pose (s := Rmin 1 ((1 - 2 * e) / (2 * (g + 1)))%R). assert (SP : (0 < s)%R) by (apply Rmin_pos; [lra | apply Rmult_lt_0_compat; [lra | apply Rinv_0_lt_compat; lra]]).
  assert (S1 : (s <= 1)%R) by apply Rmin_l. assert (S2 : (g * s < 1 - 2 * e)%R).
  { assert (S2 : (s <= (1 - 2 * e) / (2 * (g + 1)))%R) by apply Rmin_r. apply (Rmult_le_compat_l (2 * (g + 1))) in S2; [|lra]. replace (2 * (g + 1) * ((1 - 2 * e) / (2 * (g + 1))))%R with (1 - 2 * e)%R in S2 by (field; lra). nra. }
  destruct (C88_spread p (map LDense (ls ++ [l])) (Vec 1) (Vec 1) s (IOScalar [mkC 0%R 0%R]) (IOScalar [mkC (- s)%R 0%R])) as (y & y' & Y & Y' & _ & _ & D); [| exact FA | | lra | |].
  - destruct ls; discriminate.
  - apply Forall_forall. intros k I. apply in_map_iff in I as (q & <- & I). rewrite Forall_forall in A. cbn. unfold steady_act. destruct (A q I) as [-> | ->]; auto.
  - split; [reflexivity|]. split; [reflexivity|]. intros i I. assert (i = 0) as -> by (cbn in I; lia). cbn [vals nth]. unfold modulus. cbn.
    replace ((0 - - s) * (0 - - s) + (0 - 0) * (0 - 0))%R with (s * s)%R by ring. rewrite sqrt_square; lra.
  - destruct (H 0%R ltac:(lra)) as (v & V & HV). destruct (H (- s)%R ltac:(lra)) as (v' & V' & HV'). unfold predicts in *.
    assert (E1 : y = IOScalar v) by (pose proof (eq_trans (eq_sym Y) V) as Q; now injection Q). assert (E2 : y' = IOScalar v') by (pose proof (eq_trans (eq_sym Y') V') as Q; now injection Q). subst y y'.
    specialize (D 0 ltac:(cbn; lia)). cbn [vals] in D. rewrite G in D. destruct (Rlt_dec 0 0) as [Z|_]; [lra|]. destruct (Rlt_dec (- s) 0) as [_|Z]; [|lra]. revert D HV HV'.
    set (a := nth 0 v 0%RC). set (b := nth 0 v' 0%RC). intros D HV HV'. assert (R1 : (Rabs (re a - re b) <= g * s)%R).
    { eapply Rle_trans; [|exact D]. unfold modulus. rewrite <- sqrt_Rsqr_abs. apply sqrt_le_1_alt. destruct a as [a1 a2], b as [b1 b2]. cbn [re im]. pose proof (Rle_0_sqr (a2 - b2)) as SQ. unfold Rsqr in *. cbn. cbn in SQ. lra. }
    apply abs_le in R1. apply abs_le in HV. apply abs_le in HV'. lra.
Qed.
