(** * Facts about the order of the units of a layer *)
From Coq Require Import Permutation Reals.
From Verif Require Import Base BaseFacts Float Matrix Cplx Random Act Input Loss Dense Conv Layer Dataset Network SpecMatrix MatrixFacts
  SpecLayer SpecConv SpecNet DenseFacts ConvFacts LayerFacts NetFacts TrainFacts TrainDense TrainLaws PropDense GradFacts GradFacts2 NanFacts
  SpecDead DeadFacts PropTrain TwinFacts SpecPerm.
Local Open Scope nat_scope.

Section Generic.
Context (Fl : FloatOps) (p : prec).
Local Notation C := (cplx (F Fl)).
Local Notation z := (c_default Fl).

(** [a'] is [a], both of length [L], read in another order. *)
Definition rx (L : nat) (pi : nat -> nat) (a a' : list C) : Prop :=
  length a = L /\ length a' = L /\ forall q, q < L -> pi q < L /\ nth q a' z = nth (pi q) a z.

Lemma rx_zip : forall (f : C -> C -> C) L pi a a' b b', rx L pi a a' -> rx L pi b b' -> rx L pi (zip_assign f a b) (zip_assign f a' b').
Proof.
  intros f L pi a a' b b' (A1 & A2 & A3) (B1 & B2 & B3). split; [now rewrite zip_assign_length|]. split; [now rewrite zip_assign_length|].
  intros q Hq. destruct (A3 q Hq) as (P & EA). destruct (B3 q Hq) as (_ & EB). split; [exact P|].
  assert (N : forall (u w : list C) j, j < length u -> j < length w -> nth j (zip_assign f u w) z = f (nth j u z) (nth j w z)).
  { intros u w j Hu Hw. apply nth_error_nth. rewrite nth_error_zip_assign, (nth_error_nth' u z Hu), (nth_error_nth' w z Hw). reflexivity. }
  rewrite !N by lia. now rewrite EA, EB.
Qed.
Lemma rx_map : forall (f : C -> C) L pi a a', rx L pi a a' -> rx L pi (map f a) (map f a').
Proof.
  intros f L pi a a' (A1 & A2 & A3). split; [now rewrite map_length|]. split; [now rewrite map_length|]. intros q Hq. destruct (A3 q Hq) as (P & E). split; [exact P|].
  rewrite (nth_indep (map f a') z (f z)), (nth_indep (map f a) z (f z)) by (rewrite map_length; lia). rewrite !map_nth. now f_equal.
Qed.
Lemma rx_id : forall a, rx (length a) (fun q => q) a a.
Proof. intros a. repeat split; auto. Qed.
Lemma rx_same : forall L a a', rx L (fun q => q) a a' -> a' = a.
Proof. intros L a a' (A1 & A2 & A3). apply (nth_ext _ _ z z); [congruence|]. intros q Hq. apply A3. lia. Qed.

(** Lists of lists that differ at two consecutive places only. *)
Definition two (k : nat) (R1 R2 : list C -> list C -> Prop) (W W' : list (list C)) : Prop :=
  exists A a b a' b' c, W = A ++ a :: b :: c /\ W' = A ++ a' :: b' :: c /\ length A = k /\ R1 a a' /\ R2 b b'.

Lemma addv_app : forall (A B a b : list (list C)), length a = length A ->
  addv Fl (A ++ B) (a ++ b) = (x <- addv Fl A a ;; y <- addv Fl B b ;; Ret (x ++ y)).
Proof.
  induction A as [|w A IH]; intros B [|d a] b L; try discriminate; cbn [app addv].
  - cbn [obind]. destruct (addv Fl B b); reflexivity.
  - destruct (unwrap _) as [y|]; cbn [obind]; [|reflexivity]. rewrite IH by (cbn in L; lia). destruct (addv Fl A a); cbn [obind]; [|reflexivity].
    destruct (addv Fl B b); reflexivity.
Qed.

Lemma add_rx : forall L pi (a a' b b' c : list C), rx L pi a a' -> rx L pi b b' -> unwrap (add_slice_mut (cops Fl) a b) = Ret c ->
  exists c', unwrap (add_slice_mut (cops Fl) a' b') = Ret c' /\ rx L pi c c'.
Proof.
  intros L pi a a' b b' c HA HB E. pose proof HA as (A1 & A2 & _). pose proof HB as (B1 & B2 & _). unfold add_slice_mut in *.
  rewrite A1, B1, Nat.eqb_refl in E. rewrite A2, B2, Nat.eqb_refl. cbn [negb unwrap] in *. eexists. split; [reflexivity|].
  assert (EC : zip_assign (c_add_assign Fl) a b = c) by (change (add_assign (cops Fl)) with (c_add_assign Fl) in E; congruence). rewrite <- EC.
  change (add_assign (cops Fl)) with (c_add_assign Fl). now apply rx_zip.
Qed.

Lemma addv_two : forall k L1 p1 L2 p2 W W' ws ws' V, two k (rx L1 p1) (rx L2 p2) W W' -> two k (rx L1 p1) (rx L2 p2) ws ws' ->
  addv Fl W ws = Ret V -> exists V', addv Fl W' ws' = Ret V' /\ two k (rx L1 p1) (rx L2 p2) V V'.
Proof.
  intros k L1 p1 L2 p2 W W' ws ws' V (A & a & b & a' & b' & c & -> & -> & LA & R1 & R2) (X & x & y & x' & y' & u & -> & -> & LX & S1 & S2) E.
  rewrite addv_app in E by congruence. apply obind_inv in E as (V1 & E1 & E). apply obind_inv in E as (V2 & E2 & E). injection E as <-.
  cbn [addv] in E2. apply obind_inv in E2 as (v1 & F1 & E2). apply obind_inv in E2 as (v2 & E3 & E2). apply obind_inv in E3 as (v3 & F2 & E3).
  apply obind_inv in E3 as (v4 & F3 & E3). injection E3 as <-. injection E2 as <-.
  destruct (add_rx _ _ _ _ _ _ _ R1 S1 F1) as (v1' & G1 & T1). destruct (add_rx _ _ _ _ _ _ _ R2 S2 F2) as (v3' & G2 & T2).
  exists (V1 ++ v1' :: v3' :: v4). split.
  - rewrite addv_app by congruence. rewrite E1. cbn [obind addv]. rewrite G1. cbn [obind]. rewrite G2. cbn [obind]. rewrite F3. reflexivity.
  - exists V1, v1, v3, v1', v3', v4. repeat (split; [reflexivity|]). split; [|auto]. apply addv_lengths in E1. apply (f_equal (@length nat)) in E1. rewrite !map_length in E1. congruence.
Qed.

(** ** The backward sweep *)
Lemma bp_app : forall xs ys g gc, bp Fl p (xs ++ ys) g gc =
  (r <- bp Fl p ys g gc ;; let '(ws2, bs2, h, hc) := r in s <- bp Fl p xs h hc ;; let '(ws1, bs1, h', hc') := s in Ret (ws1 ++ ws2, bs1 ++ bs2, h', hc')).
Proof.
  induction xs as [|[x l] xs IH]; intros ys g gc; cbn [app bp].
  - destruct (bp Fl p ys g gc) as [(((ws & bs) & h) & hc)|]; reflexivity.
  - rewrite IH. destruct (bp Fl p ys g gc) as [(((ws & bs) & h) & hc)|]; cbn [obind]; [|reflexivity].
    destruct (bp Fl p xs h hc) as [(((ws1 & bs1) & h1) & hc1)|]; cbn [obind]; [|reflexivity].
    destruct (layer_propagates Fl l); [|reflexivity].
    destruct (layer_derivatives Fl p l x h1 hc1) as [[(((dw & db) & h2) & hc2)|]|]; reflexivity.
Qed.

Lemma trace_app : forall a b x vs, trace Fl p (a ++ b) x vs -> exists u y w, trace Fl p a x (u ++ [y]) /\ trace Fl p b y (y :: w) /\ vs = u ++ y :: w /\ length u = length a.
Proof.
  induction a as [|l a IH]; intros b x vs T; cbn [app] in T.
  - inversion T as [|? ? ? y w E T']; subst; [exists [], x, [] | exists [], x, w]; (repeat split; [constructor | assumption || (econstructor; eassumption)]).
  - inversion T as [|? ? ? y vs' E T']; subst. destruct (IH _ _ _ T') as (u & v & w & T1 & T2 & -> & L). exists (x :: u), v, w.
    split; [econstructor; eauto|]. split; [exact T2|]. split; [reflexivity | cbn; congruence].
Qed.
Lemma trace_join : forall a b x u y w, trace Fl p a x (u ++ [y]) -> trace Fl p b y (y :: w) -> trace Fl p (a ++ b) x (u ++ y :: w).
Proof.
  induction a as [|l a IH]; intros b x u y w T1 T2; cbn [app].
  - inversion T1; subst. destruct u as [|? [|]]; try discriminate. cbn in *. assert (x = y) by congruence. subst. exact T2.
  - inversion T1 as [|? ? ? v vs E T']; subst. destruct u as [|x0 u]; [inversion T' as [? Q|]; subst; cbn in *; congruence|].
    cbn [app] in *. assert (x0 = x) by congruence. subst x0. assert (vs = u ++ [y]) by congruence. subst vs. econstructor; [exact E|]. apply IH; auto.
Qed.

Lemma pgrad_of : forall n f x t vs g ws bs h hc, n <> [] -> trace Fl p n x vs -> d_loss Fl t (last vs x) f = Ok g ->
  bp Fl p (combine vs n) g (map (c_conj Fl) g) = Ret (ws, bs, h, hc) -> pgrad Fl p n f (x, t) = Ret (ws, bs).
Proof.
  intros n f x t vs g ws bs h hc NE T DL B. unfold pgrad. cbn [fst snd].
  assert (E1 : net_collect_acts Fl p n x = Ret (Ok vs)).
  { destruct n as [|l0 n]; [now destruct NE|]. unfold net_collect_acts. pose proof (collect_fold Fl p _ _ _ [] T) as CF. cbn [app] in CF. rewrite CF. reflexivity. }
  rewrite E1. cbn [unwrap obind]. rewrite DL. cbn [unwrap obind]. rewrite B. reflexivity.
Qed.

(** ** A batch *)
Lemma batch_two : forall n n' f k L1 p1 L2 p2 M1 q1 M2 q2, (forall it ws bs, pgrad Fl p n f it = Ret (ws, bs) -> exists ws' bs', pgrad Fl p n' f it = Ret (ws', bs') /\
    two k (rx L1 p1) (rx L2 p2) ws ws' /\ two k (rx M1 q1) (rx M2 q2) bs bs') ->
  forall its W B W' B' V U, slots Fl n W -> slots Fl n B -> slots Fl n' W' -> slots Fl n' B' -> two k (rx L1 p1) (rx L2 p2) W W' -> two k (rx M1 q1) (rx M2 q2) B B' ->
  foldM (point_step Fl p n f) its (W, B) = Ret (V, U) ->
  exists V' U', foldM (point_step Fl p n' f) its (W', B') = Ret (V', U') /\ two k (rx L1 p1) (rx L2 p2) V V' /\ two k (rx M1 q1) (rx M2 q2) U U'.
Proof.
  intros n n' f k L1 p1 L2 p2 M1 q1 M2 q2 Q. induction its as [|it its IH]; intros W B W' B' V U SW SB SW' SB' TW TB E; cbn [foldM] in *.
  - injection E as <- <-. eauto.
  - apply obind_inv in E as ((W2 & B2) & E1 & E). destruct (point_step_lengths Fl p _ _ _ _ _ _ _ SW SB E1) as (Z1 & Z2).
    rewrite point_step_eq in E1 by auto. apply obind_inv in E1 as ((ws & bs) & P & E1).
    apply obind_inv in E1 as (W3 & A1 & E1). apply obind_inv in E1 as (B3 & A2 & E1). injection E1 as -> ->.
    destruct (Q it ws bs P) as (ws' & bs' & P' & Tw & Tb). destruct (addv_two _ _ _ _ _ _ _ _ _ _ TW Tw A1) as (W2' & A1' & TW2).
    destruct (addv_two _ _ _ _ _ _ _ _ _ _ TB Tb A2) as (B2' & A2' & TB2).
    assert (E1 : point_step Fl p n' f (W', B') it = Ret (W2', B2')).
    { rewrite point_step_eq by auto. rewrite P'. cbn [obind]. rewrite A1'. cbn [obind]. rewrite A2'. reflexivity. }
    rewrite E1. cbn [obind]. destruct (point_step_lengths Fl p _ _ _ _ _ _ _ SW' SB' E1) as (Z3 & Z4).
    apply (IH W2 B2 W2' B2' V U); auto; eapply slots_lengths; eauto.
Qed.
End Generic.

(** ** Sums in another order *)
From Verif Require Import RFloat CFacts.
Lemma csum_perm : forall (f : nat -> RC) s N, reorders s N -> csum (fun i => f (s i)) N = csum f N.
Proof.
  intros f s N (H1 & H2). unfold csum, sum_from.
  assert (P : Permutation (map s (seq 0 N)) (seq 0 N)).
  { apply NoDup_Permutation_bis.
    - assert (ND : forall l, NoDup l -> (forall i, In i l -> i < N) -> NoDup (map s l)).
      { induction l as [|a l IH]; intros D HI; cbn; [constructor|]. inversion D; subst. constructor.
        - intros HA. apply in_map_iff in HA as (b & E & Hb). assert (b = a) by (apply H2; auto; [apply HI; now right | apply HI; now left]). subst. contradiction.
        - apply IH; auto. intros; apply HI; now right. }
      apply ND; [apply seq_NoDup|]. intros i Hi. apply in_seq in Hi. lia.
    - rewrite map_length. lia.
    - intros a Ha. apply in_map_iff in Ha as (b & <- & Hb). apply in_seq in Hb. apply in_seq. specialize (H1 b). lia. }
  assert (G : forall l l' (a : RC), Permutation l l' -> fold_left (fun acc i => (acc + f i)%RC) l a = fold_left (fun acc i => (acc + f i)%RC) l' a).
  { intros l l' a Pm. revert a. induction Pm as [|x l l' Pm IH|x y l|l1 l2 l3 P1 I1 P2 I2]; intros a; cbn [fold_left]; auto.
    - f_equal. ring.
    - now rewrite I1. }
  rewrite <- (G _ _ _ P). clear. generalize (seq 0 N) as l, (c_default ROps : RC) as a. induction l as [|x l IH]; intros a; cbn [map fold_left]; auto.
Qed.

Section Dense.
Context (p : prec).
Local Notation z := (c_default ROps).

Lemma reorders_inv : forall s N, reorders s N -> exists t, reorders t N /\ (forall i, i < N -> s (t i) = i) /\ (forall i, i < N -> t (s i) = i).
Proof.
  intros s N (H1 & H2).
  assert (SU : forall i, i < N -> exists j, j < N /\ s j = i).
  { intros i Hi. assert (P : incl (seq 0 N) (map s (seq 0 N))).
    { apply NoDup_length_incl; [|rewrite map_length; lia|].
      - assert (ND : forall l, NoDup l -> (forall i, In i l -> i < N) -> NoDup (map s l)).
        { induction l as [|a l IH]; intros D HI; cbn; [constructor|]. inversion D; subst. constructor.
          - intros HA. apply in_map_iff in HA as (b & E & Hb). assert (b = a) by (apply H2; auto; [apply HI; now right | apply HI; now left]). subst. contradiction.
          - apply IH; auto. intros; apply HI; now right. }
        apply ND; [apply seq_NoDup|]. intros j Hj. apply in_seq in Hj. lia.
      - intros a Ha. apply in_map_iff in Ha as (b & <- & Hb). apply in_seq in Hb. apply in_seq. specialize (H1 b). lia. }
    assert (I : In i (map s (seq 0 N))) by (apply P, in_seq; lia). apply in_map_iff in I as (j & E & Hj). apply in_seq in Hj. exists j. split; [lia | exact E]. }
  pose (t := fun i => hd 0 (filter (fun j => s j =? i) (seq 0 N))).
  assert (T : forall i, i < N -> t i < N /\ s (t i) = i).
  { intros i Hi. unfold t. destruct (SU i Hi) as (j & Hj & E).
    assert (I : In j (filter (fun j => s j =? i) (seq 0 N))) by (apply filter_In; split; [apply in_seq; lia | now apply Nat.eqb_eq]).
    destruct (filter _ _) as [|a r] eqn:F; [destruct I|]. assert (IA : In a (filter (fun j => s j =? i) (seq 0 N))) by (rewrite F; now left).
    apply filter_In in IA as (I1 & I2). apply in_seq in I1. apply Nat.eqb_eq in I2. cbn. split; [lia | exact I2]. }
  exists t. split; [split; [intros i Hi; apply T, Hi|]|split].
  - intros i j Hi Hj E. rewrite <- (proj2 (T i Hi)), <- (proj2 (T j Hj)). now rewrite E.
  - intros i Hi. apply T, Hi.
  - intros i Hi. apply H2; auto; [apply T; auto|]. apply T. auto.
Qed.

Lemma reordered_sym : forall s k n n', reordered ROps s k n n' -> exists t, reordered ROps t k n' n.
Proof.
  intros s k n n' (be & l & m & af & l' & m' & -> & -> & K & IM & RE & (W1 & W2 & U & I & F & HB & HW) & (V1 & V2 & U2 & I2 & F2 & HB2 & HW2)).
  destruct (reorders_inv s _ RE) as (t & RT & T1 & T2). exists t. exists be, l', m', af, l, m.
  repeat (split; [reflexivity|]). split; [exact K|]. split; [congruence|]. split; [rewrite U; exact RT|]. split.
  - split; [exact W2|]. split; [exact W1|]. split; [congruence|]. split; [congruence|]. split; [congruence|]. rewrite U, I. split.
    + intros i Hi. rewrite HB by (apply RT; exact Hi). now rewrite T1.
    + intros i q Hi Hq. rewrite HW by (auto; apply RT; exact Hi). now rewrite T1.
  - split; [exact V2|]. split; [exact V1|]. split; [congruence|]. split; [congruence|]. split; [congruence|]. split; [congruence|]. rewrite U2, I2.
    intros o i Ho Hi. rewrite HW2 by (auto; rewrite IM in *; apply RT; exact Hi). rewrite IM in Hi. now rewrite T1.
Qed.

Section Pair.
Context (s : nat -> nat) (l l' m m' : dense ROps).
Context (IM : inputs ROps m = units ROps l) (RE : reorders s (units ROps l)) (UR : units_reordered ROps s l l') (IR : inputs_reordered ROps s m m').

Lemma pre_rows : forall v i, i < units ROps l -> pre ROps l' v i = pre ROps l v (s i).
Proof.
  destruct UR as (W1 & W2 & U & I & F & HB & HW). intros v i Hi. unfold pre. rewrite HB, I by exact Hi. f_equal. unfold sum_from. apply fold_left_ext.
  intros a q Hq. apply in_seq in Hq. now rewrite HW by lia.
Qed.

Lemma pre_cols : forall y y' o, rx ROps (units ROps l) s y y' -> o < units ROps m -> pre ROps m' y' o = pre ROps m y o.
Proof.
  destruct IR as (W1 & W2 & U & I & F & HB & HW). intros y y' o (Y1 & Y2 & Y3) Ho. unfold pre. rewrite HB, I. f_equal. rewrite IM.
  transitivity (csum (fun j => (weight ROps m o (s j) * nth (s j) y z)%RC) (units ROps l)).
  - apply csum_ext. intros i Hi. rewrite HW by lia. now rewrite (proj2 (Y3 i Hi)).
  - exact (csum_perm (fun j => (weight ROps m o j * nth j y z)%RC) s _ RE).
Qed.

Lemma rows_forward : forall v w, dense_forward ROps p l v = Ret (Ok w) -> exists v0 y y', v = IOScalar v0 /\ w = IOScalar y /\ length v0 = inputs ROps l /\ length y = units ROps l /\
  dense_forward ROps p l' v = Ret (Ok (IOScalar y')) /\ rx ROps (units ROps l) s y y'.
Proof.
  destruct UR as (W1 & W2 & U & I & F & HB & HW). intros v w E. destruct v as [v0|ms]; [|cbn in E; discriminate].
  assert (X : length v0 = inputs ROps l).
  { destruct (Nat.eq_dec (length v0) (inputs ROps l)) as [|NE]; [assumption|]. rewrite (proj2 (C40_rejects ROps p l) v0 NE) in E. discriminate. }
  assert (E' := E). rewrite dense_forward_ok in E' by auto. apply obind_inv in E' as (y & _ & E'). assert (w = IOScalar y) by congruence. subst w. clear E'.
  destruct (proj1 (C40_forward ROps p l v0 W1 X y) E) as (LY & AY).
  exists v0, y, (map (fun i => nth (s i) y z) (seq 0 (units ROps l))). repeat (split; [auto; fail|]). 
  assert (R : rx ROps (units ROps l) s y (map (fun i => nth (s i) y z) (seq 0 (units ROps l)))).
  { split; [exact LY|]. split; [now rewrite map_length, seq_length|]. intros q Hq. split; [apply RE, Hq|]. now rewrite nth_map_seq. }
  split; [|exact R]. apply (C40_forward ROps p l' v0 W2 ltac:(congruence)). rewrite map_length, seq_length, U. split; [reflexivity|].
  intros i Hi. rewrite F, pre_rows, nth_map_seq by lia. apply AY, RE, Hi.
Qed.

Lemma cols_forward : forall y y', rx ROps (units ROps l) s y y' -> dense_forward ROps p m' (IOScalar y') = dense_forward ROps p m (IOScalar y).
Proof.
  intros y y' R. pose proof R as (Y1 & Y2 & _). pose proof IR as (W1 & W2 & U & I & F & _). rewrite !dense_forward_ok by (auto; congruence). rewrite U, F.
  f_equal. apply mapM_ext. intros o Ho. apply in_seq in Ho. now rewrite (pre_cols y y') by (auto; lia).
Qed.

(** Positions in a table of [c] columns. *)
Definition rows_pos (c : nat) (q : nat) : nat := s (q / c) * c + q mod c.
Definition cols_pos (c : nat) (q : nat) : nat := q / c * c + s (q mod c).

Lemma rx_rows : forall r c (a a' : list RC), c <> 0 -> (forall i, i < r -> s i < r) -> length a = r * c -> length a' = r * c ->
  (forall i j, i < r -> j < c -> nth (i * c + j) a' z = nth (s i * c + j) a z) -> rx ROps (r * c) (rows_pos c) a a'.
Proof.
  intros r c a a' C0 HS L1 L2 H. split; [exact L1|]. split; [exact L2|]. intros q Hq.
  assert (Q1 : q / c < r) by (apply Nat.div_lt_upper_bound; lia). assert (Q2 : q mod c < c) by (apply Nat.mod_upper_bound; exact C0).
  unfold rows_pos. split; [specialize (HS _ Q1); nia|]. rewrite <- H by assumption. f_equal. rewrite (Nat.div_mod q c C0) at 1. lia.
Qed.
Lemma rx_cols : forall r c (a a' : list RC), c <> 0 -> (forall i, i < c -> s i < c) -> length a = r * c -> length a' = r * c ->
  (forall i j, i < r -> j < c -> nth (i * c + j) a' z = nth (i * c + s j) a z) -> rx ROps (r * c) (cols_pos c) a a'.
Proof.
  intros r c a a' C0 HS L1 L2 H. split; [exact L1|]. split; [exact L2|]. intros q Hq.
  assert (Q1 : q / c < r) by (apply Nat.div_lt_upper_bound; lia). assert (Q2 : q mod c < c) by (apply Nat.mod_upper_bound; exact C0).
  unfold cols_pos. split; [specialize (HS _ Q2); nia|]. rewrite <- H by assumption. f_equal. rewrite (Nat.div_mod q c C0) at 1. lia.
Qed.
Lemma rows_at : forall r c (a a' : list RC) i j, rx ROps (r * c) (rows_pos c) a a' -> i < r -> j < c -> nth (i * c + j) a' z = nth (s i * c + j) a z.
Proof.
  intros r c a a' i j (_ & _ & H) Hi Hj. destruct (H (i * c + j) ltac:(nia)) as (_ & ->). unfold rows_pos.
  rewrite Nat.div_add_l, Nat.div_small, Nat.add_0_r by lia. rewrite (Nat.add_comm (i * c) j), Nat.mod_add, Nat.mod_small by lia. reflexivity.
Qed.
Lemma cols_at : forall r c (a a' : list RC) i j, rx ROps (r * c) (cols_pos c) a a' -> i < r -> j < c -> nth (i * c + j) a' z = nth (i * c + s j) a z.
Proof.
  intros r c a a' i j (_ & _ & H) Hi Hj. destruct (H (i * c + j) ltac:(nia)) as (_ & ->). unfold cols_pos.
  rewrite Nat.div_add_l, Nat.div_small, Nat.add_0_r by lia. rewrite (Nat.add_comm (i * c) j), Nat.mod_add, Nat.mod_small by lia. reflexivity.
Qed.

Lemma cols_derivs : forall y y' g gc dw db h hc, rx ROps (units ROps l) s y y' ->
  dense_derivatives ROps p m (IOScalar y) g gc = Ret (Ok (dw, db, h, hc)) ->
  exists dw' h', dense_derivatives ROps p m' (IOScalar y') g gc = Ret (Ok (dw', db, h', map (c_conj ROps) h')) /\ hc = map (c_conj ROps) h /\
    rx ROps (units ROps m * inputs ROps m) (cols_pos (inputs ROps m)) dw dw' /\ rx ROps (units ROps l) s h h' /\ length db = units ROps m.
Proof.
  intros y y' g gc dw db h hc R D. pose proof R as (Y1 & Y2 & Y3). pose proof IR as (W1 & W2 & U & I & F & HB & HW).
  destruct (derivs_lengths ROps p m _ _ _ _ D) as (G & GC). destruct (derivs_exist ROps p m y g gc _ W1 ltac:(congruence) G GC D) as (d & dc & DM).
  destruct (C41_derivatives ROps p m y g gc d dc W1 ltac:(congruence) G GC DM) as (dw1 & db1 & h1 & E1 & L1 & L2 & L3 & B1 & V1 & X1).
  rewrite E1 in D. injection D as -> -> -> <-.
  assert (DM' : forall o, o < units ROps m' -> d_activate ROps p (d_func m') (pre ROps m' y' o) = Ret (d o) /\ d_conj_activate ROps p (d_func m') (pre ROps m' y' o) = Ret (dc o)).
  { intros o Ho. rewrite F, (pre_cols y y') by (auto; congruence). apply DM. congruence. }
  destruct (C41_derivatives ROps p m' y' g gc d dc W2 ltac:(congruence) ltac:(congruence) ltac:(congruence) DM') as (dw2 & db2 & h2 & E2 & L4 & L5 & L6 & B2 & V2 & X2).
  rewrite U, I in *. cbv zeta in B1, V1, X1, B2, V2, X2.
  assert (db2 = db) by (apply (nth_ext _ _ z z); [congruence|]; intros o Ho; rewrite B1, B2 by lia; reflexivity). subst db2.
  exists dw2, h2. split; [exact E2|]. split; [reflexivity|]. split; [|split; [|exact L2]].
  - apply rx_cols; auto; [apply W1 | rewrite IM; apply RE|]. intros o i Ho Hi. rewrite V1, V2 by (auto; rewrite IM in *; apply RE; exact Hi).
    rewrite IM in Hi. now rewrite (proj2 (Y3 i Hi)).
  - split; [congruence|]. split; [congruence|]. intros i Hi. split; [apply RE, Hi|]. rewrite X1, X2 by (rewrite IM; auto; apply RE, Hi).
    unfold sum_from. apply fold_left_ext. intros a o Ho. apply in_seq in Ho. now rewrite HW by lia.
Qed.

Lemma rows_derivs : forall v h h' dw db e ec, length v = inputs ROps l -> rx ROps (units ROps l) s h h' ->
  dense_derivatives ROps p l (IOScalar v) h (map (c_conj ROps) h) = Ret (Ok (dw, db, e, ec)) ->
  exists dw' db', dense_derivatives ROps p l' (IOScalar v) h' (map (c_conj ROps) h') = Ret (Ok (dw', db', e, ec)) /\
    rx ROps (units ROps l * inputs ROps l) (rows_pos (inputs ROps l)) dw dw' /\ rx ROps (units ROps l) s db db'.
Proof.
  intros v h h' dw db e ec X R D. pose proof R as (Y1 & Y2 & Y3). pose proof (rx_map ROps (c_conj ROps) _ _ _ _ R) as (Z1 & Z2 & Z3). pose proof UR as (W1 & W2 & U & I & F & HB & HW).
  destruct (derivs_exist ROps p l v h _ _ W1 X Y1 Z1 D) as (d & dc & DM).
  destruct (C41_derivatives ROps p l v h (map (c_conj ROps) h) d dc W1 X Y1 Z1 DM) as (dw1 & db1 & e1 & E1 & L1 & L2 & L3 & B1 & V1 & X1).
  rewrite E1 in D. injection D as -> -> -> <-.
  assert (DM' : forall i, i < units ROps l' -> d_activate ROps p (d_func l') (pre ROps l' v i) = Ret (d (s i)) /\ d_conj_activate ROps p (d_func l') (pre ROps l' v i) = Ret (dc (s i))).
  { intros i Hi. rewrite F, pre_rows by congruence. apply DM, RE. congruence. }
  destruct (C41_derivatives ROps p l' v h' (map (c_conj ROps) h') (fun i => d (s i)) (fun i => dc (s i)) W2 ltac:(congruence) ltac:(congruence) ltac:(congruence) DM') as (dw2 & db2 & e2 & E2 & L4 & L5 & L6 & B2 & V2 & X2).
  rewrite U, I in *. cbv zeta in B1, V1, X1, B2, V2, X2.
  assert (e2 = e).
  { apply (nth_ext _ _ z z); [congruence|]. intros j Hj. rewrite X1, X2 by lia.
    pose (T := fun i => (weight ROps l i j * (d i * nth i h z + c_conj ROps (dc i) * nth i (map (c_conj ROps) h) z))%RC).
    transitivity (csum (fun i => T (s i)) (units ROps l)); [|exact (csum_perm T s _ RE)].
    apply csum_ext. intros i Hi. unfold T. rewrite HW by lia. rewrite (proj2 (Y3 i Hi)), (proj2 (Z3 i Hi)). reflexivity. }
  subst e2. exists dw2, db2. split; [exact E2|]. split.
  - apply rx_rows; auto; [apply W1 | apply RE|]. intros i j Hi Hj. rewrite V1, V2 by (auto; apply RE; exact Hi). now rewrite (proj2 (Y3 i Hi)), (proj2 (Z3 i Hi)).
  - split; [congruence|]. split; [congruence|]. intros i Hi. split; [apply RE, Hi|]. rewrite B1, B2 by (auto; apply RE, Hi). now rewrite (proj2 (Y3 i Hi)), (proj2 (Z3 i Hi)).
Qed.
End Pair.

Lemma trace_reordered : forall s k n n' x vs, reordered ROps s k n n' -> trace ROps p n x vs ->
  exists vs', trace ROps p n' x vs' /\ last vs' x = last vs x.
Proof.
  intros s k n n' x vs (be & l & m & af & l' & m' & -> & -> & K & IM & RE & UR & IR) T.
  destruct (trace_app ROps p _ _ _ _ T) as (u & v & w & T1 & T2 & -> & LU).
  inversion T2 as [|? ? ? y w1 E1 T3]; subst. cbn [layer_forward] in E1. inversion T3 as [|? ? ? o w2 E2 T4]; subst. cbn [layer_forward] in E2.
  destruct (rows_forward s l l' m IM RE UR v y E1) as (v0 & y0 & y' & -> & -> & X & LY & E1' & R).
  rewrite <- (cols_forward s l m m' IM RE IR y0 y' R) in E2.
  exists (u ++ IOScalar v0 :: IOScalar y' :: w2). split.
  - apply trace_join; [exact T1|]. econstructor; [exact E1'|]. econstructor; [exact E2 | exact T4].
  - assert (w2 <> []) by (destruct w2; [inversion T4 | discriminate]).
    assert (G : forall (a b : list (IOType RC)) d, b <> [] -> last (a ++ b) d = last b d).
    { clear. induction a as [|c a IH]; intros b d Hb; [reflexivity|]. cbn [app]. destruct (a ++ b) eqn:Q; [apply app_eq_nil in Q; tauto|]. rewrite <- Q. rewrite <- (IH b d Hb), Q. reflexivity. }
    change (u ++ IOScalar v0 :: IOScalar y' :: w2) with (u ++ [IOScalar v0; IOScalar y'] ++ w2). change (u ++ IOScalar v0 :: IOScalar y0 :: w2) with (u ++ [IOScalar v0; IOScalar y0] ++ w2).
    rewrite !app_assoc, !G by assumption. reflexivity.
Qed.

Theorem forward_reordered : forall s k n n' x, reordered ROps s k n n' -> net_forward ROps p n' x = net_forward ROps p n x.
Proof.
  intros s k n n' x R. destruct (reordered_sym s k n n' R) as (t & R').
  assert (NE : n <> [] /\ n' <> []).
  { destruct R as (be & l & m & af & l' & m' & -> & -> & _). split; intros Q; apply app_eq_nil in Q; destruct Q; discriminate. }
  assert (FW : forall (q : network ROps) vs, q <> [] -> trace ROps p q x vs -> net_forward ROps p q x = Ret (Ok (last vs x))).
  { intros q vs NQ T. rewrite forward_fold by auto. rewrite (fwd_fold _ _ _ _ _ T). reflexivity. }
  destruct (trace_cases ROps p n x) as [(vs & T)|NT].
  - destruct (trace_reordered s k n n' x vs R T) as (vs' & T' & L). rewrite (FW n' vs'), (FW n vs) by tauto. now rewrite L.
  - rewrite !forward_fold by tauto. rewrite (fwd_fold_panic _ _ _ _ NT). rewrite fwd_fold_panic; [reflexivity|].
    intros vs' T'. destruct (trace_reordered t k n' n x vs' R' T') as (vs & T & _). exact (NT vs T).
Qed.

Lemma pgrad_reordered : forall s k n n' be l m af l' m', n = be ++ LDense l :: LDense m :: af -> n' = be ++ LDense l' :: LDense m' :: af -> length be = k ->
  inputs ROps m = units ROps l -> reorders s (units ROps l) -> units_reordered ROps s l l' -> inputs_reordered ROps s m m' ->
  forall f it ws bs, pgrad ROps p n f it = Ret (ws, bs) -> exists ws' bs', pgrad ROps p n' f it = Ret (ws', bs') /\
    two ROps k (rx ROps (units ROps l * inputs ROps l) (rows_pos s (inputs ROps l))) (rx ROps (units ROps m * inputs ROps m) (cols_pos s (inputs ROps m))) ws ws' /\
    two ROps k (rx ROps (units ROps l) s) (rx ROps (units ROps m) (fun q => q)) bs bs'.
Proof.
  intros s k n n' be l m af l' m' -> -> K IM RE UR IR f [x t] ws bs P.
  destruct (collect_of_pgrad ROps p _ f x t ws bs P) as (vs & g & h & hc & T & DL & B).
  destruct (trace_app ROps p _ _ _ _ T) as (u & v & w & T1 & T2 & -> & LU).
  inversion T2 as [|? ? ? y w1 E1 T3]; subst. cbn [layer_forward] in E1. inversion T3 as [|? ? ? o w2 E2 T4]; subst. cbn [layer_forward] in E2.
  destruct (rows_forward s l l' m IM RE UR v y E1) as (v0 & y0 & y' & -> & -> & X & LY & E1' & R).
  pose proof E2 as E2'. rewrite <- (cols_forward s l m m' IM RE IR y0 y' R) in E2'.
  rewrite combine_app' in B by exact LU. cbn [combine] in B. rewrite bp_app in B.
  apply obind_inv in B as ((((ws2 & bs2) & h2) & hc2) & B2 & B). apply obind_inv in B as ((((ws1 & bs1) & h1) & hc1) & B1 & B). injection B as <- <- _ _.
  cbn [bp] in B2. apply obind_inv in B2 as ((((ws3 & bs3) & h3) & hc3) & B2 & B4). cbn [layer_propagates layer_derivatives] in B4, B2.
  apply obind_inv in B2 as ((((ws4 & bs4) & h4) & hc4) & B3 & B2).
  apply obind_inv in B2 as (r & D2 & B2). destruct r as [d|]; cbn [unwrap obind] in B2; [|discriminate]. destruct d as (((dw2 & db2) & e2) & ec2). injection B2 as <- <- <- <-.
  apply obind_inv in B4 as (r & D1 & B4). destruct r as [d|]; cbn [unwrap obind] in B4; [|discriminate]. destruct d as (((dw1 & db1) & e1) & ec1). injection B4 as <- <- <- <-.
  destruct (cols_derivs s l m m' IM RE IR y0 y' _ _ _ _ _ _ R D2) as (dw2' & e2' & D2' & -> & X2 & X3 & X4).
  destruct (rows_derivs s l l' m IM RE UR v0 e2 e2' dw1 db1 e1 ec1 X X3 D1) as (dw1' & db1' & D1' & X5 & X6).
  destruct (bp_length _ _ _ _ _ _ _ _ _ B1) as (LW & LB). rewrite combine_length in LW, LB.
  exists (ws1 ++ dw1' :: dw2' :: ws4), (bs1 ++ db1' :: db2 :: bs4). split; [|split].
  - apply (pgrad_of ROps p _ f x t (u ++ IOScalar v0 :: IOScalar y' :: w2) g _ _ h1 hc1).
    + intros Q. apply app_eq_nil in Q. destruct Q; discriminate.
    + apply trace_join; [exact T1|]. econstructor; [exact E1'|]. econstructor; [exact E2' | exact T4].
    + rewrite <- DL. f_equal. assert (w2 <> []) by (destruct w2; [inversion T4 | discriminate]).
      assert (G : forall (a b : list (IOType RC)) d, b <> [] -> last (a ++ b) d = last b d).
      { clear. induction a as [|c a IH]; intros b d Hb; [reflexivity|]. cbn [app]. destruct (a ++ b) eqn:Q; [apply app_eq_nil in Q; tauto|]. rewrite <- Q. rewrite <- (IH b d Hb), Q. reflexivity. }
      change (u ++ IOScalar v0 :: IOScalar y' :: w2) with (u ++ [IOScalar v0; IOScalar y'] ++ w2). change (u ++ IOScalar v0 :: IOScalar y0 :: w2) with (u ++ [IOScalar v0; IOScalar y0] ++ w2).
      rewrite !app_assoc, !G by assumption. reflexivity.
    + rewrite combine_app' by exact LU. cbn [combine]. rewrite bp_app. cbn [bp layer_propagates dense_propagates layer_derivatives]. rewrite B3. cbn [obind]. rewrite D2'. cbn [unwrap obind].
      rewrite D1'. cbn [unwrap obind]. rewrite B1. reflexivity.
  - exists ws1, dw1, dw2, dw1', dw2', ws4. repeat (split; [reflexivity|]). split; [lia | auto].
  - exists bs1, db1, db2, db1', db2, bs4. repeat (split; [reflexivity|]). split; [lia|]. split; [exact X6|]. rewrite <- X4. apply rx_id.
Qed.

Lemma rx_repeat : forall (c : RC) L pi, (forall q, q < L -> pi q < L) -> rx ROps L pi (repeat c L) (repeat c L).
Proof.
  intros c L pi H. split; [apply repeat_length|]. split; [apply repeat_length|]. intros q Hq. split; [auto|].
  transitivity c; [|symmetry]; apply (repeat_spec L), nth_In; rewrite repeat_length; auto.
Qed.

Theorem step_reordered : forall s k n n' data f lr n1, reordered ROps s k n n' -> net_gradient_opt ROps p n data f lr = Ret (n1, Ok tt) ->
  exists n1', net_gradient_opt ROps p n' data f lr = Ret (n1', Ok tt) /\ reordered ROps s k n1 n1'.
Proof.
  intros s k n n' data f lr n1 (be & l & m & af & l' & m' & EN & EN' & K & IM & RE & UR & IR) E. pose proof UR as (W1 & W2 & U & I & F & HB & HW). pose proof IR as (V1 & V2 & U2 & I2 & F2 & HB2 & HW2).
  assert (LN : length n' = length n) by (rewrite EN, EN', !app_length; reflexivity).
  unfold net_gradient_opt in *. rewrite LN. destruct (length n <=? 1) eqn:L1; [discriminate|].
  apply obind_inv in E as ((W & B) & EG & E). apply obind_inv in E as (sc & ES & E). apply obind_inv in E as (q & EM & E).
  assert (q = n1) by congruence. subst q. clear E. cbn [fst snd] in EM. unfold net_gradient, ds_points_iter in *.
  destruct (grad_zero_slots ROps n) as (S1 & S2). destruct (grad_zero_slots ROps n') as (S1' & S2').
  rewrite (surjective_pairing (grad_zero ROps n)) in EG. rewrite (surjective_pairing (grad_zero ROps n')).
  assert (BD : length (body (d_weights l)) = units ROps l * inputs ROps l /\ length (body (d_weights l')) = units ROps l * inputs ROps l /\
               length (body (d_weights m)) = units ROps m * inputs ROps m /\ length (body (d_weights m')) = units ROps m * inputs ROps m).
  { unfold dense_wf, wf in W1, W2, V1, V2. rewrite (proj1 W1), (proj1 W2), (proj1 V1), (proj1 V2). unfold units, inputs in *. repeat split; congruence. }
  destruct BD as (D1 & D2 & D3 & D4).
  assert (BB : length (d_biases l) = units ROps l /\ length (d_biases l') = units ROps l /\ length (d_biases m) = units ROps m /\ length (d_biases m') = units ROps m).
  { unfold dense_wf in W1, W2, V1, V2. unfold units in *. rewrite (proj1 (proj2 W1)), (proj1 (proj2 W2)), (proj1 (proj2 V1)), (proj1 (proj2 V2)). auto. }
  destruct BB as (D5 & D6 & D7 & D8).
  assert (I0 : inputs ROps l <> 0) by apply W1. assert (I1 : inputs ROps m <> 0) by apply V1.
  assert (RP : forall q, q < units ROps l * inputs ROps l -> rows_pos s (inputs ROps l) q < units ROps l * inputs ROps l).
  { intros q Hq. unfold rows_pos. assert (Q1 : q / inputs ROps l < units ROps l) by (apply Nat.div_lt_upper_bound; lia).
    assert (Q2 : q mod inputs ROps l < inputs ROps l) by (apply Nat.mod_upper_bound; exact I0). pose proof (proj1 RE _ Q1). nia. }
  assert (CP : forall q, q < units ROps m * inputs ROps m -> cols_pos s (inputs ROps m) q < units ROps m * inputs ROps m).
  { intros q Hq. unfold cols_pos. assert (Q1 : q / inputs ROps m < units ROps m) by (apply Nat.div_lt_upper_bound; lia).
    assert (Q2 : q mod inputs ROps m < inputs ROps m) by (apply Nat.mod_upper_bound; exact I1).
    assert (Q3 : s (q mod inputs ROps m) < inputs ROps m) by (rewrite IM in *; apply RE; exact Q2). nia. }
  assert (PL : forall d : dense ROps, dense_wf ROps d -> layer_params_len ROps (LDense d) = (length (body (d_weights d)), length (d_biases d))).
  { intros d Wd. assert (FU : layer_full ROps (LDense d)) by apply Wd. destruct (full_params ROps _ FU) as (Q1 & Q2). rewrite (surjective_pairing (layer_params_len ROps (LDense d))), Q1, Q2. reflexivity. }
  assert (GW : two ROps k (rx ROps (units ROps l * inputs ROps l) (rows_pos s (inputs ROps l))) (rx ROps (units ROps m * inputs ROps m) (cols_pos s (inputs ROps m)))
    (fst (grad_zero ROps n)) (fst (grad_zero ROps n'))).
  { rewrite EN, EN'. unfold grad_zero. cbn [fst]. rewrite !map_app. cbn [map layer_propagates dense_propagates]. rewrite !PL by assumption. cbn [fst]. rewrite D1, D2, D3, D4.
    eexists _, _, _, _, _, _. split; [reflexivity|]. split; [reflexivity|]. split; [now rewrite map_length|]. split; apply rx_repeat; assumption. }
  assert (GB : two ROps k (rx ROps (units ROps l) s) (rx ROps (units ROps m) (fun q => q)) (snd (grad_zero ROps n)) (snd (grad_zero ROps n'))).
  { rewrite EN, EN'. unfold grad_zero. cbn [snd]. rewrite !map_app. cbn [map layer_propagates dense_propagates]. rewrite !PL by assumption. cbn [snd]. rewrite D5, D6, D7, D8.
    eexists _, _, _, _, _, _. split; [reflexivity|]. split; [reflexivity|]. split; [now rewrite map_length|]. split; apply rx_repeat; [apply RE | auto]. }
  destruct (batch_two ROps p n n' f k _ _ _ _ _ _ _ _ (pgrad_reordered s k n n' be l m af l' m' EN EN' K IM RE UR IR f) _ _ _ _ _ _ _ S1 S2 S1' S2' GW GB EG) as (W' & B' & EG' & TW & TB).
  rewrite EG'. cbn [obind]. rewrite ES. cbn [obind fst snd].
  destruct TW as (A & a & b & a' & b' & c & -> & -> & LA & R1 & R2). destruct TB as (A2 & ba & bb & ba' & bb' & c2 & -> & -> & LA2 & R3 & R4).
  pose proof (rx_same ROps _ _ _ R4). subst bb'.
  rewrite EN in EM. rewrite EN'.
  rewrite (combine_app' A _ A2) in EM by congruence. rewrite combine_app' in EM by (rewrite combine_length; lia). rewrite mapM_app in EM. cbn [combine mapM] in EM.
  apply obind_inv in EM as (nb & M1 & EM). apply obind_inv in EM as (r & M2 & EM). injection EM as <-.
  apply obind_inv in M2 as (l1 & U1 & M2). apply obind_inv in M2 as (r2 & M3 & M2). injection M2 as <-. apply obind_inv in M3 as (m1 & U3 & M3). apply obind_inv in M3 as (na & M4 & M3). injection M3 as <-.
  rewrite (combine_app' A _ A2) by congruence. rewrite combine_app' by (rewrite combine_length; lia). rewrite mapM_app. cbn [combine mapM]. rewrite M1. cbn [obind].
  destruct R1 as (R11 & R12 & R13). destruct R2 as (R21 & R22 & R23). destruct R3 as (R31 & R32 & R33). destruct R4 as (R41 & R42 & R43).
  destruct (update_ok ROps sc (LDense l) a ba (proj1 W1) ltac:(cbn [layer_values fst snd]; congruence) ltac:(cbn [layer_values fst snd]; congruence)) as (x1 & Y1 & AR1 & VA1).
  destruct (update_ok ROps sc (LDense l') a' ba' (proj1 W2) ltac:(cbn [layer_values fst snd]; congruence) ltac:(cbn [layer_values fst snd]; congruence)) as (x2 & Y2 & AR2 & VA2).
  destruct (update_ok ROps sc (LDense m) b bb (proj1 V1) ltac:(cbn [layer_values fst snd]; congruence) ltac:(cbn [layer_values fst snd]; congruence)) as (x3 & Y3 & AR3 & VA3).
  destruct (update_ok ROps sc (LDense m') b' bb (proj1 V2) ltac:(cbn [layer_values fst snd]; congruence) ltac:(cbn [layer_values fst snd]; congruence)) as (x4 & Y4 & AR4 & VA4).
  assert (x1 = l1) by congruence. assert (x3 = m1) by congruence. subst x1 x3. rewrite Y2. cbn [obind]. rewrite Y4. cbn [obind]. rewrite M4. cbn [obind].
  eexists. split; [reflexivity|].
  destruct l1 as [l1|l1|l1|l1]; try discriminate. destruct x2 as [l2|l2|l2|l2]; try discriminate. destruct m1 as [m1|m1|m1|m1]; try discriminate. destruct x4 as [m2|m2|m2|m2]; try discriminate.
  destruct (arch_dense ROps l1 l AR1 W1) as (Q1 & Q2 & Q3 & Q4). destruct (arch_dense ROps l2 l' AR2 W2) as (P1 & P2 & P3 & P4).
  destruct (arch_dense ROps m1 m AR3 V1) as (O1 & O2 & O3 & O4). destruct (arch_dense ROps m2 m' AR4 V2) as (N1 & N2 & N3 & N4).
  cbn [layer_values fst snd] in VA1, VA2, VA3, VA4. injection VA1 as VA1 VB1. injection VA2 as VA2 VB2. injection VA3 as VA3 VB3. injection VA4 as VA4 VB4.
  exists nb, l1, m1, na, l2, m2. split; [reflexivity|]. split; [reflexivity|].
  split; [apply mapM_length in M1; rewrite !combine_length in M1; lia|]. split; [congruence|]. split; [rewrite Q2; exact RE|].
  assert (RL : rx ROps (units ROps l * inputs ROps l) (rows_pos s (inputs ROps l)) (body (d_weights l)) (body (d_weights l'))).
  { apply (rx_rows s l m IM); auto; [apply RE|]. intros i j Hi Hj. pose proof (HW i j Hi Hj) as H. unfold weight, entry in H. fold (inputs ROps l) (inputs ROps l') in H. rewrite I in H. exact H. }
  assert (RM : rx ROps (units ROps m * inputs ROps m) (cols_pos s (inputs ROps m)) (body (d_weights m)) (body (d_weights m'))).
  { apply (rx_cols s l m IM); auto; [rewrite IM; apply RE|]. intros i j Hi Hj. pose proof (HW2 i j Hi Hj) as H. unfold weight, entry in H. fold (inputs ROps m) (inputs ROps m') in H. rewrite I2 in H. exact H. }
  assert (RB : rx ROps (units ROps l) s (d_biases l) (d_biases l')) by (split; [exact D5|]; split; [exact D6|]; intros i Hi; split; [apply RE, Hi | apply HB, Hi]).
  assert (NL : rx ROps (units ROps l * inputs ROps l) (rows_pos s (inputs ROps l)) (body (d_weights l1)) (body (d_weights l2))) by (refine (eq_ind_r (fun X => rx ROps _ _ X _) (eq_ind_r (fun Y => rx ROps _ _ _ Y) _ VA2) VA1); exact (rx_zip ROps (sub_conj ROps) _ _ _ _ _ _ RL (rx_map ROps (fun e => c_mul_assign ROps e sc) _ _ _ _ (Logic.conj R11 (Logic.conj R12 R13))))).
  assert (NM : rx ROps (units ROps m * inputs ROps m) (cols_pos s (inputs ROps m)) (body (d_weights m1)) (body (d_weights m2))) by (refine (eq_ind_r (fun X => rx ROps _ _ X _) (eq_ind_r (fun Y => rx ROps _ _ _ Y) _ VA4) VA3); exact (rx_zip ROps (sub_conj ROps) _ _ _ _ _ _ RM (rx_map ROps (fun e => c_mul_assign ROps e sc) _ _ _ _ (Logic.conj R21 (Logic.conj R22 R23))))).
  assert (NB : rx ROps (units ROps l) s (d_biases l1) (d_biases l2)) by (refine (eq_ind_r (fun X => rx ROps _ _ X _) (eq_ind_r (fun Y => rx ROps _ _ _ Y) _ VB2) VB1); exact (rx_zip ROps (sub_conj ROps) _ _ _ _ _ _ RB (rx_map ROps (fun e => c_mul_assign ROps e sc) _ _ _ _ (Logic.conj R31 (Logic.conj R32 R33))))).
  split.
  - split; [exact Q1|]. split; [exact P1|]. split; [congruence|]. split; [congruence|]. split; [congruence|]. rewrite Q2, Q3. split; [intros i Hi; apply NB, Hi|].
    intros i j Hi Hj. unfold weight, entry. fold (inputs ROps l1) (inputs ROps l2). rewrite P3, Q3, I. exact (rows_at s l m IM _ _ _ _ i j NL Hi Hj).
  - split; [exact O1|]. split; [exact N1|]. split; [congruence|]. split; [congruence|]. split; [congruence|]. rewrite O2, O3. split; [congruence|].
    intros i j Hi Hj. unfold weight, entry. fold (inputs ROps m1) (inputs ROps m2). rewrite N3, O3, I2. exact (cols_at s l m IM _ _ _ _ i j NM Hi Hj).
Qed.

Theorem steps_reordered : forall s k steps n n' n1, reordered ROps s k n n' -> train_steps ROps p n steps = Ret n1 ->
  exists n1', train_steps ROps p n' steps = Ret n1' /\ reordered ROps s k n1 n1'.
Proof.
  intros s k steps. induction steps as [|[[d f] lr] steps IH]; intros n n' n1 R E; cbn [train_steps] in *; [injection E as <-; eauto|].
  apply obind_inv in E as ((n2 & r) & E1 & E). cbn [fst snd] in E. destruct r as [[]|]; [|discriminate].
  destruct (step_reordered s k n n' d f lr n2 R E1) as (n2' & E1' & R2). rewrite E1'. cbn [obind fst snd]. eauto.
Qed.
End Dense.
