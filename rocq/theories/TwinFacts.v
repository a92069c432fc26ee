(** * Facts about units that are copies of each other *)
From Verif Require Import Base BaseFacts Float Matrix Cplx Random Act Input Loss Dense Conv Layer Dataset Network SpecMatrix MatrixFacts
  SpecLayer SpecConv SpecNet DenseFacts ConvFacts LayerFacts NetFacts TrainFacts TrainDense TrainLaws PropDense GradFacts GradFacts2 ConvCalc NanFacts SpecGeom GeomFacts
  SpecDead DeadFacts PropTrain SpecTwin.
Local Open Scope nat_scope.

Section Twin.
Context (Fl : FloatOps) (p : prec).
Local Notation C := (cplx (F Fl)).
Local Notation z := (c_default Fl).

(** ** Ties between entries of lists *)
Definition tied (l : list C) (q q' : nat) : Prop := nth_error l q = nth_error l q'.
Lemma tied_zip : forall (f : C -> C -> C) l r q q', tied l q q' -> tied r q q' -> tied (zip_assign f l r) q q'.
Proof. intros f l r q q' H1 H2. unfold tied in *. rewrite !nth_error_zip_assign, H1, H2. reflexivity. Qed.
Lemma tied_map : forall (f : C -> C) l q q', tied l q q' -> tied (map f l) q q'.
Proof. intros f l q q' H. unfold tied in *. rewrite !nth_error_map, H. reflexivity. Qed.
Lemma tied_nth : forall l q q', q < length l -> q' < length l -> (tied l q q' <-> nth q l z = nth q' l z).
Proof.
  intros l q q' H H'. unfold tied. rewrite (nth_error_nth' l z H), (nth_error_nth' l z H'). split; congruence.
Qed.

(** ** A training step keeps ties that every point's gradient has *)
Context (Tw Tb : nat -> nat -> nat -> Prop).
Definition ties (W B : list (list C)) : Prop :=
  (forall k q q', Tw k q q' -> tied (nth k W []) q q') /\ (forall k q q', Tb k q q' -> tied (nth k B []) q q').
Definition net_ties (n : network Fl) : Prop :=
  forall k l, nth_error n k = Some l -> (exists q q', Tw k q q' \/ Tb k q q') -> layer_full Fl l /\
    (forall q q', Tw k q q' -> q < length (fst (layer_values Fl l)) /\ q' < length (fst (layer_values Fl l)) /\ tied (fst (layer_values Fl l)) q q') /\
    (forall q q', Tb k q q' -> q < length (snd (layer_values Fl l)) /\ q' < length (snd (layer_values Fl l)) /\ tied (snd (layer_values Fl l)) q q').

Lemma addv_tied : forall (W ws W' : list (list C)) k q q', addv Fl W ws = Ret W' -> length ws = length W ->
  tied (nth k W []) q q' -> tied (nth k ws []) q q' -> tied (nth k W' []) q q'.
Proof.
  intros W ws W' k q q' E L H1 H2. destruct (Nat.lt_ge_cases k (length ws)) as [K|K].
  - destruct (addv_nth Fl W ws W' k E K) as (-> & _). now apply tied_zip.
  - assert (LL : length W' = length W) by (apply addv_lengths in E; apply (f_equal (@length nat)) in E; now rewrite !map_length in E).
    rewrite nth_overflow by lia. destruct q, q'; reflexivity.
Qed.

Lemma pgrad_length : forall n f it ws bs, pgrad Fl p n f it = Ret (ws, bs) -> length ws = length n /\ length bs = length n.
Proof.
  intros n f it ws bs P. unfold pgrad in P. apply obind_inv in P as (r & E1 & E). destruct r as [acts|]; cbn [unwrap obind] in E; [|discriminate].
  apply obind_inv in E as (g & E2 & E). apply obind_inv in E as ((((ws' & bs') & h) & hc) & E3 & E).
  injection E as -> ->. apply bp_length in E3 as (L1 & L2). apply collect_length in E1. rewrite combine_length in L1, L2. lia.
Qed.

Lemma batch_ties : forall n f its W B W' B', slots Fl n W -> slots Fl n B ->
  (forall it ws bs, In it its -> pgrad Fl p n f it = Ret (ws, bs) -> ties ws bs) ->
  ties W B -> foldM (point_step Fl p n f) its (W, B) = Ret (W', B') -> ties W' B'.
Proof.
  intros n f its. induction its as [|it its IH]; intros W B W' B' SW SB Q Q0 E; cbn [foldM] in E; [injection E as <- <-; exact Q0|].
  apply obind_inv in E as ((W2 & B2) & E1 & E). destruct (point_step_lengths Fl p _ _ _ _ _ _ _ SW SB E1) as (L1 & L2).
  rewrite point_step_eq in E1 by auto. apply obind_inv in E1 as ((ws & bs) & P & E1).
  apply obind_inv in E1 as (W3 & A1 & E1). apply obind_inv in E1 as (B3 & A2 & E1). injection E1 as -> ->.
  apply (IH W2 B2 W' B'); auto; try (eapply slots_lengths; eauto); [intros; eapply Q; eauto; now right|].
  pose proof (Q it ws bs (or_introl eq_refl) P) as (Q1 & Q2). destruct Q0 as (Q3 & Q4). destruct (pgrad_length _ _ _ _ _ P) as (LW & LB).
  assert (LW0 : length W = length n) by (symmetry; eapply Forall2_len; exact SW).
  assert (LB0 : length B = length n) by (symmetry; eapply Forall2_len; exact SB).
  split; intros k q q' T; (eapply addv_tied; [eassumption | congruence | auto | auto]).
Qed.

Lemma tied_repeat : forall (c : C) m q q', q < m -> q' < m -> tied (repeat c m) q q'.
Proof.
  intros c m q q' H H'. apply tied_nth; rewrite ?repeat_length; auto. transitivity c; [|symmetry]; apply (repeat_spec m), nth_In; now rewrite repeat_length.
Qed.

Lemma nth_map_error : forall {A B} (f : A -> list B) n k l, nth_error n k = Some l -> nth k (map f n) [] = f l.
Proof. intros A B f n k l K. apply nth_error_nth. now rewrite nth_error_map, K. Qed.

Lemma step_ties : forall n data f lr n' r, net_ties n ->
  (forall k q q', Tw k q q' \/ Tb k q q' -> k < length n) ->
  (forall x t ws bs, In (x, t) (combine (ds_inputs data) (ds_target data)) -> pgrad Fl p n f (x, t) = Ret (ws, bs) -> ties ws bs) ->
  net_gradient_opt Fl p n data f lr = Ret (n', Ok r) -> net_ties n'.
Proof.
  intros n data f lr n' r NT KN Q E. unfold net_gradient_opt in E. destruct (length n <=? 1); [discriminate|].
  apply obind_inv in E as ((W & B) & EG & E). apply obind_inv in E as (s & ES & E). apply obind_inv in E as (m & EM & E).
  injection E as -> _. cbn [fst snd] in EM. destruct (gradient_lengths Fl p n data f W B EG) as (L1 & L2).
  destruct (grad_zero_length Fl n) as (G1 & G2).
  assert (LW : length W = length n) by (apply (f_equal (@length nat)) in L1; rewrite !map_length in L1; lia).
  assert (LB : length B = length n) by (apply (f_equal (@length nat)) in L2; rewrite !map_length in L2; lia).
  assert (ZZ : forall k l, nth_error n k = Some l -> layer_full Fl l ->
    nth k (fst (grad_zero Fl n)) [] = (if layer_propagates Fl l then repeat z (length (fst (layer_values Fl l))) else []) /\
    nth k (snd (grad_zero Fl n)) [] = (if layer_propagates Fl l then repeat z (length (snd (layer_values Fl l))) else [])).
  { intros k l K FU. unfold grad_zero. cbn [fst snd]. rewrite !(nth_map_error _ n k l K).
    destruct (full_params Fl l FU) as (<- & <-). auto. }
  assert (QQ : ties W B).
  { unfold net_gradient, ds_points_iter in EG. destruct (grad_zero_slots Fl n) as (S1 & S2).
    rewrite (surjective_pairing (grad_zero Fl n)) in EG. eapply batch_ties; [exact S1 | exact S2 | | | exact EG].
    - intros [x t] ws bs Hi P. eapply Q; eauto.
    - split; intros k q q' T.
      + destruct (nth_error n k) as [l|] eqn:K; [|apply nth_error_None in K; specialize (KN k q q' (or_introl T)); lia].
        destruct (NT k l K (ex_intro _ q (ex_intro _ q' (or_introl T)))) as (FU & N1 & _). destruct (N1 q q' T) as (H & H' & _).
        destruct (ZZ k l K FU) as (-> & _). destruct (layer_propagates Fl l); [now apply tied_repeat | destruct q, q'; reflexivity].
      + destruct (nth_error n k) as [l|] eqn:K; [|apply nth_error_None in K; specialize (KN k q q' (or_intror T)); lia].
        destruct (NT k l K (ex_intro _ q (ex_intro _ q' (or_intror T)))) as (FU & _ & N1). destruct (N1 q q' T) as (H & H' & _).
        destruct (ZZ k l K FU) as (_ & ->). destruct (layer_propagates Fl l); [now apply tied_repeat | destruct q, q'; reflexivity]. }
  destruct QQ as (Q1 & Q2). intros k l' K' (q0 & q0' & T0).
  assert (KL : k < length n) by (apply (KN k q0 q0' T0)).
  destruct (nth_error n k) as [l|] eqn:K; [|apply nth_error_None in K; lia].
  destruct (NT k l K (ex_intro _ q0 (ex_intro _ q0' T0))) as (FU & N1 & N2). destruct (ZZ k l K FU) as (Z1 & Z2).
  assert (NW : nth_error W k = Some (nth k W [])) by (apply nth_error_nth'; lia).
  assert (NB : nth_error B k = Some (nth k B [])) by (apply nth_error_nth'; lia).
  destruct (mapM_nth_inv _ _ _ k _ EM (nth_error_combine _ _ _ _ _ (nth_error_combine _ _ _ _ _ NW NB) K)) as (l2 & K2 & U).
  assert (l2 = l') by congruence. subst l2. destruct (update_arch Fl s _ l l' U) as (_ & FU'). specialize (FU' FU). split; [exact FU'|].
  destruct (layer_propagates Fl l) eqn:PR; [|unfold update_layer in U; rewrite PR in U; injection U as <-; auto].
  assert (A1 : length (nth k W []) = length (fst (layer_values Fl l))).
  { transitivity (length (nth k (fst (grad_zero Fl n)) [])); [|rewrite Z1; apply repeat_length].
    rewrite <- !(map_nth (@length C)), L1. reflexivity. }
  assert (A2 : length (nth k B []) = length (snd (layer_values Fl l))).
  { transitivity (length (nth k (snd (grad_zero Fl n)) [])); [|rewrite Z2; apply repeat_length].
    rewrite <- !(map_nth (@length C)), L2. reflexivity. }
  destruct (update_ok Fl s l _ _ FU A1 A2) as (l2 & U2 & _ & V). assert (l2 = l') by congruence. subst l2. rewrite V. cbn [fst snd]. rewrite !zip_assign_length.
  split; intros q q' T.
  - destruct (N1 q q' T) as (H & H' & N). repeat (split; [assumption|]). apply tied_zip; [exact N|]. apply tied_map, Q1, T.
  - destruct (N2 q q' T) as (H & H' & N). repeat (split; [assumption|]). apply tied_zip; [exact N|]. apply tied_map, Q2, T.
Qed.
End Twin.

Section Pairs.
Context (Fl : FloatOps) (p : prec).
Local Notation C := (cplx (F Fl)).
Local Notation z := (c_default Fl).

(** ** Two layers of the sweep *)
Lemma bp_pair : forall xs g gc ws bs h hc k x l x2 m, bp Fl p xs g gc = Ret (ws, bs, h, hc) ->
  nth_error xs k = Some (x, l) -> nth_error xs (S k) = Some (x2, m) -> layer_propagates Fl l = true -> layer_propagates Fl m = true ->
  exists g2 gc2 h2 hc2 h1 hc1, layer_derivatives Fl p m x2 g2 gc2 = Ret (Ok (nth (S k) ws [], nth (S k) bs [], h2, hc2)) /\
    layer_derivatives Fl p l x h2 hc2 = Ret (Ok (nth k ws [], nth k bs [], h1, hc1)).
Proof.
  induction xs as [|[x0 l0] xs IH]; intros g gc ws bs h hc k x l x2 m E K K2 PR PR2; [destruct k; discriminate|]. cbn [bp] in E.
  apply obind_inv in E as ((((ws0 & bs0) & h0) & hc0) & E0 & E). destruct k as [|k]; cbn [nth_error] in K.
  - injection K as -> ->. rewrite PR in E. apply obind_inv in E as (r & E1 & E). destruct r as [d|e]; cbn [unwrap obind] in E; [|discriminate].
    destruct d as (((dw & db) & h1) & hc1). injection E as <- <- <- <-.
    destruct xs as [|[x3 l3] xs]; [discriminate|]. cbn [nth_error] in K2. injection K2 as -> ->. cbn [bp] in E0.
    apply obind_inv in E0 as ((((ws1 & bs1) & h3) & hc3) & E2 & E0). rewrite PR2 in E0. apply obind_inv in E0 as (r & E3 & E0).
    destruct r as [d|e]; cbn [unwrap obind] in E0; [|discriminate]. destruct d as (((dw2 & db2) & h2) & hc2). injection E0 as <- <- <- <-.
    cbn [nth]. exists h3, hc3, h2, hc2, h1, hc1. auto.
  - destruct (IH _ _ _ _ _ _ _ _ _ _ _ E0 K K2 PR PR2) as (g2 & gc2 & h2 & hc2 & h1 & hc1 & D1 & D2).
    exists g2, gc2, h2, hc2, h1, hc1. destruct (layer_propagates Fl l0).
    + apply obind_inv in E as (r & E1 & E). destruct r as [d|e]; cbn [unwrap obind] in E; [|discriminate].
      destruct d as (((dw1 & db1) & h4) & hc4). injection E as <- <- <- <-. cbn [nth]. auto.
    + injection E as <- <- <- <-. cbn [nth]. auto.
Qed.

Lemma bp_geom_pair : forall n g g', fit_all Fl n g g' -> Forall (trainable Fl) n -> forall x vs h hc ws bs e ec k l m, has_geom g x -> trace Fl p n x vs ->
  length h = gsize g' -> length hc = gsize g' -> bp Fl p (combine vs n) h hc = Ret (ws, bs, e, ec) ->
  nth_error n k = Some l -> nth_error n (S k) = Some m -> layer_propagates Fl l = true -> layer_propagates Fl m = true ->
  exists g0 g1 g2 h2 hc2 h1 hc1 h0 hc0, fits Fl l g0 g1 /\ fits Fl m g1 g2 /\ has_geom g0 (nth k vs x) /\ has_geom g1 (nth (S k) vs x) /\
    length h2 = gsize g2 /\ length hc2 = gsize g2 /\ length h1 = gsize g1 /\ length hc1 = gsize g1 /\
    layer_derivatives Fl p m (nth (S k) vs x) h2 hc2 = Ret (Ok (nth (S k) ws [], nth (S k) bs [], h1, hc1)) /\
    layer_derivatives Fl p l (nth k vs x) h1 hc1 = Ret (Ok (nth k ws [], nth k bs [], h0, hc0)).
Proof.
  intros n g g' FA. induction FA as [g | l0 n g g1 g2 Hl FA IH]; intros TR x vs h hc ws bs e ec k l m X T Lh Lhc E K K2 PR PR2; [destruct k; discriminate|].
  inversion TR as [|? ? T0 TR']; subst. inversion T as [|? ? ? y vs' E1 T']; subst.
  destruct (layer_total Fl p l0 g g1 x Hl X) as (y' & E1' & Y). assert (y' = y) by congruence. subst y'.
  destruct (sweep Fl p n g1 g2 FA y Y) as (vs2 & w & T2 & _ & _ & S). assert (vs2 = vs') by (eapply trace_det; eauto). subst vs2.
  destruct (S TR' h hc Lh Lhc) as (ws1 & bs1 & h1 & hc1 & B1 & _ & _ & L1 & L2).
  cbn [combine bp] in E. rewrite B1 in E. cbn [obind] in E. destruct k as [|k]; cbn [nth_error] in K.
  - injection K as ->. rewrite PR in E. apply obind_inv in E as (r & E2 & E). destruct r as [d|]; cbn [unwrap obind] in E; [|discriminate].
    destruct d as (((dw & db) & h0) & hc0). injection E as <- <- <- <-. cbn [nth].
    cbn [nth_error] in K2. destruct n as [|m0 n]; [discriminate|]. injection K2 as ->.
    destruct (bp_geom Fl p (m :: n) g1 g2 FA TR' y vs' h hc ws1 bs1 h1 hc1 0 m Y T' Lh Lhc B1 eq_refl PR2) as (g3 & g4 & h4 & hc4 & dw4 & db4 & e4 & ec4 & R1 & R2 & R3 & R4 & R5 & R6 & R7).
    inversion FA as [|? ? ? g5 ? F5 FA5]; subst.
    inversion T' as [|? ? ? y5 vs5 E5 T5]; subst. cbn [nth] in *. inversion TR' as [|? ? T6 TR6]; subst.
    destruct (layer_total Fl p m g1 g5 y F5 Y) as (y6 & E6 & Y6). assert (y6 = y5) by congruence. subst y6.
    destruct (sweep Fl p n g5 g2 FA5 y5 Y6) as (vs7 & w7 & T7 & _ & _ & S7). assert (vs7 = vs5) by (eapply trace_det; eauto). subst vs7.
    destruct (S7 TR6 h hc Lh Lhc) as (ws7 & bs7 & h7 & hc7 & B7 & _ & _ & L7 & L8).
    cbn [combine bp] in B1. rewrite B7 in B1. cbn [obind] in B1. rewrite PR2 in B1. apply obind_inv in B1 as (r & E8 & B1).
    destruct r as [d|]; cbn [unwrap obind] in B1; [|discriminate]. destruct d as (((dw8 & db8) & h8) & hc8). injection B1 as <- <- <- <-. cbn [nth].
    exists g, g1, g5, h7, hc7, h8, hc8, h0, hc0. repeat (split; [assumption|]). exact E2.
  - destruct (IH TR' y vs' h hc ws1 bs1 h1 hc1 k l m Y T' Lh Lhc B1 K K2 PR PR2) as (a0 & a1 & a2 & b2 & bc2 & b1 & bc1 & b0 & bc0 & R1 & R2 & R3 & R4 & R5 & R6 & R7 & R8 & R9 & R10).
    assert (LV : length vs' = Datatypes.S (length n)) by exact (trace_length Fl p _ _ _ T').
    assert (KL : Datatypes.S k < length n) by (apply nth_error_Some; cbn [nth_error] in *; congruence).
    assert (V1 : nth k vs' y = nth k vs' x) by (apply nth_indep; lia).
    assert (V2 : nth (Datatypes.S k) vs' y = nth (Datatypes.S k) vs' x) by (apply nth_indep; lia).
    rewrite V1 in R3, R10. rewrite V2 in R4, R9.
    exists a0, a1, a2, b2, bc2, b1, bc1, b0, bc0. cbn [nth]. repeat (split; [assumption|]).
    destruct (layer_propagates Fl l0).
    + apply obind_inv in E as (r & E2 & E). destruct r as [d|]; cbn [unwrap obind] in E; [|discriminate].
      destruct d as (((dw1 & db1) & h3) & hc3). injection E as <- <- <- <-. cbn [nth]. auto.
    + injection E as <- <- <- <-. cbn [nth]. auto.
Qed.

(** ** Dense layers *)
(** A backward pass that returns has found every derivative. *)
Lemma derivs_exist : forall (l : dense Fl) v g gc r, dense_wf Fl l -> length v = inputs Fl l -> length g = units Fl l -> length gc = units Fl l ->
  dense_derivatives Fl p l (IOScalar v) g gc = Ret r ->
  exists d dc : nat -> C, forall i, i < units Fl l -> d_activate Fl p (d_func l) (pre Fl l v i) = Ret (d i) /\ d_conj_activate Fl p (d_func l) (pre Fl l v i) = Ret (dc i).
Proof.
  intros l v g gc r W X G GC E. unfold dense_derivatives in E. unfold units in G, GC.
  rewrite (proj2 (Nat.eqb_eq _ _) G), (proj2 (Nat.eqb_eq _ _) GC) in E. cbn [negb] in E. rewrite dense_q_ok in E by auto. cbn [obind] in E.
  apply obind_inv in E as (a & EA & E). apply obind_inv in E as (b & EB & _). unfold local_d in EA. unfold local_d_conj in EB.
  assert (N : forall h i, length h = sh0 (d_weights l) -> i < units Fl l ->
    nth_error (combine (map (pre Fl l v) (seq 0 (units Fl l))) h) i = Some (pre Fl l v i, nth i h z)).
  { intros h i Lh Hi. apply nth_error_combine; [|apply nth_error_nth'; unfold units in *; lia]. rewrite nth_error_map, nth_error_seq by auto. reflexivity. }
  exists (fun i => match d_activate Fl p (d_func l) (pre Fl l v i) with Ret c => c | Panic => z end),
         (fun i => match d_conj_activate Fl p (d_func l) (pre Fl l v i) with Ret c => c | Panic => z end).
  intros i Hi.
  destruct (mapM_nth_inv _ _ _ i _ EA (N g i G Hi)) as (a1 & _ & H1). destruct (mapM_nth_inv _ _ _ i _ EB (N gc i GC Hi)) as (b1 & _ & H2).
  cbn [fst snd] in H1, H2. apply obind_inv in H1 as (d1 & -> & _). apply obind_inv in H2 as (d2 & -> & _). auto.
Qed.

Lemma derivs_lengths : forall (l : dense Fl) x g gc r, dense_derivatives Fl p l x g gc = Ret (Ok r) -> length g = units Fl l /\ length gc = units Fl l.
Proof.
  intros l x g gc r D. destruct (Nat.eq_dec (length g) (units Fl l)) as [|NE]; [|rewrite C41_rejects in D by auto; discriminate].
  destruct (Nat.eq_dec (length gc) (units Fl l)) as [|NE]; [auto | rewrite C41_rejects in D by auto; discriminate].
Qed.

Lemma pre_same : forall (l : dense Fl) v i j, nth i (d_biases l) z = nth j (d_biases l) z -> (forall q, q < inputs Fl l -> weight Fl l i q = weight Fl l j q) ->
  pre Fl l v i = pre Fl l v j.
Proof.
  intros l v i j HB HW. unfold pre. rewrite HB. f_equal. unfold sum_from. apply fold_left_ext. intros s q Hq. apply in_seq in Hq. rewrite HW by lia. reflexivity.
Qed.

Lemma dense_pair : forall (l m : dense Fl) i j v y g2 gc2 dw2 db2 h hc dw db e ec,
  dense_wf Fl l -> dense_wf Fl m -> inputs Fl m = units Fl l -> i < units Fl l -> j < units Fl l ->
  nth i (d_biases l) z = nth j (d_biases l) z -> (forall q, q < inputs Fl l -> weight Fl l i q = weight Fl l j q) ->
  (forall o, o < units Fl m -> weight Fl m o i = weight Fl m o j) ->
  length v = inputs Fl l -> dense_forward Fl p l (IOScalar v) = Ret (Ok (IOScalar y)) ->
  dense_derivatives Fl p m (IOScalar y) g2 gc2 = Ret (Ok (dw2, db2, h, hc)) -> dense_derivatives Fl p l (IOScalar v) h hc = Ret (Ok (dw, db, e, ec)) ->
  tied Fl db i j /\ (forall q, q < inputs Fl l -> tied Fl dw (i * inputs Fl l + q) (j * inputs Fl l + q)) /\
  (forall o, o < units Fl m -> tied Fl dw2 (o * inputs Fl m + i) (o * inputs Fl m + j)).
Proof.
  intros l m i j v y g2 gc2 dw2 db2 h hc dw db e ec Wl Wm IM Hi Hj HB HW HM X FW D2 D1.
  destruct (proj1 (C40_forward Fl p l v Wl X y) FW) as (Ly & AY).
  assert (EY : nth i y z = nth j y z).
  { pose proof (AY i Hi) as A1. pose proof (AY j Hj) as A2. rewrite (pre_same l v i j HB HW) in A1. congruence. }
  destruct (derivs_lengths m _ _ _ _ D2) as (G2 & GC2). destruct (derivs_lengths l _ _ _ _ D1) as (G1 & GC1).
  destruct (derivs_exist m y g2 gc2 _ Wm ltac:(congruence) G2 GC2 D2) as (dm & dcm & DM).
  destruct (derivs_exist l v h hc _ Wl X G1 GC1 D1) as (dl & dcl & DL).
  destruct (C41_derivatives Fl p m y g2 gc2 dm dcm Wm ltac:(congruence) G2 GC2 DM) as (dw2' & db2' & dx2 & E2 & L21 & L22 & L23 & B2 & V2 & X2).
  rewrite E2 in D2. injection D2 as -> -> -> <-.
  destruct (C41_derivatives Fl p l v h (map (c_conj Fl) h) dl dcl Wl X G1 GC1 DL) as (dw1' & db1' & dx1 & E1 & L11 & L12 & L13 & B1 & V1 & _).
  rewrite E1 in D1. injection D1 as -> -> _ _. cbv zeta in B1, V1, V2, X2.
  assert (EH : nth i h z = nth j h z).
  { rewrite !X2 by lia. unfold sum_from. apply fold_left_ext. intros s o Ho. apply in_seq in Ho. rewrite HM by lia. reflexivity. }
  assert (EHC : nth i (map (c_conj Fl) h) z = nth j (map (c_conj Fl) h) z).
  { rewrite !(nth_indep (map (c_conj Fl) h) z (c_conj Fl z)) by (rewrite map_length; lia). rewrite !map_nth. now f_equal. }
  assert (ED : dl i = dl j /\ dcl i = dcl j).
  { destruct (DL i Hi) as (P1 & P2). destruct (DL j Hj) as (P3 & P4). rewrite (pre_same l v i j HB HW) in P1, P2. split; congruence. }
  destruct ED as (ED & EDC).
  split; [|split].
  - apply tied_nth; [lia | lia|]. rewrite !B1 by assumption. now rewrite ED, EDC, EH, EHC.
  - intros q Hq. apply tied_nth; [rewrite L11; nia | rewrite L11; nia|]. rewrite !V1 by assumption. now rewrite ED, EDC, EH, EHC.
  - intros o Ho. apply tied_nth; [rewrite L21; nia | rewrite L21; nia|]. rewrite !V2 by lia. now rewrite EY.
Qed.
End Pairs.

Section Steps.
Context (Fl : FloatOps) (p : prec).
Local Notation C := (cplx (F Fl)).
Local Notation z := (c_default Fl).

Lemma step_arch : forall n data f lr n' k l, net_gradient_opt Fl p n data f lr = Ret (n', Ok tt) -> nth_error n k = Some l ->
  exists l', nth_error n' k = Some l' /\ arch_of Fl l' = arch_of Fl l.
Proof.
  intros n data f lr n' k l E K. destruct (C52_history Fl p n n') as (A & _); [eapply trained_step; [apply trained_none | exact E]|].
  assert (N : nth_error (map (arch_of Fl) n') k = Some (arch_of Fl l)) by (rewrite A, nth_error_map, K; reflexivity).
  rewrite nth_error_map in N. destruct (nth_error n' k) as [l'|]; [|discriminate]. exists l'. split; [reflexivity|]. cbn in N. congruence.
Qed.

Lemma collect_of_pgrad : forall n f x t ws bs, pgrad Fl p n f (x, t) = Ret (ws, bs) ->
  exists vs g h hc, trace Fl p n x vs /\ d_loss Fl t (last vs x) f = Ok g /\ bp Fl p (combine vs n) g (map (c_conj Fl) g) = Ret (ws, bs, h, hc).
Proof.
  intros n f x t ws bs E. unfold pgrad in E. cbn [fst snd] in E. apply obind_inv in E as (r & E1 & E).
  destruct r as [acts|]; cbn [unwrap obind] in E; [|discriminate].
  apply obind_inv in E as (g & E2 & E). apply obind_inv in E as ((((ws' & bs') & h) & hc) & E3 & E). injection E as -> ->.
  assert (T : trace Fl p n x acts).
  { destruct n as [|l0 n]; [discriminate|]. unfold net_collect_acts in E1. destruct (trace_cases Fl p (l0 :: n) x) as [(vs & T)|T].
    - pose proof (collect_fold Fl p _ _ _ [] T) as CF. cbn [app] in CF. rewrite CF in E1. cbn [obind app] in E1. now assert (acts = vs) as -> by congruence.
    - pose proof (collect_fold_panic Fl p _ _ [] T) as CF. cbn [app] in CF. rewrite CF in E1. discriminate. }
  exists acts, g, h, hc. split; [exact T|]. split; [|exact E3]. destruct (d_loss _ _ _ _); cbn in E2; congruence.
Qed.

Theorem twins_step : forall n data f lr n' k i j, twins Fl n k i j -> net_gradient_opt Fl p n data f lr = Ret (n', Ok tt) -> twins Fl n' k i j.
Proof.
  intros n data f lr n' k i j (l & m & K & K2 & Wl & Wm & IM & Hi & Hj & HB & HW & HM) E.
  pose (Tw := fun k0 q q' => (k0 = k /\ exists s, s < inputs Fl l /\ q = i * inputs Fl l + s /\ q' = j * inputs Fl l + s) \/
                            (k0 = S k /\ exists o, o < units Fl m /\ q = o * inputs Fl m + i /\ q' = o * inputs Fl m + j)).
  pose (Tb := fun k0 q q' => k0 = k /\ q = i /\ q' = j).
  assert (RL : forall (l0 : dense Fl) o s, dense_wf Fl l0 -> o < units Fl l0 -> s < inputs Fl l0 -> o * inputs Fl l0 + s < length (body (d_weights l0))).
  { intros l0 o s (Q & _) Ho Hs. rewrite Q. unfold units, inputs in *. nia. }
  assert (LB : forall l0 : dense Fl, dense_wf Fl l0 -> length (d_biases l0) = units Fl l0) by (intros l0 (_ & Q & _); exact Q).
  assert (WE : forall (l0 : dense Fl) o s, weight Fl l0 o s = nth (o * inputs Fl l0 + s) (body (d_weights l0)) z) by reflexivity.
  assert (NT : net_ties Fl Tw Tb n').
  { apply (step_ties Fl p Tw Tb n data f lr n' tt); [| | |exact E].
    - intros k0 l0 K0 (q0 & q0' & T0).
      assert (KK : k0 = k /\ l0 = LDense l \/ k0 = S k /\ l0 = LDense m).
      { destruct T0 as [[(-> & _)|(-> & _)]|(-> & _)]; [left | right | left]; (split; [reflexivity | congruence]). }
      destruct KK as [(-> & ->)|(-> & ->)]; (split; [first [apply Wl | apply Wm]|]); cbn [layer_values fst snd]; split; intros q q' T.
      + destruct T as [(_ & s & Hs & -> & ->)|(EQ & _)]; [|lia]. split; [now apply RL|]. split; [now apply RL|]. apply tied_nth; [now apply RL | now apply RL|].
        rewrite <- !WE. auto.
      + destruct T as (_ & -> & ->). rewrite !LB by assumption. split; [assumption|]. split; [assumption|]. apply tied_nth; rewrite ?LB; auto.
      + destruct T as [(EQ & _)|(_ & o & Ho & -> & ->)]; [lia|]. split; [apply RL; auto; lia|]. split; [apply RL; auto; lia|].
        apply tied_nth; [apply RL; auto; lia | apply RL; auto; lia|]. rewrite <- !WE. auto.
      + destruct T as (EQ & _). lia.
    - intros k0 q q' T. assert (k < length n) by (apply nth_error_Some; congruence). assert (S k < length n) by (apply nth_error_Some; congruence).
      destruct T as [[(-> & _)|(-> & _)]|(-> & _)]; assumption.
    - intros x t ws bs _ P. destruct (collect_of_pgrad n f x t ws bs P) as (vs & g & h & hc & T & _ & B).
      pose proof (trace_length Fl p _ _ _ T) as LV. assert (KL : S k < length n) by (apply nth_error_Some; congruence).
      assert (V1 : nth_error vs k = Some (nth k vs x)) by (apply nth_error_nth'; lia). assert (V2 : nth_error vs (S k) = Some (nth (S k) vs x)) by (apply nth_error_nth'; lia).
      destruct (bp_pair Fl p _ _ _ _ _ _ _ k _ (LDense l) _ (LDense m) B (nth_error_combine _ _ _ _ _ V1 K) (nth_error_combine _ _ _ _ _ V2 K2) eq_refl eq_refl)
        as (g2 & gc2 & h2 & hc2 & h1 & hc1 & D2 & D1).
      pose proof (trace_nth Fl p _ _ _ _ _ x T K) as FW. cbn [layer_forward layer_derivatives] in FW, D1, D2.
      destruct (nth k vs x) as [v|ms]; [|cbn in FW; discriminate].
      assert (X : length v = inputs Fl l).
      { destruct (Nat.eq_dec (length v) (inputs Fl l)) as [|NE]; [assumption|]. rewrite (proj2 (C40_rejects Fl p l) v NE) in FW. discriminate. }
      destruct (nth (S k) vs x) as [y|ms]; [|unfold dense_derivatives in D2; destruct (negb _); [discriminate|]; destruct (negb _); discriminate].
      destruct (dense_pair Fl p l m i j v y g2 gc2 _ _ h2 hc2 _ _ h1 hc1 Wl Wm IM Hi Hj HB HW HM X FW D2 D1) as (R1 & R2 & R3).
      split; intros k0 q q' TT.
      + destruct TT as [(-> & s & Hs & -> & ->)|(-> & o & Ho & -> & ->)]; auto.
      + destruct TT as (-> & -> & ->). exact R1. }
  destruct (step_arch _ _ _ _ _ k _ E K) as (l1 & K1 & A1). destruct (step_arch _ _ _ _ _ (S k) _ E K2) as (m1 & K3 & A2).
  destruct l1 as [l'|l'|l'|l']; try discriminate. destruct m1 as [m'|m'|m'|m']; try discriminate.
  destruct (arch_dense Fl l' l A1 Wl) as (Wl' & U1 & I1 & _). destruct (arch_dense Fl m' m A2 Wm) as (Wm' & U2 & I2 & _).
  assert (T0 : Tb k i j) by (repeat split).
  destruct (NT k (LDense l') K1 (ex_intro _ i (ex_intro _ j (or_intror T0)))) as (_ & N1 & N2). cbn [layer_values fst snd] in N1, N2.
  exists l', m'. split; [exact K1|]. split; [exact K3|]. split; [exact Wl'|]. split; [exact Wm'|]. split; [congruence|]. split; [lia|]. split; [lia|]. split; [|split].
  - destruct (N2 i j T0) as (Q1 & Q2 & Q3). now apply tied_nth.
  - intros q Hq. rewrite I1 in Hq. assert (T : Tw k (i * inputs Fl l + q) (j * inputs Fl l + q)) by (left; eauto 6).
    destruct (N1 _ _ T) as (Q1 & Q2 & Q3). rewrite !WE, I1. now apply tied_nth.
  - intros o Ho. rewrite U2 in Ho. assert (T : Tw (S k) (o * inputs Fl m + i) (o * inputs Fl m + j)) by (right; eauto 6).
    destruct (NT (S k) (LDense m') K3 (ex_intro _ _ (ex_intro _ _ (or_introl T)))) as (_ & N3 & _).
    destruct (N3 _ _ T) as (Q1 & Q2 & Q3). cbn [layer_values fst] in Q1, Q2, Q3. rewrite !WE, I2. now apply tied_nth.
Qed.

Theorem twins_trained : forall n n' k i j, trained Fl p n n' -> twins Fl n k i j -> twins Fl n' k i j.
Proof. intros n n' k i j T. induction T as [n|n n' n'' data f lr T IH E]; intros H; [exact H|]. eapply twins_step; [apply IH, H | exact E]. Qed.
End Steps.

Section Filters.
Context (Fl : FloatOps) (p : prec).
Local Notation C := (cplx (F Fl)).
Local Notation z := (c_default Fl).
Local Notation CO := (cops Fl).

Lemma corr_same : forall a b (f f' k k' : nat -> nat -> C) i j,
  (forall u v, u < a -> v < b -> f (i + u) (j + v) = f' (i + u) (j + v) /\ k u v = k' u v) -> corr CO a b f k i j = corr CO a b f' k' i j.
Proof.
  intros a b f f' k k' i j H. unfold corr, sum_from. apply fold_left_ext. intros s u Hu. apply in_seq in Hu. f_equal.
  apply fold_left_ext. intros t v Hv. apply in_seq in Hv. destruct (H u v) as (-> & ->); [lia | lia | reflexivity].
Qed.

Lemma cube_nth : forall F n a b (f : nat -> nat -> nat -> nat -> C) o ch u v, o < F -> ch < n -> u < a -> v < b ->
  (o * n + ch) * (a * b) + (u * b + v) < length (concat (map (fun o => tab3 n a b (f o)) (seq 0 F))) /\
  nth ((o * n + ch) * (a * b) + (u * b + v)) (concat (map (fun o => tab3 n a b (f o)) (seq 0 F))) z = f o ch u v.
Proof.
  intros F n a b f o ch u v Ho Hc Hu Hv.
  assert (FA : Forall (fun q : list C => length q = n * (a * b)) (map (fun o => tab3 n a b (f o)) (seq 0 F))).
  { apply Forall_forall. intros q Hq. apply in_map_iff in Hq as (o' & <- & _). apply tab3_length. }
  replace ((o * n + ch) * (a * b) + (u * b + v)) with (o * (n * (a * b)) + ((ch * a + u) * b + v)) by nia.
  assert (I0 : ch * a + u < n * a) by nia.
  assert (IN : (ch * a + u) * b + v < n * (a * b)) by (rewrite Nat.mul_assoc; revert I0; generalize (ch * a + u) (n * a); intros; nia). split.
  - rewrite (concat_length_const (n * (a * b))) by exact FA. rewrite map_length, seq_length. revert IN. generalize ((ch * a + u) * b + v) (n * (a * b)). intros; nia.
  - rewrite nth_concat_const by auto. rewrite nth_map_seq by exact Ho.
    change (at3 z a b (tab3 n a b (f o)) ch u v = f o ch u v). now apply at3_tab3.
Qed.

Lemma tied_cube : forall F n a b (f : nat -> nat -> nat -> nat -> C) o ch o' ch' u v, o < F -> ch < n -> o' < F -> ch' < n -> u < a -> v < b -> f o ch u v = f o' ch' u v ->
  tied Fl (concat (map (fun o => tab3 n a b (f o)) (seq 0 F))) ((o * n + ch) * (a * b) + (u * b + v)) ((o' * n + ch') * (a * b) + (u * b + v)).
Proof.
  intros F n a b f o ch o' ch' u v H1 H2 H3 H4 H5 H6 E. destruct (cube_nth F n a b f o ch u v H1 H2 H5 H6) as (R1 & V1).
  destruct (cube_nth F n a b f o' ch' u v H3 H4 H5 H6) as (R2 & V2). apply tied_nth; [exact R1 | exact R2|]. now rewrite V1, V2.
Qed.

Lemma cpre_same : forall a b (l : conv Fl) ms i j s t, conv_wf Fl a b l ->
  nth i (k_biases l) z = nth j (k_biases l) z -> (forall ch u v, ch < channels Fl l -> u < a -> v < b -> kval Fl l i ch u v = kval Fl l j ch u v) ->
  cpre Fl a b l ms i s t = cpre Fl a b l ms j s t.
Proof.
  intros a b l ms i j s t W HB HK. unfold cpre. rewrite HB. f_equal. unfold sum_from. apply fold_left_ext. intros acc ch Hc. apply in_seq in Hc. f_equal.
  apply corr_same. intros u v Hu Hv. split; [reflexivity | apply HK; lia].
Qed.

Lemma conv_pair : forall a b a' b' r c (l m : conv Fl) i j ms ys g2 gc2 dw2 db2 h hc dw db e ec,
  geom Fl a b r c l ms -> geom Fl a' b' (r - a + 1) (c - b + 1) m ys -> channels Fl m = filters Fl l -> i < filters Fl l -> j < filters Fl l -> k_func l <> ModZ -> k_func m <> ModZ ->
  nth i (k_biases l) z = nth j (k_biases l) z -> (forall ch u v, ch < channels Fl l -> u < a -> v < b -> kval Fl l i ch u v = kval Fl l j ch u v) ->
  (forall o u v, o < filters Fl m -> u < a' -> v < b' -> kval Fl m o i u v = kval Fl m o j u v) ->
  conv_forward Fl p l (IOMatrix ms) = Ret (Ok (IOMatrix ys)) ->
  length g2 = filters Fl m * ((r - a + 1 - a' + 1) * (c - b + 1 - b' + 1)) -> length gc2 = filters Fl m * ((r - a + 1 - a' + 1) * (c - b + 1 - b' + 1)) ->
  conv_derivatives Fl p m (IOMatrix ys) g2 gc2 = Ret (Ok (dw2, db2, h, hc)) -> conv_derivatives Fl p l (IOMatrix ms) h hc = Ret (Ok (dw, db, e, ec)) ->
  tied Fl db i j /\
  (forall ch u v, ch < channels Fl l -> u < a -> v < b -> tied Fl dw ((i * channels Fl l + ch) * (a * b) + (u * b + v)) ((j * channels Fl l + ch) * (a * b) + (u * b + v))) /\
  (forall o u v, o < filters Fl m -> u < a' -> v < b' -> tied Fl dw2 ((o * channels Fl m + i) * (a' * b') + (u * b' + v)) ((o * channels Fl m + j) * (a' * b') + (u * b' + v))).
Proof.
  intros a b a' b' r c l m i j ms ys g2 gc2 dw2 db2 h hc dw db e ec Gl Gm CM Hi Hj NL NM HB HK HM FW L2 LC2 D2 D1.
  pose proof Gl as (Wl & Ml & Al & Bl). pose proof Gm as (Wm & Mm & Am & Bm).
  assert (PS : forall s t, cpre Fl a b l ms i s t = cpre Fl a b l ms j s t) by (intros; now apply cpre_same).
  (* the two output maps *)
  assert (EY : forall s t, s < r - a + 1 -> t < c - b + 1 -> px z ys i s t = px z ys j s t).
  { pose (y := fun o s t => match activate Fl p (k_func l) (cpre Fl a b l ms o s t) with Ret w => w | Panic => z end).
    rewrite (conv_forward_ok Fl p a b r c l ms y Gl) in FW.
    2: { intros o s t _ _ _. unfold y. destruct (no_modz Fl p (k_func l) (cpre Fl a b l ms o s t) NL) as (w & ->). reflexivity. }
    injection FW as <-. intros s t Hs Ht. unfold px. rewrite !nth_map_seq by assumption. rewrite !entry_mat by assumption. unfold y. now rewrite PS. }
  pose (dm := fun o s t => match d_activate Fl p (k_func m) (cpre Fl a' b' m ys o s t) with Ret w => w | Panic => z end).
  pose (dcm := fun o s t => match d_conj_activate Fl p (k_func m) (cpre Fl a' b' m ys o s t) with Ret w => w | Panic => z end).
  pose (dl := fun o s t => match d_activate Fl p (k_func l) (cpre Fl a b l ms o s t) with Ret w => w | Panic => z end).
  pose (dcl := fun o s t => match d_conj_activate Fl p (k_func l) (cpre Fl a b l ms o s t) with Ret w => w | Panic => z end).
  rewrite (conv_derivatives_ok Fl p a' b' (r - a + 1) (c - b + 1) m ys g2 gc2 dm dcm Gm L2 LC2) in D2.
  2: { intros o s t _ _ _. destruct (no_modz_derivs Fl p (k_func m) (cpre Fl a' b' m ys o s t) NM) as ((w1 & E1) & (w2 & E2)). unfold dm, dcm. rewrite E1, E2. auto. }
  injection D2 as <- _ <- <-.
  rewrite CM in D1.
  match type of D1 with conv_derivatives _ _ _ _ ?h0 ?hc0 = _ => set (H := h0) in *; set (HC := hc0) in * end.
  rewrite (conv_derivatives_ok Fl p a b r c l ms H HC dl dcl Gl) in D1; [|unfold H; apply tab3_length | unfold HC; apply tab3_length|].
  2: { intros o s t _ _ _. destruct (no_modz_derivs Fl p (k_func l) (cpre Fl a b l ms o s t) NL) as ((w1 & E1) & (w2 & E2)). unfold dl, dcl. rewrite E1, E2. auto. }
  injection D1 as <- <- _ _.
  assert (EH : forall s t, s < r - a + 1 -> t < c - b + 1 -> at3 z (r - a + 1) (c - b + 1) H i s t = at3 z (r - a + 1) (c - b + 1) H j s t /\
                                                          at3 z (r - a + 1) (c - b + 1) HC i s t = at3 z (r - a + 1) (c - b + 1) HC j s t).
  { pose proof Wm as (_ & _ & _ & A1 & B1 & _).
    intros s t Hs Ht. unfold H, HC. rewrite !at3_tab3 by assumption.
    split; unfold sum_from; apply fold_left_ext; intros acc o Ho; apply in_seq in Ho; f_equal; apply corr_same; intros u v Hu Hv;
      (split; [reflexivity | unfold flipk; apply HM; lia]). }
  assert (EA : forall s t, s < r - a + 1 -> t < c - b + 1 ->
     c_mul Fl (dl i s t) (at3 z (r - a + 1) (c - b + 1) H i s t) = c_mul Fl (dl j s t) (at3 z (r - a + 1) (c - b + 1) H j s t) /\
     c_mul Fl (c_conj Fl (dcl i s t)) (at3 z (r - a + 1) (c - b + 1) HC i s t) = c_mul Fl (c_conj Fl (dcl j s t)) (at3 z (r - a + 1) (c - b + 1) HC j s t)).
  { intros s t Hs Ht. destruct (EH s t Hs Ht) as (-> & ->). unfold dl, dcl. rewrite PS. auto. }
  split; [|split].
  - apply tied_nth; rewrite ?map_length, ?seq_length; auto. rewrite !nth_map_seq by assumption.
    assert (NQ : forall q, q < (r - a + 1) * (c - b + 1) -> q / (c - b + 1) < r - a + 1 /\ q mod (c - b + 1) < c - b + 1).
    { intros q Hq. split; [apply Nat.div_lt_upper_bound; lia | apply Nat.mod_upper_bound; lia]. }
    assert (EQ : forall q, q < (r - a + 1) * (c - b + 1) ->
       c_add Fl (c_mul Fl (dl i (q / (c - b + 1)) (q mod (c - b + 1))) (at3 z (r - a + 1) (c - b + 1) H i (q / (c - b + 1)) (q mod (c - b + 1))))
                (c_mul Fl (c_conj Fl (dcl i (q / (c - b + 1)) (q mod (c - b + 1)))) (at3 z (r - a + 1) (c - b + 1) HC i (q / (c - b + 1)) (q mod (c - b + 1)))) =
       c_add Fl (c_mul Fl (dl j (q / (c - b + 1)) (q mod (c - b + 1))) (at3 z (r - a + 1) (c - b + 1) H j (q / (c - b + 1)) (q mod (c - b + 1))))
                (c_mul Fl (c_conj Fl (dcl j (q / (c - b + 1)) (q mod (c - b + 1)))) (at3 z (r - a + 1) (c - b + 1) HC j (q / (c - b + 1)) (q mod (c - b + 1))))).
    { intros q Hq. destruct (NQ q Hq) as (N1 & N2). destruct (EA _ _ N1 N2) as (-> & ->). reflexivity. }
    unfold sum_all. rewrite (EQ 0) by nia. unfold sum_from. apply fold_left_ext. intros acc q Hq. apply in_seq in Hq. f_equal. apply EQ. nia.
  - intros ch u v Hc Hu Hv. apply tied_cube; auto. f_equal; apply corr_same; intros s t Hs Ht; (split; [reflexivity | now apply EA]).
  - intros o u v Ho Hu Hv. rewrite <- CM in Hi, Hj. apply tied_cube; auto. f_equal; apply corr_same; intros s t Hs Ht; (split; [apply EY; lia | reflexivity]).
Qed.

Theorem twin_filters_step : forall n g g' data f lr n' k a b a' b' i j, fit_all Fl n g g' -> Forall (trainable Fl) n -> batch_for Fl g g' data ->
  twin_filters Fl n k a b a' b' i j -> net_gradient_opt Fl p n data f lr = Ret (n', Ok tt) -> twin_filters Fl n' k a b a' b' i j.
Proof.
  intros n g g' data f lr n' k a b a' b' i j FA TR BF (l & m & K & K2 & Wl & Wm & CM & Hi & Hj & HB & HK & HM) E.
  pose (Tw := fun k0 q q' =>
     (k0 = k /\ exists ch u v, ch < channels Fl l /\ u < a /\ v < b /\ q = (i * channels Fl l + ch) * (a * b) + (u * b + v) /\ q' = (j * channels Fl l + ch) * (a * b) + (u * b + v)) \/
     (k0 = S k /\ exists o u v, o < filters Fl m /\ u < a' /\ v < b' /\ q = (o * channels Fl m + i) * (a' * b') + (u * b' + v) /\ q' = (o * channels Fl m + j) * (a' * b') + (u * b' + v))).
  pose (Tb := fun k0 q q' => k0 = k /\ q = i /\ q' = j).
  assert (FU : forall a b (l0 : conv Fl), conv_wf Fl a b l0 -> layer_full Fl (LConv l0)).
  { intros a0 b0 l0 (_ & _ & _ & _ & _ & _ & _ & H). apply Forall_forall. intros q Hq. apply H, Hq. }
  assert (LB : forall a b (l0 : conv Fl), conv_wf Fl a b l0 -> length (k_biases l0) = filters Fl l0) by (intros ? ? l0 (_ & _ & _ & _ & _ & Q & _); exact Q).
  assert (NT : net_ties Fl Tw Tb n').
  { apply (step_ties Fl p Tw Tb n data f lr n' tt); [| | |exact E].
    - intros k0 l0 K0 (q0 & q0' & T0).
      assert (KK : k0 = k /\ l0 = LConv l \/ k0 = S k /\ l0 = LConv m).
      { destruct T0 as [[(-> & _)|(-> & _)]|(-> & _)]; [left | right | left]; (split; [reflexivity | congruence]). }
      destruct KK as [(-> & ->)|(-> & ->)]; (split; [eapply FU; eassumption|]); cbn [layer_values fst snd]; split; intros q q' T.
      + destruct T as [(_ & ch & u & v & Hc & Hu & Hv & -> & ->)|(EQ & _)]; [|lia].
        destruct (kval_values Fl a b l i ch u v Wl Hi Hc Hu Hv) as (R1 & V1). destruct (kval_values Fl a b l j ch u v Wl Hj Hc Hu Hv) as (R2 & V2).
        split; [exact R1|]. split; [exact R2|]. apply tied_nth; [exact R1 | exact R2|]. rewrite V1, V2. auto.
      + destruct T as (_ & -> & ->). rewrite !(LB a b) by assumption. split; [assumption|]. split; [assumption|]. apply tied_nth; rewrite ?(LB a b l Wl); auto.
      + destruct T as [(EQ & _)|(_ & o & u & v & Ho & Hu & Hv & -> & ->)]; [lia|].
        destruct (kval_values Fl a' b' m o i u v Wm Ho ltac:(lia) Hu Hv) as (R1 & V1). destruct (kval_values Fl a' b' m o j u v Wm Ho ltac:(lia) Hu Hv) as (R2 & V2).
        split; [exact R1|]. split; [exact R2|]. apply tied_nth; [exact R1 | exact R2|]. rewrite V1, V2. auto.
      + destruct T as (EQ & _). lia.
    - intros k0 q q' T. assert (k < length n) by (apply nth_error_Some; congruence). assert (S k < length n) by (apply nth_error_Some; congruence).
      destruct T as [[(-> & _)|(-> & _)]|(-> & _)]; assumption.
    - intros x t ws bs HI P. destruct BF as (_ & BI & BT).
      assert (HX : In x (ds_inputs data)) by (eapply in_combine_l; exact HI). assert (HT : In t (ds_target data)) by (eapply in_combine_r; exact HI).
      destruct (collect_of_pgrad Fl p n f x t ws bs P) as (vs & gr & h & hc & T & DL & B).
      destruct (sweep Fl p n g g' FA x (BI x HX)) as (vs' & y & TC & LS & Y & _). assert (vs' = vs) by (eapply trace_det; eauto). subst vs'.
      rewrite LS in DL. destruct (d_loss_geom Fl f g' t y Y (BT t HT)) as (gr' & EG & LG). assert (gr' = gr) by congruence. subst gr'.
      destruct (bp_geom_pair Fl p n g g' FA TR x vs gr (map (c_conj Fl) gr) ws bs h hc k (LConv l) (LConv m) (BI x HX) T LG ltac:(rewrite map_length; exact LG) B K K2 eq_refl eq_refl)
        as (g0 & g1 & g2 & h2 & hc2 & h1 & hc1 & h0 & hc0 & F1 & F2 & V1 & V2 & L1 & L2 & L3 & L4 & D2 & D1).
      inversion F1 as [|? a1 b1 r c W1 N1 R1 R2| |]; subst. inversion F2 as [|? a2 b2 r2 c2 W2 N2 R3 R4 Q1 Q2| |]; subst.
      assert (AB : a1 = a /\ b1 = b).
      { destruct (kernel_nth Fl a b l 0 0 Wl) as (_ & S0 & S1); [apply Wl .. |]. destruct (kernel_nth Fl a1 b1 l 0 0 W1) as (_ & S2 & S3); [apply Wl .. |]. split; congruence. }
      assert (AB' : a2 = a' /\ b2 = b').
      { destruct (kernel_nth Fl a' b' m 0 0 Wm) as (_ & S0 & S1); [apply Wm .. |]. destruct (kernel_nth Fl a2 b2 m 0 0 W2) as (_ & S2 & S3); [apply Wm .. |]. split; congruence. }
      destruct AB as (-> & ->). destruct AB' as (-> & ->).
      pose proof (trace_nth Fl p _ _ _ _ _ x T K) as FW. cbn [layer_forward layer_derivatives] in FW, D1, D2.
      destruct (nth k vs x) as [v|ms]; [contradiction|]. destruct (nth (S k) vs x) as [v|ys]; [contradiction|]. cbn [has_geom gsize] in V1, V2, L1, L2, L3, L4.
      assert (GM : geom Fl a' b' (r - a + 1) (c - b + 1) m ys) by (split; [exact Wm|]; split; [rewrite CM; exact V2|]; auto).
      destruct (conv_pair a b a' b' r c l m i j ms ys h2 hc2 _ _ h1 hc1 _ _ h0 hc0 (Logic.conj Wl (Logic.conj V1 (Logic.conj R1 R2))) GM CM Hi Hj N1 N2 HB HK HM FW L1 L2 D2 D1) as (X1 & X2 & X3).
      split; intros k0 q q' TT.
      + destruct TT as [(-> & ch & u & v & Hc & Hu & Hv & -> & ->)|(-> & o & u & v & Ho & Hu & Hv & -> & ->)]; auto.
      + destruct TT as (-> & -> & ->). exact X1. }
  destruct (step_arch Fl p _ _ _ _ _ k _ E K) as (l1 & K1 & A1). destruct (step_arch Fl p _ _ _ _ _ (S k) _ E K2) as (m1 & K3 & A2).
  destruct l1 as [l'|l'|l'|l']; try discriminate. destruct m1 as [m'|m'|m'|m']; try discriminate.
  destruct (arch_conv Fl a b l' l A1 Wl) as (Wl' & U1 & I1 & _). destruct (arch_conv Fl a' b' m' m A2 Wm) as (Wm' & U2 & I2 & _).
  assert (T0 : Tb k i j) by (repeat split).
  destruct (NT k (LConv l') K1 (ex_intro _ i (ex_intro _ j (or_intror T0)))) as (_ & N1 & N2). cbn [layer_values fst snd] in N1, N2.
  exists l', m'. split; [exact K1|]. split; [exact K3|]. split; [exact Wl'|]. split; [exact Wm'|]. split; [congruence|]. split; [lia|]. split; [lia|]. split; [|split].
  - destruct (N2 i j T0) as (Q1 & Q2 & Q3). now apply tied_nth.
  - intros ch u v Hc Hu Hv. rewrite I1 in Hc.
    assert (T : Tw k ((i * channels Fl l + ch) * (a * b) + (u * b + v)) ((j * channels Fl l + ch) * (a * b) + (u * b + v))) by (left; split; [reflexivity | exists ch, u, v; auto]).
    destruct (N1 _ _ T) as (Q1 & Q2 & Q3). destruct (kval_values Fl a b l' i ch u v Wl' ltac:(lia) ltac:(lia) Hu Hv) as (_ & <-).
    destruct (kval_values Fl a b l' j ch u v Wl' ltac:(lia) ltac:(lia) Hu Hv) as (_ & <-). rewrite I1. now apply tied_nth.
  - intros o u v Ho Hu Hv. rewrite U2 in Ho.
    assert (T : Tw (S k) ((o * channels Fl m + i) * (a' * b') + (u * b' + v)) ((o * channels Fl m + j) * (a' * b') + (u * b' + v))) by (right; split; [reflexivity | exists o, u, v; auto]).
    destruct (NT (S k) (LConv m') K3 (ex_intro _ _ (ex_intro _ _ (or_introl T)))) as (_ & N3 & _).
    destruct (N3 _ _ T) as (Q1 & Q2 & Q3). cbn [layer_values fst] in Q1, Q2, Q3.
    destruct (kval_values Fl a' b' m' o i u v Wm' ltac:(lia) ltac:(lia) Hu Hv) as (_ & <-).
    destruct (kval_values Fl a' b' m' o j u v Wm' ltac:(lia) ltac:(lia) Hu Hv) as (_ & <-). rewrite I2. now apply tied_nth.
Qed.

Theorem twin_filters_steps : forall steps n g g' n' k a b a' b' i j, fit_all Fl n g g' -> Forall (trainable Fl) n ->
  (forall d f lr, In (d, f, lr) steps -> batch_for Fl g g' d) ->
  twin_filters Fl n k a b a' b' i j -> train_steps Fl p n steps = Ret n' -> twin_filters Fl n' k a b a' b' i j.
Proof.
  induction steps as [|[[d f] lr] steps IH]; intros n g g' n' k a b a' b' i j FA TR BF H E; cbn [train_steps] in E; [injection E as <-; exact H|].
  apply obind_inv in E as ((n1 & r) & E1 & E). cbn [fst snd] in E. destruct r as [[]|]; [|discriminate].
  destruct (C52_history Fl p n n1) as (A & _); [eapply trained_step; [apply trained_none | exact E1]|].
  apply (IH n1 g g' n'); [eapply fit_all_arch; eauto | eapply trainable_all_arch; eauto | intros; eapply BF; right; eauto | | exact E].
  eapply twin_filters_step; [exact FA | exact TR | eapply BF; left; reflexivity | exact H | exact E1].
Qed.
End Filters.
