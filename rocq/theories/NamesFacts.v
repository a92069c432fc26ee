(** * Facts about the numbering of features, units and classes *)
From Coq Require Import Permutation Reals.
From Verif Require Import Base BaseFacts Float Matrix Cplx Random Act Input Loss Dense Conv Layer Dataset Network SpecMatrix MatrixFacts
  SpecLayer SpecConv SpecNet SpecEval DenseFacts ConvFacts LayerFacts NetFacts TrainFacts TrainDense TrainLaws PropDense GradFacts GradFacts2 NanFacts
  SpecDead DeadFacts PropTrain TwinFacts SpecPerm PermFacts SpecNames RFloat CFacts.
Local Open Scope nat_scope.

Lemma numbers_reorders : forall r N, numbers r N -> reorders (place r) N.
Proof. intros [[M s]|] N H; cbn in H; [apply H | split; cbn; auto]. Qed.

Section Generic.
Context (Fl : FloatOps) (p : prec).
Local Notation C := (cplx (F Fl)).
Local Notation z := (c_default Fl).

(** Lists in a new numbering. *)
Definition gr (r : numbering) (a a' : list C) : Prop := match r with None => a' = a | Some (N, s) => rx Fl N s a a' end.

Lemma gr_rx : forall r N a a', numbers r N -> length a = N -> gr r a a' -> rx Fl N (place r) a a'.
Proof. intros [[M s]|] N a a' H L G; cbn in *; [destruct H as (-> & _); exact G | subst; apply rx_id]. Qed.
Lemma rx_gr : forall r N a a', numbers r N -> rx Fl N (place r) a a' -> gr r a a'.
Proof. intros [[M s]|] N a a' H R; cbn in *; [destruct H as (-> & _); exact R | exact (rx_same Fl _ _ _ R)]. Qed.

Lemma gr_io : forall r v x', renamed Fl r (IOScalar v) x' -> exists v', x' = IOScalar v' /\ gr r v v' /\ length v' = length v.
Proof.
  intros [[N s]|] v x' H; cbn in H; [|exists v; subst; cbn; auto].
  destruct H as (w & w' & E & -> & (NN & RE) & L & V). injection E as <-. exists w'. split; [reflexivity|]. split; [|exact L]. cbn. subst N.
  split; [reflexivity|]. split; [exact L|]. intros q Hq. split; [apply RE, Hq | apply V, Hq].
Qed.
Lemma io_gr : forall r v v', numbers r (length v) -> gr r v v' -> renamed Fl r (IOScalar v) (IOScalar v').
Proof.
  intros [[N s]|] v v' NR G; cbn in *; [|congruence]. destruct NR as (NN & RE). exists v, v'. subst N. destruct G as (G1 & G2 & G3). repeat split; auto; try apply RE. intros i Hi. apply G3, Hi.
Qed.

Lemma gr_zip : forall (f : C -> C -> C) r a a' b b', gr r a a' -> gr r b b' -> gr r (zip_assign f a b) (zip_assign f a' b').
Proof. intros f [[N s]|] a a' b b' H1 H2; cbn in *; [now apply rx_zip | congruence]. Qed.
Lemma gr_map : forall (f : C -> C) r a a', gr r a a' -> gr r (map f a) (map f a').
Proof. intros f [[N s]|] a a' H; cbn in *; [now apply rx_map | congruence]. Qed.
Lemma add_gr : forall r (a a' b b' c : list C), gr r a a' -> gr r b b' -> unwrap (add_slice_mut (cops Fl) a b) = Ret c ->
  exists c', unwrap (add_slice_mut (cops Fl) a' b') = Ret c' /\ gr r c c'.
Proof. intros [[N s]|] a a' b b' c H1 H2 E; cbn in *; [eapply add_rx; eauto | subst; eauto]. Qed.

Inductive grs : list numbering -> list (list C) -> list (list C) -> Prop :=
| grs_nil : grs [] [] []
| grs_cons : forall r a a' P A A', gr r a a' -> grs P A A' -> grs (r :: P) (a :: A) (a' :: A').

Lemma addv_grs : forall P W W' ws ws' V, grs P W W' -> grs P ws ws' -> addv Fl W ws = Ret V -> exists V', addv Fl W' ws' = Ret V' /\ grs P V V'.
Proof.
  intros P W W' ws ws' V H. revert ws ws' V. induction H as [|r a a' P A A' G H IH]; intros ws ws' V Hw E; inversion Hw as [|? b b' ? Bs Bs' GB HB]; subst; cbn [addv] in *.
  - injection E as <-. exists []. split; constructor.
  - apply obind_inv in E as (y & E1 & E). apply obind_inv in E as (q & E2 & E). injection E as <-.
    destruct (add_gr _ _ _ _ _ _ G GB E1) as (y' & -> & G'). destruct (IH _ _ _ HB E2) as (q' & EQ & GQ). cbn [obind]. rewrite EQ. cbn [obind]. eexists. split; [reflexivity|]. constructor; auto.
Qed.

Lemma batch_grs : forall n n' f PW PB r r', (forall x t x' t' ws bs, renamed Fl r x x' -> renamed Fl r' t t' -> pgrad Fl p n f (x, t) = Ret (ws, bs) ->
    exists ws' bs', pgrad Fl p n' f (x', t') = Ret (ws', bs') /\ grs PW ws ws' /\ grs PB bs bs') ->
  forall xs xs' ts ts' W B W' B' V U, Forall2 (renamed Fl r) xs xs' -> Forall2 (renamed Fl r') ts ts' ->
  slots Fl n W -> slots Fl n B -> slots Fl n' W' -> slots Fl n' B' -> grs PW W W' -> grs PB B B' ->
  foldM (point_step Fl p n f) (combine xs ts) (W, B) = Ret (V, U) ->
  exists V' U', foldM (point_step Fl p n' f) (combine xs' ts') (W', B') = Ret (V', U') /\ grs PW V V' /\ grs PB U U'.
Proof.
  intros n n' f PW PB r r' Q xs xs' ts ts' W B W' B' V U HX. revert ts ts' W B W' B' V U.
  induction HX as [|x x' xs xs' RX HX IH]; intros ts ts' W B W' B' V U HT SW SB SW' SB' TW TB E.
  - cbn [combine foldM] in *. injection E as <- <-. eauto.
  - destruct HT as [|t t' ts ts' RT HT]; [cbn [combine foldM] in *; injection E as <- <-; eauto|]. cbn [combine foldM] in *.
    apply obind_inv in E as ((W2 & B2) & E1 & E). destruct (point_step_lengths Fl p _ _ _ _ _ _ _ SW SB E1) as (Z1 & Z2).
    rewrite point_step_eq in E1 by auto. apply obind_inv in E1 as ((ws & bs) & P & E1).
    apply obind_inv in E1 as (W3 & A1 & E1). apply obind_inv in E1 as (B3 & A2 & E1). injection E1 as -> ->.
    destruct (Q x t x' t' ws bs RX RT P) as (ws' & bs' & P' & Tw & Tb). destruct (addv_grs _ _ _ _ _ _ TW Tw A1) as (W2' & A1' & TW2).
    destruct (addv_grs _ _ _ _ _ _ TB Tb A2) as (B2' & A2' & TB2).
    assert (E1 : point_step Fl p n' f (W', B') (x', t') = Ret (W2', B2')).
    { rewrite point_step_eq by auto. rewrite P'. cbn [obind]. rewrite A1'. cbn [obind]. rewrite A2'. reflexivity. }
    rewrite E1. cbn [obind]. destruct (point_step_lengths Fl p _ _ _ _ _ _ _ SW' SB' E1) as (Z3 & Z4).
    apply (IH ts ts' W2 B2 W2' B2' V U); auto; eapply slots_lengths; eauto.
Qed.

(** The derivative of the loss, entry by entry. *)
Lemma d_loss_gr : forall r t t' y y' f g, renamed Fl r t t' -> renamed Fl r y y' -> d_loss Fl t y f = Ok g ->
  exists g', d_loss Fl t' y' f = Ok g' /\ gr r g g'.
Proof.
  intros [[N s]|] t t' y y' f g HT HY E; cbn in HT, HY; [|subst; cbn; eauto].
  destruct HT as (v & v' & -> & -> & (N1 & RE) & L1 & V1). destruct HY as (w & w' & -> & -> & (N2 & _) & L2 & V2).
  cbn [d_loss] in *. eexists. split; [reflexivity|]. assert (EG : d_mean_sq_loss Fl v w = g) by (injection E as <-; destruct f; reflexivity). subst g.
  replace (release_dloss Fl f v' w') with (d_mean_sq_loss Fl v' w') by (destruct f; reflexivity). unfold d_mean_sq_loss. cbn.
  assert (LV : forall a b : list C, length a = N -> length b = N -> length (map (fun tp => d_sq_error Fl (fst tp) (snd tp)) (combine a b)) = N) by (intros a b H1 H2; rewrite map_length, combine_length, H1, H2; apply Nat.min_id).
  assert (NT : forall (a b : list C) i, length a = N -> length b = N -> i < N -> nth i (map (fun tp => d_sq_error Fl (fst tp) (snd tp)) (combine a b)) z = d_sq_error Fl (nth i a z) (nth i b z)).
  { intros a b i H1 H2 Hi. rewrite (nth_indep _ z (d_sq_error Fl z z)) by (rewrite LV; auto). rewrite (map_nth (fun tp => d_sq_error Fl (fst tp) (snd tp)) (combine a b) (z, z)), combine_nth by congruence. reflexivity. }
  split; [apply LV; congruence|]. split; [apply LV; congruence|]. intros q Hq. assert (SQ : s q < N) by (rewrite N1; apply RE; congruence). split; [exact SQ|].
  rewrite !NT by congruence. rewrite V1, V2 by congruence. reflexivity.
Qed.
End Generic.

Section Dense.
Context (p : prec).
Local Notation z := (c_default ROps).

Section Layer.
Context (r r' : numbering) (d d' : dense ROps).
Context (W1 : dense_wf ROps d) (W2 : dense_wf ROps d') (U : units ROps d' = units ROps d) (I : inputs ROps d' = inputs ROps d) (FN : d_func d' = d_func d).
Context (N1 : numbers r (inputs ROps d)) (N2 : numbers r' (units ROps d)).
Context (HB : forall i, i < units ROps d -> nth i (d_biases d') z = nth (place r' i) (d_biases d) z).
Context (HW : forall i j, i < units ROps d -> j < inputs ROps d -> weight ROps d' i j = weight ROps d (place r' i) (place r j)).
Local Notation R1 := (numbers_reorders r _ N1).
Local Notation R2 := (numbers_reorders r' _ N2).

Lemma pre_renamed : forall v v' i, rx ROps (inputs ROps d) (place r) v v' -> i < units ROps d -> pre ROps d' v' i = pre ROps d v (place r' i).
Proof.
  intros v v' i (V1 & V2 & V3) Hi. unfold pre. rewrite HB, I by exact Hi. f_equal.
  transitivity (csum (fun j => (weight ROps d (place r' i) (place r j) * nth (place r j) v z)%RC) (inputs ROps d)).
  - apply csum_ext. intros j Hj. rewrite HW by lia. now rewrite (proj2 (V3 j Hj)).
  - exact (csum_perm (fun j => (weight ROps d (place r' i) j * nth j v z)%RC) (place r) _ R1).
Qed.

Lemma forward_renamed_layer : forall x x' w, renamed ROps r x x' -> dense_forward ROps p d x = Ret (Ok w) ->
  exists v v' y y', x = IOScalar v /\ x' = IOScalar v' /\ w = IOScalar y /\ dense_forward ROps p d' x' = Ret (Ok (IOScalar y')) /\
    rx ROps (inputs ROps d) (place r) v v' /\ renamed ROps r' w (IOScalar y').
Proof.
  intros x x' w RX E. destruct x as [v|ms]; [|cbn in E; discriminate].
  assert (X : length v = inputs ROps d).
  { destruct (Nat.eq_dec (length v) (inputs ROps d)) as [|NE]; [assumption|]. rewrite (proj2 (C40_rejects ROps p d) v NE) in E. discriminate. }
  destruct (gr_io ROps r v x' RX) as (v' & -> & G & L). pose proof (gr_rx ROps r _ v v' N1 X G) as RV.
  assert (E' := E). rewrite dense_forward_ok in E' by auto. apply obind_inv in E' as (y & _ & E'). assert (w = IOScalar y) by congruence. subst w. clear E'.
  destruct (proj1 (C40_forward ROps p d v W1 X y) E) as (LY & AY).
  exists v, v', y, (map (fun i => nth (place r' i) y z) (seq 0 (units ROps d))). repeat (split; [reflexivity|]).
  assert (RY : rx ROps (units ROps d) (place r') y (map (fun i => nth (place r' i) y z) (seq 0 (units ROps d)))).
  { split; [exact LY|]. split; [now rewrite map_length, seq_length|]. intros q Hq. split; [apply R2, Hq|]. now rewrite nth_map_seq. }
  split; [|split; [exact RV|]].
  - apply (C40_forward ROps p d' v' W2 ltac:(congruence)). rewrite map_length, seq_length, U. split; [reflexivity|].
    intros i Hi. rewrite FN, (pre_renamed v v'), nth_map_seq by (auto; lia). apply AY, R2, Hi.
  - apply io_gr; [rewrite LY; exact N2|]. apply (rx_gr ROps r' _ _ _ N2 RY).
Qed.

(** Where the entries of the weight table go. *)
Definition table_pos (q : nat) : nat := place r' (q / inputs ROps d) * inputs ROps d + place r (q mod inputs ROps d).
Definition wpos : numbering := Some (units ROps d * inputs ROps d, table_pos).
Definition bpos : numbering := Some (units ROps d, place r').

Lemma table_pos_lt : forall q, q < units ROps d * inputs ROps d -> table_pos q < units ROps d * inputs ROps d.
Proof.
  intros q Hq. assert (I0 : inputs ROps d <> 0) by apply W1. unfold table_pos.
  assert (Q1 : q / inputs ROps d < units ROps d) by (apply Nat.div_lt_upper_bound; lia).
  assert (Q2 : q mod inputs ROps d < inputs ROps d) by (apply Nat.mod_upper_bound; exact I0).
  pose proof (proj1 R2 _ Q1). pose proof (proj1 R1 _ Q2). nia.
Qed.
Lemma rx_table : forall (a a' : list RC), length a = units ROps d * inputs ROps d -> length a' = units ROps d * inputs ROps d ->
  (forall i j, i < units ROps d -> j < inputs ROps d -> nth (i * inputs ROps d + j) a' z = nth (place r' i * inputs ROps d + place r j) a z) -> gr ROps wpos a a'.
Proof.
  intros a a' L1 L2 H. split; [exact L1|]. split; [exact L2|]. intros q Hq. split; [now apply table_pos_lt|].
  assert (I0 : inputs ROps d <> 0) by apply W1. assert (Q1 : q / inputs ROps d < units ROps d) by (apply Nat.div_lt_upper_bound; lia).
  assert (Q2 : q mod inputs ROps d < inputs ROps d) by (apply Nat.mod_upper_bound; exact I0).
  unfold table_pos. rewrite <- H by assumption. f_equal. rewrite (Nat.div_mod q _ I0) at 1. lia.
Qed.
Lemma table_at : forall (a a' : list RC) i j, gr ROps wpos a a' -> i < units ROps d -> j < inputs ROps d ->
  nth (i * inputs ROps d + j) a' z = nth (place r' i * inputs ROps d + place r j) a z.
Proof.
  intros a a' i j (_ & _ & H) Hi Hj. destruct (H (i * inputs ROps d + j) ltac:(nia)) as (_ & ->). unfold table_pos.
  rewrite Nat.div_add_l, Nat.div_small, Nat.add_0_r by lia. rewrite (Nat.add_comm (i * inputs ROps d) j), Nat.mod_add, Nat.mod_small by lia. reflexivity.
Qed.

Lemma derivs_renamed : forall v v' g g' gc gc' dw db h hc, rx ROps (inputs ROps d) (place r) v v' -> gr ROps r' g g' -> gr ROps r' gc gc' ->
  dense_derivatives ROps p d (IOScalar v) g gc = Ret (Ok (dw, db, h, hc)) ->
  exists dw' db' h' hc', dense_derivatives ROps p d' (IOScalar v') g' gc' = Ret (Ok (dw', db', h', hc')) /\
    gr ROps wpos dw dw' /\ gr ROps bpos db db' /\ gr ROps r h h' /\ gr ROps r hc hc'.
Proof.
  intros v v' g g' gc gc' dw db h hc RV RG RGC D. pose proof RV as (Y1 & Y2 & Y3).
  destruct (derivs_lengths ROps p d _ _ _ _ D) as (G & GC). destruct (derivs_exist ROps p d v g gc _ W1 Y1 G GC D) as (a & ac & DM).
  pose proof (gr_rx ROps r' _ _ _ N2 G RG) as (G1 & G2 & G3). pose proof (gr_rx ROps r' _ _ _ N2 GC RGC) as (K1 & K2 & K3).
  destruct (C41_derivatives ROps p d v g gc a ac W1 Y1 G GC DM) as (dw1 & db1 & h1 & E1 & L1 & L2 & L3 & B1 & V1 & X1).
  rewrite E1 in D. injection D as -> -> -> <-.
  assert (DM' : forall i, i < units ROps d' -> d_activate ROps p (d_func d') (pre ROps d' v' i) = Ret (a (place r' i)) /\ d_conj_activate ROps p (d_func d') (pre ROps d' v' i) = Ret (ac (place r' i))).
  { intros i Hi. rewrite FN, (pre_renamed v v') by (auto; congruence). apply DM, R2. congruence. }
  destruct (C41_derivatives ROps p d' v' g' gc' (fun i => a (place r' i)) (fun i => ac (place r' i)) W2 ltac:(congruence) ltac:(congruence) ltac:(congruence) DM') as (dw2 & db2 & h2 & E2 & L4 & L5 & L6 & B2 & V2 & X2).
  rewrite U, I in *. cbv zeta in B1, V1, X1, B2, V2, X2.
  assert (RH : rx ROps (inputs ROps d) (place r) h h2).
  { split; [congruence|]. split; [congruence|]. intros j Hj. split; [apply R1, Hj|]. rewrite X2 by exact Hj. rewrite X1 by (apply R1, Hj).
    pose (T := fun i => (weight ROps d i (place r j) * (a i * nth i g z + c_conj ROps (ac i) * nth i gc z))%RC).
    transitivity (csum (fun i => T (place r' i)) (units ROps d)); [|exact (csum_perm T (place r') _ R2)].
    apply csum_ext. intros i Hi. unfold T. rewrite HW by lia. rewrite (proj2 (G3 i Hi)), (proj2 (K3 i Hi)). reflexivity. }
  exists dw2, db2, h2, (map (c_conj ROps) h2). split; [exact E2|]. split; [|split; [|split]].
  - apply rx_table; auto. intros i j Hi Hj. rewrite V2 by assumption. rewrite V1 by (first [apply R2, Hi | apply R1, Hj]).
    now rewrite (proj2 (G3 i Hi)), (proj2 (K3 i Hi)), (proj2 (Y3 j Hj)).
  - split; [congruence|]. split; [congruence|]. intros i Hi. split; [apply R2, Hi|]. rewrite B2 by exact Hi. rewrite B1 by (apply R2, Hi). now rewrite (proj2 (G3 i Hi)), (proj2 (K3 i Hi)).
  - apply (rx_gr ROps r _ _ _ N1 RH).
  - apply (rx_gr ROps r _ _ _ N1). now apply rx_map.
Qed.
End Layer.

(** ** Networks *)
Definition dense_renamed (r r' : numbering) (d d' : dense ROps) : Prop :=
  dense_wf ROps d /\ dense_wf ROps d' /\ units ROps d' = units ROps d /\ inputs ROps d' = inputs ROps d /\ d_func d' = d_func d /\
  numbers r (inputs ROps d) /\ numbers r' (units ROps d) /\
  (forall i, i < units ROps d -> nth i (d_biases d') z = nth (place r' i) (d_biases d) z) /\
  (forall i j, i < units ROps d -> j < inputs ROps d -> weight ROps d' i j = weight ROps d (place r' i) (place r j)).

Inductive NR : numbering -> numbering -> network ROps -> network ROps -> list numbering -> list numbering -> Prop :=
| NR_nil : forall r, NR r r [] [] [] []
| NR_same : forall r' l n n' PW PB, NR None r' n n' PW PB -> NR None r' (l :: n) (l :: n') (None :: PW) (None :: PB)
| NR_dense : forall r s r' d d' n n' PW PB, dense_renamed r s d d' -> NR s r' n n' PW PB -> NR r r' (LDense d :: n) (LDense d' :: n') (wpos r s d :: PW) (bpos s d :: PB).
Lemma NR_net : forall r r' n n' PW PB, NR r r' n n' PW PB -> net_renamed ROps r r' n n'.
Proof.
  intros r r' n n' PW PB H. induction H as [r|r' l n n' PW PB H IH|r s r' d d' n n' PW PB D H IH]; [constructor| |].
  - econstructor; [|exact IH]. left. auto.
  - econstructor; [|exact IH]. right. exists d, d'. split; [reflexivity|]. split; [reflexivity|]. exact D.
Qed.
Lemma net_NR : forall r r' n n', net_renamed ROps r r' n n' -> exists PW PB, NR r r' n n' PW PB.
Proof.
  intros r r' n n' H. induction H as [r|r s r' l l' n n' [(-> & -> & ->)|(d & d' & -> & -> & D)] H (PW & PB & IH)].
  - do 2 eexists. constructor.
  - do 2 eexists. econstructor. exact IH.
  - do 2 eexists. econstructor; [exact D | exact IH].
Qed.

Lemma trace_renamed : forall r r' n n' PW PB, NR r r' n n' PW PB -> forall x x' vs, renamed ROps r x x' -> trace ROps p n x vs ->
  exists vs', trace ROps p n' x' vs' /\ renamed ROps r' (last vs x) (last vs' x') /\
    forall g g' gc gc' ws bs h hc, gr ROps r' g g' -> gr ROps r' gc gc' -> bp ROps p (combine vs n) g gc = Ret (ws, bs, h, hc) ->
      exists ws' bs' h' hc', bp ROps p (combine vs' n') g' gc' = Ret (ws', bs', h', hc') /\ grs ROps PW ws ws' /\ grs ROps PB bs bs' /\ gr ROps r h h' /\ gr ROps r hc hc'.
Proof.
  assert (LT : forall (x y : IOType RC) vs n, trace ROps p n y vs -> last (x :: vs) x = last vs y).
  { intros x y vs n T. destruct vs as [|v0 vs]; [inversion T|]. clear. revert v0. induction vs as [|w vs IH]; intros v0; [reflexivity|]. exact (IH w). }
  intros r r' n n' PW PB H. induction H as [r|r' l n n' PW PB H IH|r s r' d d' n n' PW PB D H IH]; intros x x' vs RX T; inversion T as [|? ? ? y w E T1]; subst.
  - exists [x']. split; [constructor|]. split; [exact RX|]. intros g g' gc gc' ws bs h hc G1 G2 B. cbn [combine bp] in *. injection B as <- <- <- <-.
    exists [], [], g', gc'. repeat split; auto; constructor.
  - cbn in RX. subst x'. destruct (IH y y w eq_refl T1) as (vs' & T' & RL & Q). exists (x :: vs'). split; [econstructor; eauto|].
    split; [rewrite (LT x y w n T1), (LT x y vs' n' T'); exact RL|].
    intros g g' gc gc' ws bs h hc G1 G2 B. cbn [combine bp] in *. apply obind_inv in B as ((((ws1 & bs1) & h1) & hc1) & B1 & B).
    destruct (Q _ _ _ _ _ _ _ _ G1 G2 B1) as (ws1' & bs1' & h1' & hc1' & -> & P1 & P2 & P3 & P4). cbn in P3, P4. subst h1' hc1'. cbn [obind].
    destruct (layer_propagates ROps l).
    + apply obind_inv in B as (q & DE & B). destruct q as [q|]; cbn [unwrap obind] in B; [|discriminate]. destruct q as (((dw & db) & e) & ec). injection B as <- <- <- <-.
      rewrite DE. cbn [unwrap obind]. do 4 eexists. split; [reflexivity|]. repeat split; try (constructor; [reflexivity | assumption]); reflexivity.
    + injection B as <- <- <- <-. do 4 eexists. split; [reflexivity|]. repeat split; try (constructor; [reflexivity | assumption]); reflexivity.
  - destruct D as (W1 & W2 & U & I & FN & N1 & N2 & HB & HW). cbn [layer_forward] in E.
    destruct (forward_renamed_layer r s d d' W1 W2 U I FN N1 N2 HB HW x x' y RX E) as (v & v' & o & o' & -> & -> & -> & E' & RV & RO).
    destruct (IH (IOScalar o) (IOScalar o') w RO T1) as (vs' & T' & RL & Q). exists (IOScalar v' :: vs'). split; [econstructor; [exact E' | exact T']|].
    split; [rewrite (LT _ _ w n T1), (LT _ _ vs' n' T'); exact RL|].
    intros g g' gc gc' ws bs h hc G1 G2 B. cbn [combine bp layer_propagates dense_propagates layer_derivatives] in *. apply obind_inv in B as ((((ws1 & bs1) & h1) & hc1) & B1 & B).
    destruct (Q _ _ _ _ _ _ _ _ G1 G2 B1) as (ws1' & bs1' & h1' & hc1' & -> & P1 & P2 & P3 & P4). cbn [obind].
    apply obind_inv in B as (q & DE & B). destruct q as [q|]; cbn [unwrap obind] in B; [|discriminate]. destruct q as (((dw & db) & e) & ec). injection B as <- <- <- <-.
    destruct (derivs_renamed r s d d' W1 W2 U I FN N1 N2 HB HW v v' _ _ _ _ _ _ _ _ RV P3 P4 DE) as (dw' & db' & e' & ec' & -> & K1 & K2 & K3 & K4). cbn [unwrap obind].
    do 4 eexists. split; [reflexivity|]. repeat split; try (constructor; assumption); assumption.
Qed.

Lemma net_renamed_nil : forall r r' n n', net_renamed ROps r r' n n' -> length n' = length n.
Proof. intros r r' n n' H. induction H; cbn; congruence. Qed.

Lemma forward_renamed : forall r r' n n' x x' y, net_renamed ROps r r' n n' -> renamed ROps r x x' -> net_forward ROps p n x = Ret (Ok y) ->
  exists y', net_forward ROps p n' x' = Ret (Ok y') /\ renamed ROps r' y y'.
Proof.
  intros r r' n n' x x' y H RX E. assert (NE : n <> []) by (intros ->; discriminate E).
  assert (NE' : n' <> []) by (apply net_renamed_nil in H; destruct n, n'; try discriminate; congruence).
  destruct (net_NR _ _ _ _ H) as (PW & PB & HN). rewrite forward_fold in * by auto. destruct (trace_cases ROps p n x) as [(vs & T)|NT]; [|rewrite fwd_fold_panic in E by auto; discriminate].
  rewrite (fwd_fold _ _ _ _ _ T) in E. cbn [obind] in E. destruct (trace_renamed _ _ _ _ _ _ HN x x' vs RX T) as (vs' & T' & RL & _).
  rewrite (fwd_fold _ _ _ _ _ T'). cbn [obind]. eexists. split; [reflexivity|]. assert (last vs x = y) by congruence. subst y. exact RL.
Qed.

Lemma pgrad_renamed : forall r r' n n' PW PB f, NR r r' n n' PW PB -> forall x t x' t' ws bs, renamed ROps r x x' -> renamed ROps r' t t' -> pgrad ROps p n f (x, t) = Ret (ws, bs) ->
  exists ws' bs', pgrad ROps p n' f (x', t') = Ret (ws', bs') /\ grs ROps PW ws ws' /\ grs ROps PB bs bs'.
Proof.
  intros r r' n n' PW PB f HN x t x' t' ws bs RX RT P. destruct (collect_of_pgrad ROps p _ f x t ws bs P) as (vs & g & h & hc & T & DL & B).
  destruct (trace_renamed _ _ _ _ _ _ HN x x' vs RX T) as (vs' & T' & RL & Q). destruct (d_loss_gr ROps r' t t' _ _ f g RT RL DL) as (g' & DL' & G).
  destruct (Q _ _ _ _ _ _ _ _ G (gr_map ROps (c_conj ROps) _ _ _ G) B) as (ws' & bs' & h' & hc' & B' & K1 & K2 & _). exists ws', bs'. split; [|auto].
  apply (pgrad_of ROps p n' f x' t' vs' g' ws' bs' h' hc'); auto. intros ->. apply NR_net, net_renamed_nil in HN. destruct n; [discriminate P | discriminate].
Qed.

Lemma zeros_renamed : forall r r' n n' PW PB, NR r r' n n' PW PB ->
  grs ROps PW (fst (grad_zero ROps n)) (fst (grad_zero ROps n')) /\ grs ROps PB (snd (grad_zero ROps n)) (snd (grad_zero ROps n')).
Proof.
  assert (PL : forall d : dense ROps, dense_wf ROps d -> layer_params_len ROps (LDense d) = (units ROps d * inputs ROps d, units ROps d)).
  { intros d Wd. assert (FU : layer_full ROps (LDense d)) by apply Wd. destruct (full_params ROps _ FU) as (Q1 & Q2). rewrite (surjective_pairing (layer_params_len ROps (LDense d))), Q1, Q2.
    cbn [layer_values fst snd]. destruct Wd as (w1 & w2 & _). rewrite w1, w2. reflexivity. }
  intros r r' n n' PW PB H. unfold grad_zero. cbn [fst snd]. induction H as [r|r' l n n' PW PB H (I1 & I2)|r s r' d d' n n' PW PB D H (I1 & I2)]; cbn [map].
  - split; constructor.
  - split; (constructor; [reflexivity | assumption]).
  - destruct D as (W1 & W2 & U & I & FN & N1 & N2 & HB & HW). cbn [layer_propagates dense_propagates]. rewrite !PL by assumption. cbn [fst snd]. rewrite U, I.
    split; (constructor; [|assumption]); apply rx_repeat; [eapply table_pos_lt; eassumption | apply numbers_reorders, N2].
Qed.

Lemma updates_renamed : forall r r' n n' PW PB sc, NR r r' n n' PW PB -> forall W W' B B' n1, grs ROps PW W W' -> grs ROps PB B B' ->
  mapM (update_layer ROps sc) (combine (combine W B) n) = Ret n1 ->
  exists n1', mapM (update_layer ROps sc) (combine (combine W' B') n') = Ret n1' /\ net_renamed ROps r r' n1 n1'.
Proof.
  intros r r' n n' PW PB sc H. induction H as [r|r' l n n' PW PB H IH|r s r' d d' n n' PW PB D H IH]; intros W W' B B' n1 GW GB E;
    inversion GW as [|? a a' ? A A' Ga GA]; inversion GB as [|? b b' ? Bs Bs' Gb GBs]; subst; cbn [combine mapM] in *.
  - injection E as <-. eexists. split; [reflexivity | constructor].
  - cbn in Ga, Gb. subst a' b'. apply obind_inv in E as (l1 & E1 & E). apply obind_inv in E as (m & E2 & E). injection E as <-.
    destruct (IH _ _ _ _ _ GA GBs E2) as (m' & E2' & NM). rewrite E1. cbn [obind]. rewrite E2'. cbn [obind]. eexists. split; [reflexivity|]. econstructor; [|exact NM]. left. auto.
  - apply obind_inv in E as (l1 & E1 & E). apply obind_inv in E as (m & E2 & E). injection E as <-.
    destruct (IH _ _ _ _ _ GA GBs E2) as (m' & E2' & NM). destruct D as (W1 & W2 & U & I & FN & N1 & N2 & HB & HW).
    pose proof Ga as (a1 & a2 & _). pose proof Gb as (b1 & b2 & _).
    assert (BD : length (body (d_weights d)) = units ROps d * inputs ROps d /\ length (body (d_weights d')) = units ROps d * inputs ROps d).
    { unfold dense_wf, wf in W1, W2. rewrite (proj1 W1), (proj1 W2). unfold units, inputs in *. split; congruence. }
    assert (BB : length (d_biases d) = units ROps d /\ length (d_biases d') = units ROps d).
    { unfold dense_wf in W1, W2. unfold units in *. rewrite (proj1 (proj2 W1)), (proj1 (proj2 W2)). auto. }
    destruct BD as (D1 & D2). destruct BB as (D5 & D6).
    destruct (update_ok ROps sc (LDense d) a b (proj1 W1) ltac:(cbn [layer_values fst snd]; congruence) ltac:(cbn [layer_values fst snd]; congruence)) as (x1 & Y1 & AR1 & VA1).
    destruct (update_ok ROps sc (LDense d') a' b' (proj1 W2) ltac:(cbn [layer_values fst snd]; congruence) ltac:(cbn [layer_values fst snd]; congruence)) as (x2 & Y2 & AR2 & VA2).
    assert (x1 = l1) by congruence. subst x1. rewrite Y2. cbn [obind]. rewrite E2'. cbn [obind]. eexists. split; [reflexivity|]. econstructor; [|exact NM].
    destruct l1 as [l1|l1|l1|l1]; try discriminate. destruct x2 as [l2|l2|l2|l2]; try discriminate.
    destruct (arch_dense ROps l1 d AR1 W1) as (Q1 & Q2 & Q3 & Q4). destruct (arch_dense ROps l2 d' AR2 W2) as (P1 & P2 & P3 & P4).
    cbn [layer_values fst snd] in VA1, VA2. injection VA1 as VA1 VB1. injection VA2 as VA2 VB2.
    assert (RL : gr ROps (wpos r s d) (body (d_weights d)) (body (d_weights d'))).
    { eapply rx_table; try eassumption. intros i j Hi Hj. pose proof (HW i j Hi Hj) as HH. unfold weight, entry in HH. fold (inputs ROps d) (inputs ROps d') in HH. rewrite I in HH. exact HH. }
    assert (RB : gr ROps (bpos s d) (d_biases d) (d_biases d')) by (split; [exact D5|]; split; [exact D6|]; intros i Hi; split; [apply numbers_reorders in N2; apply N2, Hi | apply HB, Hi]).
    assert (NL : gr ROps (wpos r s d) (body (d_weights l1)) (body (d_weights l2))) by (refine (eq_ind_r (fun X => gr ROps _ X _) (eq_ind_r (fun Y => gr ROps _ _ Y) _ VA2) VA1); exact (gr_zip ROps (sub_conj ROps) _ _ _ _ _ RL (gr_map ROps (fun e => c_mul_assign ROps e sc) _ _ _ Ga))).
    assert (NB : gr ROps (bpos s d) (d_biases l1) (d_biases l2)) by (refine (eq_ind_r (fun X => gr ROps _ X _) (eq_ind_r (fun Y => gr ROps _ _ Y) _ VB2) VB1); exact (gr_zip ROps (sub_conj ROps) _ _ _ _ _ RB (gr_map ROps (fun e => c_mul_assign ROps e sc) _ _ _ Gb))).
    right. exists l1, l2. split; [reflexivity|]. split; [reflexivity|]. split; [exact Q1|]. split; [exact P1|]. split; [congruence|]. split; [congruence|]. split; [congruence|].
    rewrite Q2, Q3. split; [exact N1|]. split; [exact N2|]. split; [intros i Hi; apply NB, Hi|].
    intros i j Hi Hj. unfold weight, entry. fold (inputs ROps l1) (inputs ROps l2). rewrite P3, Q3, I. eapply table_at; eassumption.
Qed.

Theorem step_renamed_ok : forall r r' n n' d d' f lr n1, net_renamed ROps r r' n n' -> data_renamed ROps r r' d d' -> net_gradient_opt ROps p n d f lr = Ret (n1, Ok tt) ->
  exists n1', net_gradient_opt ROps p n' d' f lr = Ret (n1', Ok tt) /\ net_renamed ROps r r' n1 n1'.
Proof.
  intros r r' n n' d d' f lr n1 H (DX & DT) E. destruct (net_NR _ _ _ _ H) as (PW & PB & HN). unfold net_gradient_opt in *. rewrite (net_renamed_nil _ _ _ _ H). destruct (length n <=? 1) eqn:L1; [discriminate|].
  apply obind_inv in E as ((W & B) & EG & E). apply obind_inv in E as (sc & ES & E). apply obind_inv in E as (q & EM & E).
  assert (q = n1) by congruence. subst q. clear E. cbn [fst snd] in EM. unfold net_gradient, ds_points_iter in *.
  destruct (grad_zero_slots ROps n) as (S1 & S2). destruct (grad_zero_slots ROps n') as (S1' & S2'). destruct (zeros_renamed _ _ _ _ _ _ HN) as (Z1 & Z2).
  rewrite (surjective_pairing (grad_zero ROps n)) in EG. rewrite (surjective_pairing (grad_zero ROps n')).
  destruct (batch_grs ROps p n n' f PW PB r r' (pgrad_renamed r r' n n' PW PB f HN) _ _ _ _ _ _ _ _ _ _ DX DT S1 S2 S1' S2' Z1 Z2 EG) as (W' & B' & -> & GW & GB).
  cbn [obind]. rewrite <- (Forall2_len _ _ _ DX), ES. cbn [obind fst snd]. destruct (updates_renamed _ _ _ _ _ _ sc HN W W' B B' n1 GW GB EM) as (n1' & -> & N1). cbn [obind]. eauto.
Qed.

Theorem steps_renamed_ok : forall r r' steps steps' n n' n1, net_renamed ROps r r' n n' -> Forall2 (step_renamed ROps r r') steps steps' -> train_steps ROps p n steps = Ret n1 ->
  exists n1', train_steps ROps p n' steps' = Ret n1' /\ net_renamed ROps r r' n1 n1'.
Proof.
  intros r r' steps steps' n n' n1 H S. revert n n' n1 H. induction S as [|[[d f] lr] [[d' f'] lr'] steps steps' (SD & SF & SL) S IH]; intros n n' n1 H E; cbn [train_steps fst snd] in *; [injection E as <-; eauto|].
  subst f' lr'. apply obind_inv in E as ((n2 & q) & E1 & E). cbn [fst snd] in E. destruct q as [[]|]; [|discriminate].
  destruct (step_renamed_ok r r' n n' d d' f lr n2 H SD E1) as (n2' & -> & R2). cbn [obind fst snd]. eauto.
Qed.
End Dense.
