(** * Training dense networks: no failure *)
From Verif Require Import Base BaseFacts Float Matrix Cplx Random Act Input Loss Dense Conv Layer Dataset Network SpecMatrix MatrixFacts
  SpecLayer SpecConv SpecNet DenseFacts LayerFacts NetFacts TrainFacts PropAct PropDense.

Section TrainDense.
Context (Fl : FloatOps) (p : prec).
Local Notation C := (cplx (F Fl)).
Local Notation O := (cops Fl).

Lemma no_modz_derivs : forall f (z : C), f <> ModZ ->
  (exists d, d_activate Fl p f z = Ret d) /\ (exists d, d_conj_activate Fl p f z = Ret d).
Proof. intros f z H. destruct f; try congruence; split; eexists; reflexivity. Qed.

(** The layer-wise sizes of the gradients. *)
Definition wsizes (ls : list (dense Fl)) : list nat := map (fun l => units Fl l * inputs Fl l) ls.
Definition bsizes (ls : list (dense Fl)) : list nat := map (units Fl) ls.

Lemma pick : forall {A} (P : nat -> A -> Prop) n (d : A), (forall i, i < n -> exists a, P i a) -> exists f : nat -> A, forall i, i < n -> P i (f i).
Proof.
  intros A P n d. induction n as [|n IH]; intros H; [exists (fun _ => d); intros; lia|].
  destruct IH as (f & Hf); [intros i Hi; apply H; lia|]. destruct (H n) as (a & Ha); [lia|].
  exists (fun i => if i =? n then a else f i). intros i Hi. destruct (Nat.eqb_spec i n); [subst; exact Ha | apply Hf; lia].
Qed.

Lemma dense_sweep : forall (ls : list (dense Fl)) w x, widths_fit Fl ls w -> length x = w ->
  (forall l, In l ls -> d_func l <> ModZ) ->
  exists vs ys, trace Fl p (map LDense ls) (IOScalar x) vs /\ last vs (IOScalar x) = IOScalar ys /\ length ys = out_width Fl ls w /\
    forall g gc, length g = out_width Fl ls w -> length gc = out_width Fl ls w ->
      exists ws bs h hc, bp Fl p (combine vs (map LDense ls)) g gc = Ret (ws, bs, h, hc) /\
        map (@length C) ws = wsizes ls /\ map (@length C) bs = bsizes ls /\ length h = w /\ length hc = w.
Proof.
  induction ls as [|l ls IH]; intros w x W X NM.
  - exists [IOScalar x], x. split; [constructor|]. split; [reflexivity|]. split; [exact X|].
    intros g gc G GC. exists [], [], g, gc. repeat split; auto.
  - destruct W as (Wl & I & W). assert (NMl : d_func l <> ModZ) by (apply NM; now left).
    assert (E : exists ys, dense_forward Fl p l (IOScalar x) = Ret (Ok (IOScalar ys)) /\ length ys = units Fl l).
    { destruct (C40_total Fl p l x Wl) as [(ys & E) | (E & i & Hi & Ei)]; [congruence | |].
      - exists ys. split; [exact E|]. apply (C40_forward Fl p l x Wl (eq_trans X (eq_sym I)) ys). exact E.
      - exfalso. apply NMl. eapply C29_only_modz. left. exact Ei. }
    destruct E as (ys & E & Ly).
    destruct (IH (units Fl l) ys W Ly) as (vs & zs & T & N & L & S); [intros q Hq; apply NM; now right|].
    exists (IOScalar x :: vs), zs. cbn [map]. split; [econstructor; [exact E | exact T]|].
    split; [|split; [exact L|]].
    { inversion T; subst; cbn [last] in *; [exact N|]. rewrite <- N. cbn [last]. clear.
      destruct vs0 as [|v vs0]; [reflexivity|]. cbn [last]. revert v. induction vs0 as [|u vs0 IHv]; intros v; [reflexivity|]. apply IHv. }
    intros g gc G GC. destruct (S g gc G GC) as (ws & bs & h & hc & B & LW & LB & Lh & Lhc).
    cbn [combine bp]. rewrite B. cbn [obind layer_propagates dense_propagates layer_derivatives].
    destruct (pick (fun i d => d_activate Fl p (d_func l) (pre Fl l x i) = Ret d) (units Fl l) (c_default Fl)) as (d & Hd).
    { intros i _. apply no_modz_derivs; exact NMl. }
    destruct (pick (fun i d => d_conj_activate Fl p (d_func l) (pre Fl l x i) = Ret d) (units Fl l) (c_default Fl)) as (dc & Hdc).
    { intros i _. apply no_modz_derivs; exact NMl. }
    destruct (C41_derivatives Fl p l x h hc d dc Wl) as (dw & db & dx & ED & L1 & L2 & L3 & _); try congruence.
    { intros i Hi. split; auto. }
    rewrite ED. cbn [obind unwrap]. do 4 eexists. split; [reflexivity|]. cbn [map wsizes bsizes]. rewrite LW, LB, L1, L2, L3, map_length, L3.
    repeat split; congruence.
Qed.

Lemma addv_ok : forall W ws : list (list C), map (@length C) W = map (@length C) ws ->
  exists W', addv Fl W ws = Ret W' /\ map (@length C) W' = map (@length C) W.
Proof.
  induction W as [|w W IH]; intros [|d ws] H; try discriminate; [exists []; auto|].
  cbn [map] in H. assert (E1 : length w = length d) by congruence. assert (E2 : map (@length C) W = map (@length C) ws) by congruence.
  destruct (IH ws E2) as (W' & E & L). cbn [addv]. unfold add_slice_mut. rewrite (proj2 (Nat.eqb_eq _ _) E1). cbn [negb unwrap obind]. rewrite E. cbn [obind].
  eexists. split; [reflexivity|]. cbn [map]. now rewrite zip_assign_length, L.
Qed.

Lemma addv_bad : forall (W ws : list (list C)) k w d, nth_error W k = Some w -> nth_error ws k = Some d -> length w <> length d ->
  addv Fl W ws = Panic.
Proof.
  induction W as [|w0 W IH]; intros [|d0 ws] [|k] w d Hw Hd N; try discriminate; cbn [nth_error addv] in *.
  - assert (w0 = w /\ d0 = d) as (-> & ->) by (split; congruence). unfold add_slice_mut.
    destruct (Nat.eqb_spec (length w) (length d)); [congruence|]. reflexivity.
  - destruct (unwrap _); cbn [obind]; [|reflexivity]. rewrite (IH ws k w d); auto.
Qed.

Lemma dense_grad_zero : forall ls : list (dense Fl),
  map (@length C) (fst (grad_zero Fl (map LDense ls))) = wsizes ls /\
  map (@length C) (snd (grad_zero Fl (map LDense ls))) = map (fun l => length (d_biases l)) ls.
Proof.
  intros ls. unfold grad_zero, wsizes. cbn [fst snd]. rewrite !map_map. split; apply map_ext; intros l; cbn; apply repeat_length.
Qed.

Lemma widths_wf : forall ls w, widths_fit Fl ls w -> Forall (dense_wf Fl) ls.
Proof. induction ls as [|l ls IH]; intros w W; [constructor|]. destruct W as (A & _ & B). constructor; eauto. Qed.

Lemma dense_bsizes : forall ls, Forall (dense_wf Fl) ls -> map (fun l => length (d_biases l)) ls = bsizes ls.
Proof. intros ls H. unfold bsizes. induction H as [|l ls (_ & E & _) _ IH]; [reflexivity|]. cbn [map]. now rewrite IH, E. Qed.

Lemma d_loss_length : forall f (t y : list C), exists g, d_loss Fl (IOScalar t) (IOScalar y) f = Ok g /\ length g = Nat.min (length t) (length y).
Proof.
  intros f t y. cbn [d_loss]. eexists. split; [reflexivity|]. destruct f; cbn [release_dloss]; unfold d_norm_ce_loss, d_mean_sq_loss;
  rewrite map_length, combine_length; reflexivity.
Qed.

Lemma collect_trace : forall n x vs, n <> [] -> trace Fl p n x vs -> net_collect_acts Fl p n x = Ret (Ok vs).
Proof.
  intros n x vs NE T. destruct n as [|l n]; [congruence|]. unfold net_collect_acts.
  pose proof (collect_fold Fl p _ _ _ [] T) as CF. cbn [app] in CF. rewrite CF. reflexivity.
Qed.

Lemma dense_pgrad : forall (ls : list (dense Fl)) w x t f, ls <> [] -> widths_fit Fl ls w -> length x = w ->
  (forall l, In l ls -> d_func l <> ModZ) -> out_width Fl ls w <= length t ->
  exists ws bs, pgrad Fl p (map LDense ls) f (IOScalar x, IOScalar t) = Ret (ws, bs) /\
    map (@length C) ws = wsizes ls /\ map (@length C) bs = bsizes ls.
Proof.
  intros ls w x t f NE W X NM LT. destruct (dense_sweep ls w x W X NM) as (vs & ys & T & N & L & S).
  assert (NE' : map (@LDense Fl) ls <> []) by (destruct ls; [congruence|discriminate]).
  unfold pgrad. cbn [fst snd]. rewrite (collect_trace _ _ _ NE' T). cbn [obind unwrap].
  rewrite N. destruct (d_loss_length f t ys) as (g & -> & Lg). cbn [obind unwrap].
  destruct (S g (map (c_conj Fl) g)) as (ws & bs & h & hc & -> & L1 & L2 & _); rewrite ?map_length; [lia | lia |].
  cbn [obind]. eauto.
Qed.

Lemma dense_gradient : forall (ls : list (dense Fl)) w f its W0 B0, ls <> [] -> widths_fit Fl ls w ->
  (forall l, In l ls -> d_func l <> ModZ) ->
  (forall it, In it its -> exists x t, it = (IOScalar x, IOScalar t) /\ length x = w /\ out_width Fl ls w <= length t) ->
  map (@length C) W0 = wsizes ls -> map (@length C) B0 = bsizes ls ->
  exists W B, foldM (point_step Fl p (map LDense ls) f) its (W0, B0) = Ret (W, B) /\
    map (@length C) W = wsizes ls /\ map (@length C) B = bsizes ls.
Proof.
  intros ls w f its W0 B0 NE WF NM. revert W0 B0. induction its as [|it its IH]; intros W0 B0 HI L1 L2; [exists W0, B0; auto|].
  destruct (HI it (or_introl eq_refl)) as (x & t & -> & Lx & Lt).
  assert (SL : forall V : list (list C), length V = length ls -> slots Fl (map LDense ls) V).
  { intros V. clear. revert V. induction ls as [|l ls IH]; intros [|v V] H; try discriminate; constructor; [intros HP; cbn in HP; discriminate | apply IH; cbn in H; lia]. }
  assert (LW : length W0 = length ls) by (apply (f_equal (@length nat)) in L1; unfold wsizes in L1; now rewrite !map_length in L1).
  assert (LB : length B0 = length ls) by (apply (f_equal (@length nat)) in L2; unfold bsizes in L2; now rewrite !map_length in L2).
  cbn [foldM]. rewrite point_step_eq by (apply SL; assumption).
  destruct (dense_pgrad ls w x t f NE WF Lx NM Lt) as (ws & bs & -> & S1 & S2). cbn [obind].
  destruct (addv_ok W0 ws) as (W1 & -> & E1); [congruence|]. cbn [obind].
  destruct (addv_ok B0 bs) as (B1 & -> & E2); [congruence|]. cbn [obind].
  apply IH; try congruence. intros it Hit. apply HI. now right.
Qed.

(** The update of a dense layer with gradients of the right sizes. *)
Lemma dense_update : forall (l : dense Fl) s dw db, dense_wf Fl l -> length dw = units Fl l * inputs Fl l -> length db = units Fl l ->
  exists l', update_layer Fl s (dw, db, LDense l) = Ret (LDense l') /\ dense_wf Fl l' /\ units Fl l' = units Fl l /\ inputs Fl l' = inputs Fl l /\
    d_func l' = d_func l.
Proof.
  intros l s dw db (Wl & Bl & I) L1 L2. unfold update_layer. cbn [layer_propagates dense_propagates layer_adjust]. unfold dense_adjust, slice_mul_mut_scalar.
  unfold units, inputs in *. rewrite !map_length, L1, L2, Bl, Wl, !Nat.eqb_refl. cbn [negb map_ok obind unwrap].
  eexists. split; [reflexivity|]. cbn [d_weights d_biases d_func with_body sh0 sh1]. repeat split; auto.
  - unfold wf. cbn [with_body body sh0 sh1 d_weights]. rewrite zip_assign_length. exact Wl.
  - cbn [d_biases d_weights with_body sh0]. rewrite zip_assign_length. exact Bl.
Qed.

Lemma dense_updates : forall (ls : list (dense Fl)) w s W B, widths_fit Fl ls w -> map (@length C) W = wsizes ls -> map (@length C) B = bsizes ls ->
  exists ls', mapM (update_layer Fl s) (combine (combine W B) (map LDense ls)) = Ret (map LDense ls') /\ widths_fit Fl ls' w /\
    map d_func ls' = map d_func ls /\ map (units Fl) ls' = map (units Fl) ls /\ map (inputs Fl) ls' = map (inputs Fl) ls.
Proof.
  induction ls as [|l ls IH]; intros w s W B WF L1 L2.
  - destruct W; [|discriminate]. exists []. repeat split.
  - destruct W as [|dw W]; [discriminate|]. destruct B as [|db B]; [discriminate|]. cbn [map wsizes bsizes] in L1, L2.
    destruct WF as (Wl & I & WF). cbn [combine map mapM].
    destruct (dense_update l s dw db Wl) as (l' & -> & Wl' & U & IN & FN); [congruence .. |]. cbn [obind].
    destruct (IH (units Fl l) s W B WF) as (ls' & -> & WF' & F1 & F2 & F3); [unfold wsizes; congruence | unfold bsizes; congruence |]. cbn [obind].
    exists (l' :: ls'). split; [reflexivity|]. cbn [map]. rewrite FN, U, IN, F1, F2, F3. split; [|auto].
    split; [exact Wl'|]. split; [congruence|]. rewrite U. exact WF'.
Qed.

(** Too short a target panics. *)
Lemma dense_short : forall (ls : list (dense Fl)) l w x t f, widths_fit Fl (ls ++ [l]) w -> length x = w ->
  (forall q, In q (ls ++ [l]) -> d_func q <> ModZ) -> length t < units Fl l ->
  pgrad Fl p (map LDense (ls ++ [l])) f (IOScalar x, IOScalar t) = Panic.
Proof.
  intros ls l w x t f W X NM LT. destruct (dense_sweep (ls ++ [l]) w x W X NM) as (vs & ys & T & N & L & _).
  unfold pgrad. cbn [fst snd].
  assert (NE' : map (@LDense Fl) (ls ++ [l]) <> []) by (destruct ls; discriminate).
  rewrite (collect_trace _ _ _ NE' T). cbn [obind unwrap].
  rewrite N. destruct (d_loss_length f t ys) as (g & -> & Lg). cbn [obind unwrap].
  assert (OW : out_width Fl (ls ++ [l]) w = units Fl l) by (unfold out_width; now rewrite fold_left_app).
  assert (BAD : forall gc, bp Fl p (combine vs (map LDense (ls ++ [l]))) g gc = Panic); [|now rewrite BAD].
  intros gc. pose proof (trace_length _ _ _ _ _ T) as LV. rewrite map_app in *. cbn [map] in *. rewrite app_length in LV. cbn [length] in LV.
  assert (HB : forall us v ms, length us = length ms ->
     bp Fl p (combine (us ++ v) (ms ++ [LDense l])) g gc = Panic \/ v = []).
  { intros us v ms. revert us. induction ms as [|m ms IHm]; intros [|u us] LE; try discriminate.
    - destruct v as [|v0 v]; [now right|left]. cbn [app combine bp obind]. destruct v; cbn [combine bp obind layer_propagates dense_propagates layer_derivatives];
      (rewrite C41_rejects; [reflexivity | left; lia]).
    - cbn [length] in LE. destruct (IHm us ltac:(lia)) as [E|E]; [left|now right]. cbn [app combine bp]. destruct m; rewrite E; reflexivity. }
  destruct (HB (firstn (length ls) vs) (skipn (length ls) vs) (map LDense ls)) as [E|E].
  - rewrite firstn_length, map_length. rewrite map_length in LV. lia.
  - rewrite firstn_skipn in E. exact E.
  - apply (f_equal (@length _)) in E. rewrite skipn_length, LV, map_length in E. cbn [length] in E. lia.
Qed.
End TrainDense.
