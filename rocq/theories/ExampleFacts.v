(** * Lemmas about the example programs *)
From Coq Require Import NArith.
From Verif Require Import Base BaseFacts Float Matrix Cplx Random Act Input Loss Dense Conv Layer Dataset Network Examples
  SpecMatrix SpecLayer SpecConv SpecNet SpecGeom SpecMnist SpecExamples NetFacts BuildFacts GeomFacts MnistFacts PropData PropMnist PropDense PropConv PropNet PropTrain.
Local Open Scope nat_scope.
Local Open Scope list_scope.
Local Notation P32 := Float.P32.

(** ** Building *)
Section Build.
Context (Fl : FloatOps) (pr : profile).
Local Notation C := (cplx (F Fl)).

(** Everything the programs need to know of a new layer. *)
Definition fresh (l : clayer Fl) (g g' : geometry) (si so : IOShape) (pw pb : nat) : Prop :=
  fits Fl l g g' /\ trainable Fl l /\ layer_is_empty Fl l = false /\ layer_input_shape Fl l = si /\ layer_output_shape Fl l = so /\
  layer_params_len Fl l = (pw, pb).

Lemma new_dense_ok : forall i u f m seed, seed_ok pr seed -> i <> 0 -> u <> 0 -> f <> ModZ ->
  exists s l, new_dense Fl pr i u f m seed = Ret (s, l) /\ seed_ok pr s /\
    fresh l (Vec i) (Vec u) (ShScalar i) (ShScalar u) (u * i) u.
Proof.
  intros i u f m seed HS I U NM. destruct (C39_total Fl P32 pr i u f m seed HS) as (s & l & E & Hs).
  unfold new_dense. rewrite E. cbn [obind unwrap]. exists s, (LDense l). split; [reflexivity|]. split; [exact Hs|].
  destruct (C39_init _ _ _ _ _ _ _ _ _ _ E) as (W & S0 & S1 & B & Fn & SI & SO & PL & _).
  assert (LB : length (d_biases l) = u) by (rewrite B; apply repeat_length).
  unfold fresh. repeat split; cbn [layer_input_shape layer_output_shape layer_params_len layer_is_empty]; auto.
  - replace (Vec i) with (Vec (inputs Fl l)) by (unfold inputs; now rewrite S1).
    replace (Vec u) with (Vec (units Fl l)) by (unfold units; now rewrite S0). constructor; [|congruence].
    unfold dense_wf. repeat split; [exact W | congruence | congruence].
  - unfold dense_is_empty. rewrite S0, S1, LB. destruct u; [congruence|]. reflexivity.
Qed.

Lemma new_conv_ok : forall n k a b r c f m seed, seed_ok pr seed -> 1 <= n -> 1 <= k -> 1 <= a <= r -> 1 <= b <= c -> f <> ModZ ->
  exists s l, new_conv Fl pr n k a b f m seed = Ret (s, l) /\ seed_ok pr s /\
    fresh l (Maps n r c) (Maps k (r - a + 1) (c - b + 1)) (ShMatrix n) (ShMatrix k) (k * n * (a * b)) k.
Proof.
  intros n k a b r c f m seed HS N K A B NM. destruct (C43_total Fl P32 pr n k a b f m seed HS) as (s & l & E & Hs).
  unfold new_conv. rewrite E. cbn [obind unwrap]. exists s, (LConv l). split; [reflexivity|]. split; [exact Hs|].
  destruct (C43_init _ _ _ _ _ _ _ _ _ _ _ _ E) as (W & S0 & S1 & _ & _ & Fn & SI & SO & PL & _).
  pose proof (C43_well_formed _ _ _ _ _ _ _ _ _ _ _ _ E N K (proj1 A) (proj1 B)) as CW.
  unfold fresh. repeat split; cbn [layer_input_shape layer_output_shape layer_params_len layer_is_empty]; auto.
  - rewrite <- S0, <- S1. constructor; [exact CW | congruence | lia | lia].
  - unfold conv_is_empty. unfold filters in S0. rewrite S0. destruct k; [lia|]. reflexivity.
Qed.

Lemma pool_ok : forall n b r c func ker, 1 <= n -> 1 <= b <= r -> b <= c -> r mod b = 0 -> c mod b = 0 ->
  (forall v, length v = b * b -> exists y, func v = Ret y) -> wf ker -> sh0 ker = 3 -> sh1 ker = 3 ->
  fresh (LReduce (red_init Fl n b b func ker)) (Maps n r c) (Maps n (r / b) (c / b)) (ShMatrix n) (ShMatrix n) 0 0.
Proof.
  intros n b r c func ker N A B MA MB HF W K0 K1. unfold fresh. repeat split; auto.
  apply (fits_reduce Fl (red_init Fl n b b func ker)); cbn; auto; lia.
Qed.

Lemma flatten_ok : forall n r c g g' u, g = Maps n r c -> g' = Vec u -> n * (r * c) = u -> r * c * n = u ->
  fresh (LFlatten (flat_init r c n)) g g' (ShMatrix n) (ShScalar u) 0 0.
Proof.
  intros n r c g g' u -> -> <- E. unfold fresh. repeat split; auto; [constructor|].
  cbn [layer_output_shape]. unfold flat_output_shape. cbn [f_r f_c f_n flat_init]. now rewrite E.
Qed.

Fixpoint chain_ok (l : clayer Fl) (rest : list (clayer Fl)) : Prop :=
  match rest with
  | [] => True
  | b :: r => layer_output_shape Fl l = layer_input_shape Fl b /\ layer_is_empty Fl b = false /\ chain_ok b r
  end.

Lemma assemble_ok : forall l rest, layer_is_empty Fl l = false -> chain_ok l rest -> assemble Fl l rest = Ret (l :: rest).
Proof.
  intros l rest E H. unfold assemble. destruct (add_input_cases Fl (net_new Fl) l) as (_ & _ & A). 
  change (net_new Fl) with (@nil (clayer Fl)). rewrite (proj2 (proj2 (add_input_cases Fl [] l)) E). cbn [obind unwrap].
  clear A E.
  assert (G : forall rest pre l, chain_ok l rest -> foldM (add_unwrap Fl) rest (pre ++ [l]) = Ret (pre ++ l :: rest)).
  { clear. induction rest as [|b rest IH]; intros pre l H; [reflexivity|]. destruct H as (S & E & H). cbn [foldM].
    unfold add_unwrap at 1. destruct (add_cases Fl pre b) as (_ & _ & _ & A). rewrite (A l E S). cbn [obind unwrap].
    rewrite app_assoc. rewrite IH by exact H. now rewrite <- app_assoc. }
  exact (G rest [] l H).
Qed.
End Build.

Definition psum {Fl} (n : network Fl) : nat :=
  fold_right (fun l k => fst (layer_params_len Fl l) + snd (layer_params_len Fl l) + k) 0 n.
Lemma params_sum : forall Fl (n : network Fl), net_params_len Fl n = psum n.
Proof.
  intros Fl n. unfold net_params_len. assert (G : forall n k, fold_left (fun len l => len + (fst (layer_params_len Fl l) + snd (layer_params_len Fl l))) n k = k + psum n).
  { induction n0 as [|l n0 IH]; intros k; cbn [fold_left psum fold_right]; [lia|]. rewrite IH. unfold psum. lia. }
  rewrite G. reflexivity.
Qed.

Section Nets.
Context (Fl : FloatOps) (pr : profile).
Local Notation C := (cplx (F Fl)).
Hypothesis Hq : forall b : list C, length b = 4 -> exists v, avg_block Fl b = Ret v.

Definition cnn_stages := [Maps 1 28 28; Maps 8 26 26; Maps 8 13 13; Maps 16 11 11; Vec (11 * 11 * 16); Vec 16; Vec 10].
Lemma cnn_ok : forall seed, seed_ok pr seed ->
  exists seed' n, get_2conv_layer_cvcnn Fl pr seed = Ret (seed', (2, n)) /\ seed_ok pr seed' /\
    stages Fl n cnn_stages /\ Forall (trainable Fl) n /\ N.of_nat (net_params_len Fl n) = 32410%N.
Proof.
  intros seed HS. unfold get_2conv_layer_cvcnn.
  destruct (new_conv_ok Fl pr 1 8 3 3 28 28 RITReLU (HeInit (8 * 3 * 3)) seed HS) as (s1 & l1 & E1 & H1 & F1); try lia; [discriminate|].
  rewrite E1. cbn [obind].
  destruct (new_conv_ok Fl pr 8 16 3 3 13 13 RITReLU (HeInit (16 * 3 * 3)) s1 H1) as (s2 & l2 & E2 & H2 & F2); try lia; [discriminate|].
  rewrite E2. cbn [obind].
  destruct (new_dense_ok Fl pr (11 * 11 * 16) 16 RITSigmoid (XavierGlorotU (11 * 11 * 16 + 16)) s2 H2) as (s3 & l3 & E3 & H3 & F3); try discriminate.
  rewrite E3. cbn [obind].
  destruct (new_dense_ok Fl pr 16 10 RITSigmoid (XavierGlorotU (16 + 10)) s3 H3) as (s4 & l4 & E4 & H4 & F4); try discriminate.
  rewrite E4. cbn [obind].
  assert (FP := pool_ok Fl 8 2 26 26 (avg_block Fl) (spread_kernel Fl)).
  destruct FP as (P1 & P2 & P3 & P4 & P5 & P6); try reflexivity; try lia; auto.
  destruct (flatten_ok Fl 16 11 11 _ _ (11 * 11 * 16) eq_refl eq_refl eq_refl eq_refl) as (Q1 & Q2 & Q3 & Q4 & Q5 & Q6).
  destruct F1 as (A1 & A2 & A3 & A4 & A5 & A6). destruct F2 as (B1 & B2 & B3 & B4 & B5 & B6).
  destruct F3 as (C1 & C2 & C3 & C4 & C5 & C6). destruct F4 as (D1 & D2 & D3 & D4 & D5 & D6).
  set (pool := LReduce (red_init Fl 8 2 2 (avg_block Fl) (spread_kernel Fl))) in *.
  set (flatl := LFlatten (flat_init 11 11 16)) in *. clearbody pool flatl.
  rewrite assemble_ok; [|exact A3 | cbn [chain_ok]; rewrite A5, P4, P5, B4, B5, Q4, Q5, C4, C5, D4; repeat split; assumption].
  cbn [obind]. exists s4, [l1; pool; l2; flatl; l3; l4]. split; [reflexivity|]. split; [exact H4|]. split; [|split].
  - unfold cnn_stages. repeat (apply stages_cons; [assumption|]). apply stages_nil.
  - repeat constructor; assumption.
  - rewrite params_sum. cbn [psum fold_right]. rewrite A6, P6, B6, Q6, C6, D6. cbn [fst snd].
    rewrite !Nat2N.inj_add, !Nat2N.inj_mul. reflexivity.
Qed.

Definition fc_stages := [Maps 1 28 28; Vec (28 * 28); Vec 28; Vec 16; Vec 16; Vec 10].
Lemma fc_ok : forall seed, seed_ok pr seed ->
  exists seed' n, get_fully_connected_cvnn Fl pr seed = Ret (seed', (0, n)) /\ seed_ok pr seed' /\
    stages Fl n fc_stages /\ Forall (trainable Fl) n /\ N.of_nat (net_params_len Fl n) = 22886%N.
Proof.
  clear Hq. intros seed HS. unfold get_fully_connected_cvnn.
  destruct (new_dense_ok Fl pr (28 * 28) 28 RITSigmoid (XavierGlorotU (28 * 28 + 28)) seed HS) as (s1 & l1 & E1 & H1 & F1); try discriminate.
  rewrite E1. cbn [obind].
  destruct (new_dense_ok Fl pr 28 16 RITSigmoid (XavierGlorotU (28 + 16)) s1 H1) as (s2 & l2 & E2 & H2 & F2); try discriminate.
  rewrite E2. cbn [obind].
  destruct (new_dense_ok Fl pr 16 16 RITSigmoid (XavierGlorotU (16 + 16)) s2 H2) as (s3 & l3 & E3 & H3 & F3); try discriminate.
  rewrite E3. cbn [obind].
  destruct (new_dense_ok Fl pr 16 10 RITSigmoid (XavierGlorotU (16 + 10)) s3 H3) as (s4 & l4 & E4 & H4 & F4); try discriminate.
  rewrite E4. cbn [obind].
  destruct (flatten_ok Fl 1 28 28 _ _ (28 * 28) eq_refl eq_refl eq_refl eq_refl) as (Q1 & Q2 & Q3 & Q4 & Q5 & Q6).
  destruct F1 as (A1 & A2 & A3 & A4 & A5 & A6). destruct F2 as (B1 & B2 & B3 & B4 & B5 & B6).
  destruct F3 as (C1 & C2 & C3 & C4 & C5 & C6). destruct F4 as (D1 & D2 & D3 & D4 & D5 & D6).
  set (flatl := LFlatten (flat_init 28 28 1)) in *. clearbody flatl.
  rewrite assemble_ok; [|exact Q3 | cbn [chain_ok]; rewrite A4, A5, B4, B5, Q5, C4, C5, D4; repeat split; assumption].
  cbn [obind]. exists s4, [flatl; l1; l2; l3; l4]. split; [reflexivity|]. split; [exact H4|]. split; [|split].
  - unfold fc_stages. repeat (apply stages_cons; [assumption|]). apply stages_nil.
  - repeat constructor; assumption.
  - rewrite params_sum. cbn [psum fold_right]. rewrite A6, B6, Q6, C6, D6. cbn [fst snd].
    rewrite !Nat2N.inj_add, !Nat2N.inj_mul. reflexivity.
Qed.

Definition auto_stages (samples : nat) := [Vec samples; Vec 128; Vec 32; Vec 16; Vec 32; Vec samples].
Lemma auto_ok : forall samples seed, samples <> 0 -> seed_ok pr seed ->
  exists seed' n, get_auto_encoder Fl pr seed samples = Ret (seed', (3, n)) /\ seed_ok pr seed' /\
    stages Fl n (auto_stages samples) /\ Forall (trainable Fl) n /\
    N.of_nat (net_params_len Fl n) = (161 * N.of_nat samples + 5328)%N.
Proof.
  clear Hq. intros samples seed SN HS. unfold get_auto_encoder.
  destruct (new_dense_ok Fl pr samples 128 RITTanh (XavierGlorotU (samples + 128)) seed HS SN) as (s1 & l1 & E1 & H1 & F1); try discriminate.
  rewrite E1. cbn [obind].
  destruct (new_dense_ok Fl pr 128 32 RITTanh (XavierGlorotU (128 + 32)) s1 H1) as (s2 & l2 & E2 & H2 & F2); try discriminate.
  rewrite E2. cbn [obind].
  destruct (new_dense_ok Fl pr 32 16 RITTanh (XavierGlorotU (32 + 16)) s2 H2) as (s3 & l3 & E3 & H3 & F3); try discriminate.
  rewrite E3. cbn [obind].
  destruct (new_dense_ok Fl pr 16 32 RITTanh (XavierGlorotU (16 + 32)) s3 H3) as (s4 & l4 & E4 & H4 & F4); try discriminate.
  rewrite E4. cbn [obind].
  destruct (new_dense_ok Fl pr 32 samples ActNone (XavierGlorotU (32 + samples)) s4 H4) as (s5 & l5 & E5 & H5 & F5); try discriminate; auto.
  rewrite E5. cbn [obind].
  destruct F1 as (A1 & A2 & A3 & A4 & A5 & A6). destruct F2 as (B1 & B2 & B3 & B4 & B5 & B6).
  destruct F3 as (C1 & C2 & C3 & C4 & C5 & C6). destruct F4 as (D1 & D2 & D3 & D4 & D5 & D6).
  destruct F5 as (G1 & G2 & G3 & G4 & G5 & G6).
  rewrite assemble_ok; [|exact A3 | cbn [chain_ok]; rewrite A5, B4, B5, C4, C5, D4, D5, G4; repeat split; assumption].
  cbn [obind]. exists s5, [l1; l2; l3; l4; l5]. split; [reflexivity|]. split; [exact H5|]. split; [|split].
  - unfold auto_stages. repeat (apply stages_cons; [assumption|]). apply stages_nil.
  - repeat constructor; assumption.
  - rewrite params_sum. cbn [psum fold_right]. rewrite A6, B6, C6, D6, G6. cbn [fst snd]. lia.
Qed.
End Nets.

(** ** Stages *)
Section Stages.
Context (Fl : FloatOps).
Local Notation C := (cplx (F Fl)).

Lemma stages_length : forall n gs, stages Fl n gs -> length gs = length n + 1.
Proof. intros n gs H. induction H; cbn [length] in *; lia. Qed.

Lemma stages_fit : forall n gs, stages Fl n gs -> forall d, fit_all Fl n (nth 0 gs d) (nth (length n) gs d).
Proof. intros n gs H. induction H as [g | l n g g1 gs Hl H IH]; intros d; [constructor|]. cbn [length nth]. econstructor; [exact Hl|]. exact (IH d). Qed.

Lemma stages_arch : forall n gs, stages Fl n gs -> forall n', map (arch_of Fl) n' = map (arch_of Fl) n -> stages Fl n' gs.
Proof.
  intros n gs H. induction H as [g | l n g g1 gs Hl H IH]; intros [|l' n'] E; try discriminate; [constructor|].
  cbn [map] in E. constructor; [eapply fits_arch; [|exact Hl]; congruence | apply IH; congruence].
Qed.

Lemma stages_trace : forall p n gs, stages Fl n gs -> forall x d, has_geom (nth 0 gs d) x ->
  exists vs, trace Fl p n x vs /\ forall k, k <= length n -> has_geom (nth k gs d) (nth k vs x).
Proof.
  intros p n gs H. induction H as [g | l n g g1 gs Hl H IH]; intros x d X.
  - exists [x]. split; [constructor|]. intros [|k] K; [exact X|cbn in K; lia].
  - destruct (layer_total Fl p l g g1 x Hl X) as (y & E & Y). destruct (IH y d Y) as (vs & T & HV).
    exists (x :: vs). split; [econstructor; eassumption|]. intros [|k] K; [exact X|]. cbn [nth length] in *.
    replace (nth k vs x) with (nth k vs y); [apply HV; lia|]. apply nth_indep.
    destruct (C50_composition Fl p n y vs) as (CC & _). destruct (CC T) as (L & _). lia.
Qed.

Lemma stages_intercept : forall p n gs x d k, stages Fl n gs -> has_geom (nth 0 gs d) x -> k < length n ->
  exists y l, net_intercept Fl p n x k = Ret (Ok (y, l)) /\ has_geom (nth k gs d) y.
Proof.
  intros p n gs x d k H X K. destruct (stages_trace p n gs H x d X) as (vs & T & HV).
  destruct (C50_agree Fl p n x) as [(us & T' & L & _ & _ & HI)|(NT & _)].
  - intros ->. cbn in K. lia.
  - assert (us = vs).
    { destruct (C50_composition Fl p n x us) as (C1 & _). destruct (C50_composition Fl p n x vs) as (C2 & _).
      clear - T T'. revert us T'. induction T as [x|l ls x y vs E T IH]; intros us T'; inversion T' as [|? ? ? y' us' E' T'']; subst; [reflexivity|].
      assert (y' = y) by congruence. subst. f_equal. now apply IH. }
    subst us. destruct (nth_error n k) as [l|] eqn:E; [|apply nth_error_None in E; lia].
    exists (nth k vs x), l. split; [now apply HI|]. apply HV. lia.
  - exfalso. exact (NT vs T).
Qed.
End Stages.

(** ** Sweeps *)
Section Sweeps.
Context (Fl : FloatOps) (pr : profile).
Local Notation C := (cplx (F Fl)).
Hypothesis Hpx : forall b, (b < 256)%N -> px_cplx Fl b = Ret (cbyte Fl b).
Hypothesis Hpred : forall k, k < 10 -> c_gen_pred Fl 10 k Sparse = Ret (Ok (set_nth (repeat (c_default Fl) 10) k (c_unit Fl))).
Hypothesis Hrate : forall k (lr : C), k <> 0 -> exists s, c_div Fl lr (c_of_nat Fl k) = Ret s.
Local Notation pt := (pt (cbyte Fl) (c_default Fl) (c_unit Fl)).
Local Notation image := (Maps 1 28 28).

Fixpoint cut (size batches : nat) (rs : list mrec) : list (dataset C C) :=
  match batches with
  | 0 => []
  | S b => ds_of (map pt (firstn size rs)) :: cut size b (skipn size rs)
  end.

Lemma cut_slices : forall size batches rs, Forall good_rec rs -> batches * size <= length rs -> slices Fl rs size (cut size batches rs).
Proof.
  intros size. induction batches as [|b IH]; intros rs G L k d E; [destruct k; discriminate|].
  destruct k as [|k]; cbn [cut nth_error] in E.
  - injection E as <-. rewrite Nat.mul_0_l. cbn [skipn]. destruct (C58_history (map pt (firstn size rs))) as (_ & _ & _ & H).
    unfold ds_points_iter in H. destruct H as (H1 & H2 & H3). rewrite map_length, firstn_length in H2, H3.
    split; [lia|]. split; [lia|]. unfold points, ds_points_iter. cbn [fst snd]. rewrite H1. apply pts_show. now apply Forall_firstn.
  - destruct (IH (skipn size rs)) with (k := k) (d := d) as (A & B & D); [now apply Forall_skipn | rewrite skipn_length; lia | exact E |].
    split; [exact A|]. split; [exact B|]. rewrite skipn_add in D. exact D.
Qed.

Lemma cut_length : forall size batches rs, length (cut size batches rs) = batches.
Proof. intros size. induction batches as [|b IH]; intros rs; cbn; [reflexivity|]. now rewrite IH. Qed.

Lemma pt_geom : forall r, good_rec r -> has_geom image (fst (pt r)) /\ target_for (Vec 10) (snd (pt r)).
Proof.
  intros r (L & B & H). split.
  - cbn [fst]. split; [reflexivity|]. intros m [<-|[]]. split; [|split; reflexivity]. unfold wf. cbn [body from_body sh0 sh1]. now rewrite map_length, L.
  - unfold MnistFacts.pt. cbn [snd target_for]. rewrite set_nth_length, repeat_length. lia.
Qed.

Lemma combine_parts : forall {A B} (a : list A) (b : list B) l, length a = length b -> combine a b = l -> a = map fst l /\ b = map snd l.
Proof.
  intros A B a. induction a as [|x a IH]; intros [|y b] l L <-; try discriminate; [auto|]. cbn [combine map fst snd].
  destruct (IH b _ (f_equal pred L) eq_refl) as (E1 & E2). split; f_equal; assumption.
Qed.

Lemma batch_ok : forall rs, Forall good_rec rs -> batch_for Fl image (Vec 10) (ds_of (map pt rs)).
Proof.
  intros rs G. destruct (C58_history (map pt rs)) as (_ & _ & _ & H). unfold ds_points_iter in H. destruct H as (H1 & H2 & H3).
  rewrite <- H3 in H2. destruct (combine_parts _ _ _ H2 H1) as (E1 & E2).
  split; [congruence|]. rewrite E1, E2, !map_map. split; intros x Hx; apply in_map_iff in Hx as (r & <- & Hr);
    apply pt_geom; now apply (proj1 (Forall_forall _ _) G).
Qed.

Definition ready (n : network Fl) : Prop := 2 <= length n /\ fit_all Fl n image (Vec 10) /\ Forall (trainable Fl) n.

Lemma step_ok : forall train f size n df lf t l0 a0 k df' lf' t' rs, ready n -> Forall good_rec rs -> rs <> [] ->
  minist_as_complex_batch Fl df lf size t = Ret (df', lf', t', ds_of (map pt rs)) ->
  exists n1 l a, class_step Fl train f size (mkSweep Fl n df lf t l0 a0) k = Ret (mkSweep Fl n1 df' lf' t' (fadd Fl l0 l) (fadd Fl a0 a)) /\
    ready n1 /\ net_loss Fl P32 n (ds_of (map pt rs)) f = Ret (Ok l) /\ net_max_pred_test Fl P32 n (ds_of (map pt rs)) = Ret a /\
    match train with Some lr => net_gradient_opt Fl P32 n (ds_of (map pt rs)) f lr = Ret (n1, Ok tt) | None => n1 = n end.
Proof.
  intros train f size n df lf t l0 a0 k df' lf' t' rs (L2 & FA & TR) G NE E. unfold class_step. cbn [sw_df sw_lf sw_net sw_tracker sw_loss sw_acc].
  rewrite E. cbn [obind]. assert (NN : n <> []) by (intros ->; cbn in L2; lia).
  pose proof (batch_ok rs G) as B. set (d := ds_of (map pt rs)) in *.
  assert (LD : length (ds_inputs d) = length rs).
  { unfold d. destruct (C58_history (map pt rs)) as (X & _). unfold ds_n_points in X. now rewrite map_length in X. }
  clearbody d. assert (DN : ds_inputs d <> []) by (intros Z; rewrite Z in LD; destruct rs; [congruence|discriminate]).
  destruct (loss_total Fl P32 n _ _ d f NN FA B DN) as (l & EL). rewrite EL. cbn [obind unwrap].
  destruct (accuracy_total Fl P32 n _ _ d NN FA B) as (a & EA). rewrite EA. cbn [obind].
  destruct train as [lr|].
  - destruct (Hrate (length (ds_inputs d)) lr) as (s & HS); [destruct (ds_inputs d); [congruence|discriminate]|].
    destruct (training_total Fl P32 n _ _ d f lr s L2 FA TR B HS) as (n1 & E1 & F1 & T1 & L1). rewrite E1. cbn [obind unwrap].
    exists n1, l, a. split; [reflexivity|]. split; [unfold ready; repeat split; auto; lia|]. auto.
  - cbn [obind]. exists n, l, a. repeat split; auto.
Qed.

Lemma sweep_ok : forall train f size batches k0 n rs t l0 a0, 0 < size -> ready n -> Forall good_rec rs -> batches * size <= length rs ->
  (8 <= t)%N -> (t + N.of_nat (batches * size) <= 60008)%N ->
  exists n' ls accs df lf t', foldM (class_step Fl train f size) (seq k0 batches) (mkSweep Fl n (imgs rs) (labs rs) t l0 a0)
     = Ret (mkSweep Fl n' df lf t' (fold_left (fadd Fl) ls l0) (fold_left (fadd Fl) accs a0)) /\
   visits Fl train f n (cut size batches rs) n' ls accs /\ ready n'.
Proof.
  intros train f size. induction batches as [|b IH]; intros k0 n rs t l0 a0 SZ RD G L T8 TB.
  - exists n, [], [], (imgs rs), (labs rs), t. split; [reflexivity|]. split; [constructor|exact RD].
  - cbn [seq foldM]. assert (LS : size <= length rs) by lia.
    assert (E : minist_as_complex_batch Fl (imgs rs) (labs rs) size t =
      Ret (imgs (skipn size rs), labs (skipn size rs), (t + N.of_nat size)%N, ds_of (map pt (firstn size rs)))).
    { unfold minist_as_complex_batch. rewrite later_call by lia.
      rewrite (loop_enough _ _ (cbyte Fl) (c_default Fl) (c_unit Fl) Hpx Hpred); [reflexivity|reflexivity|assumption|lia|intros; lia]. }
    assert (NE : firstn size rs <> []).
    { intros X. apply (f_equal (@length _)) in X. rewrite firstn_length in X. cbn in X. lia. }
    destruct (step_ok train f size n (imgs rs) (labs rs) t l0 a0 k0 _ _ _ (firstn size rs) RD (Forall_firstn _ _ _ G) NE E)
      as (n1 & l & a & ES & R1 & EL & EA & ET).
    rewrite ES. cbn [obind].
    destruct (IH (S k0) n1 (skipn size rs) (t + N.of_nat size)%N (fadd Fl l0 l) (fadd Fl a0 a)) as (n' & ls & accs & df & lf & t' & EF & V & R'); auto.
    { now apply Forall_skipn. } { rewrite skipn_length. lia. } { lia. } { lia. }
    exists n', (l :: ls), (a :: accs), df, lf, t'. split; [exact EF|]. split; [|exact R']. cbn [cut]. econstructor; eassumption.
Qed.

Lemma visits_length : forall train f n ds n' ls accs, visits Fl train f n ds n' ls accs -> length ls = length ds /\ length accs = length ds.
Proof. intros train f n ds n' ls accs H. induction H; cbn [length]; [auto|]. lia. Qed.

Lemma visits_same : forall f n ds n' ls accs, visits Fl None f n ds n' ls accs -> n' = n.
Proof. intros f n ds n' ls accs H. induction H; [reflexivity|]. congruence. Qed.

Lemma class_sweep_ok : forall train f size batches hd hl rs n, 0 < size -> ready n -> length hd = 16 -> length hl = 8 -> Forall record_ok rs ->
  batches * size <= length rs -> (N.of_nat (batches * size) <= 60000)%N ->
  exists n' ls accs, class_sweep Fl train f batches size (image_file hd rs) (label_file hl rs) n = Ret (n', mean Fl ls, mean Fl accs) /\
    visits Fl train f n (cut size batches rs) n' ls accs /\ ready n'.
Proof.
  intros train f size batches hd hl rs n SZ RD H1 H2 G L B. apply rec_good in G. unfold class_sweep.
  destruct (sweep_ok train f size batches 0 n rs 8%N (fzero Fl) (fzero Fl)) as (n' & ls & accs & df & lf & t' & E & V & R'); auto; [lia|lia|].
  exists n', ls, accs. split; [|auto]. destruct (visits_length _ _ _ _ _ _ _ V) as (L1 & L2). rewrite cut_length in L1, L2.
  assert (X : exists st, foldM (class_step Fl train f size) (seq 0 batches) (mkSweep Fl n (image_file hd rs) (label_file hl rs) 0 (fzero Fl) (fzero Fl)) = Ret st /\
     sw_net st = n' /\ sw_loss st = fold_left (fadd Fl) ls (fzero Fl) /\ sw_acc st = fold_left (fadd Fl) accs (fzero Fl)).
  { destruct batches as [|b].
    - cbn [seq foldM] in E |- *. injection E as <- _ _ _ E1 E2. eexists. split; [reflexivity|]. cbn [sw_net sw_loss sw_acc]. auto.
    - eexists. split; [refine (eq_trans _ E) | split; [|split]; reflexivity]. cbn [seq foldM]. f_equal.
      unfold class_step. cbn [sw_df sw_lf sw_net sw_tracker sw_loss sw_acc]. unfold minist_as_complex_batch. now rewrite header_call. }
  destruct X as (st & E0 & E1 & E2 & E3). rewrite E0. cbn [obind]. rewrite E1, E2, E3. unfold mean. now rewrite L1, L2.
Qed.

Lemma class_pipeline_ok : forall f lr size trb teb hd hl rs hd' hl' rs' epochs n, 0 < size -> ready n ->
  length hd = 16 -> length hl = 8 -> Forall record_ok rs -> length hd' = 16 -> length hl' = 8 -> Forall record_ok rs' ->
  trb * size <= length rs -> (N.of_nat (trb * size) <= 60000)%N -> teb * size <= length rs' -> (N.of_nat (teb * size) <= 60000)%N ->
  exists n' trl tra tel tea,
    class_pipeline Fl n f lr epochs trb teb size (image_file hd rs) (label_file hl rs) (image_file hd' rs') (label_file hl' rs')
      = Ret (n', (trl, tra), (tel, tea)) /\
    epochs_run Fl f lr (cut size trb rs) (cut size teb rs') epochs n n' trl tra tel tea /\ ready n'.
Proof.
  intros f lr size trb teb hd hl rs hd' hl' rs' epochs n SZ RD H1 H2 G H1' H2' G' B1 B2 B1' B2'. unfold class_pipeline.
  assert (X : forall epochs k0 n trl tra tel tea, ready n -> exists n' xl xa yl ya,
    foldM (class_epoch Fl f lr trb teb size (image_file hd rs) (label_file hl rs) (image_file hd' rs') (label_file hl' rs')) (seq k0 epochs) (n, (trl, tra), (tel, tea))
      = Ret (n', (trl ++ xl, tra ++ xa), (tel ++ yl, tea ++ ya)) /\ epochs_run Fl f lr (cut size trb rs) (cut size teb rs') epochs n n' xl xa yl ya /\ ready n').
  { clear n RD epochs. induction epochs as [|e IH]; intros k0 n trl tra tel tea RD.
    - exists n, [], [], [], []. split; [cbn; now rewrite !app_nil_r|]. split; [constructor|exact RD].
    - cbn [seq foldM]. unfold class_epoch at 1.
      destruct (class_sweep_ok (Some lr) f size trb hd hl rs n) as (n1 & ls & accs & E & V & R1); auto. rewrite E. cbn [obind].
      destruct (class_sweep_ok None f size teb hd' hl' rs' n1) as (n2 & ls' & accs' & E' & V' & R2); auto. rewrite E'. cbn [obind].
      pose proof (visits_same _ _ _ _ _ _ V'). subst n2.
      destruct (IH (S k0) n1 (trl ++ [mean Fl ls]) (tra ++ [mean Fl accs]) (tel ++ [mean Fl ls']) (tea ++ [mean Fl accs']) R1)
        as (n' & xl & xa & yl & ya & EF & RN & R').
      exists n', (mean Fl ls :: xl), (mean Fl accs :: xa), (mean Fl ls' :: yl), (mean Fl accs' :: ya).
      split; [rewrite EF, <- !app_assoc; reflexivity|]. split; [econstructor; eassumption|exact R']. }
  destruct (X epochs 0 n [] [] [] [] RD) as (n' & xl & xa & yl & ya & E & RN & R'). exists n', xl, xa, yl, ya. auto.
Qed.

Lemma features_ok : forall n gs d hd hl rs, stages Fl n gs -> nth 0 gs d = image -> 3 < length n ->
  length hd = 16 -> length hl = 8 -> Forall record_ok rs -> 60 <= length rs ->
  forall c1 r1 k1 c3 r3 k3, nth 1 gs d = Maps c1 r1 k1 -> nth 3 gs d = Maps c3 r3 k3 ->
  exists x1 y1 x2 y2 a b c e l1 l3 l1' l3',
    extract_features Fl n (image_file hd rs) (label_file hl rs) = Ret [a; b; c; e] /\
    shows (cbyte Fl) (c_default Fl) (c_unit Fl) (nth 18 rs black) (x1, y1) /\ shows (cbyte Fl) (c_default Fl) (c_unit Fl) (nth 58 rs black) (x2, y2) /\
    net_intercept Fl P32 n x1 1 = Ret (Ok (IOMatrix a, l1)) /\ net_intercept Fl P32 n x1 3 = Ret (Ok (IOMatrix b, l3)) /\
    net_intercept Fl P32 n x2 1 = Ret (Ok (IOMatrix c, l1')) /\ net_intercept Fl P32 n x2 3 = Ret (Ok (IOMatrix e, l3')) /\
    maps_wf c1 r1 k1 a /\ maps_wf c3 r3 k3 b /\ maps_wf c1 r1 k1 c /\ maps_wf c3 r3 k3 e.
Proof.
  intros n gs d hd hl rs ST G0 L3 H1 H2 G L60 c1 r1 k1 c3 r3 k3 G1 G3. apply rec_good in G.
  assert (FE : forall r k c0 r0 k0, good_rec r -> k < length n -> nth k gs d = Maps c0 r0 k0 ->
    exists ms l, features Fl n (fst (pt r)) k = Ret ms /\ net_intercept Fl P32 n (fst (pt r)) k = Ret (Ok (IOMatrix ms, l)) /\ maps_wf c0 r0 k0 ms).
  { intros r k c0 r0 k0 GR K GK. destruct (stages_intercept Fl P32 n gs (fst (pt r)) d k ST) as (y & l & E & Y); [rewrite G0; now apply pt_geom | exact K |].
    rewrite GK in Y. destruct y as [v|ms]; [contradiction|]. exists ms, l. unfold features. rewrite E. cbn [obind unwrap fst]. auto. }
  assert (NR : forall i, i < 60 -> good_rec (nth i rs black) /\ nth_error (map pt (firstn 60 rs)) i = Some (pt (nth i rs black))).
  { intros i Hi. assert (LI : i < length rs) by lia. split; [apply (proj1 (Forall_forall _ _) G); now apply nth_In|].
    rewrite nth_error_map. assert (Z : nth_error (firstn 60 rs) i = Some (nth i rs black)); [|now rewrite Z].
    rewrite (nth_error_nth' (firstn 60 rs) black) by (rewrite firstn_length; lia). f_equal.
    rewrite <- (firstn_skipn 60 rs) at 2. rewrite app_nth1; [reflexivity|]. rewrite firstn_length. lia. }
  destruct (NR 18) as (A1 & A2); [lia|]. destruct (NR 58) as (B1 & B2); [lia|].
  destruct (FE _ 1 _ _ _ A1 ltac:(lia) G1) as (a & la & E1 & E1' & M1). destruct (FE _ 3 _ _ _ A1 ltac:(lia) G3) as (b & lb & E2 & E2' & M2).
  destruct (FE _ 1 _ _ _ B1 ltac:(lia) G1) as (c & lc & E3 & E3' & M3). destruct (FE _ 3 _ _ _ B1 ltac:(lia) G3) as (e & le & E4 & E4' & M4).
  exists (fst (pt (nth 18 rs black))), (snd (pt (nth 18 rs black))), (fst (pt (nth 58 rs black))), (snd (pt (nth 58 rs black))), a, b, c, e, la, lb, lc, le.
  split; [|repeat (split; [first [assumption | rewrite <- surjective_pairing; now apply pt_shows]|]); assumption].
  unfold extract_features, minist_as_complex_batch. rewrite header_call by assumption. rewrite later_call by discriminate.
  rewrite (loop_enough _ _ (cbyte Fl) (c_default Fl) (c_unit Fl) Hpx Hpred); [|reflexivity|assumption|lia|intros; lia]. cbn [obind].
  change (fold_left ds_add_point (map pt (firstn 60 rs)) ds_new) with (ds_of (map pt (firstn 60 rs))).
  destruct (C58_history (map pt (firstn 60 rs))) as (_ & GP & _).
  rewrite (GP 18 _ A2). cbn [obind]. rewrite (GP 58 _ B2). cbn [obind].
  set (p18 := pt (nth 18 rs black)) in *. set (p58 := pt (nth 58 rs black)) in *.
  rewrite (surjective_pairing p18), (surjective_pairing p58). cbv iota beta.
  assert (I1 : exists m, fst p18 = IOMatrix [m]) by (eexists; reflexivity). assert (I2 : exists m, fst p58 = IOMatrix [m]) by (eexists; reflexivity).
  clearbody p18 p58. rewrite E1, E2, E3, E4. destruct I1 as (m1 & ->). destruct I2 as (m2 & ->). reflexivity.
Qed.
End Sweeps.

(** ** Single precision *)
From Flocq Require Import BinarySingleNaN.
From Verif Require Import RFloat BFloat PropRandom PropGeom.

Section F32.
Context (L : libm b32).
Local Notation Fl := (B32Ops L).

Lemma px32 : forall b, (b < 256)%N -> px_cplx Fl b = Ret (cbyte Fl b).
Proof.
  apply (px_cplx_B 24 128 prec24 emax128). apply all_bytes. vm_compute. reflexivity.
Qed.

Lemma pred32 : forall k, k < 10 -> c_gen_pred Fl 10 k Sparse = Ret (Ok (set_nth (repeat (c_default Fl) 10) k (c_unit Fl))).
Proof.
  assert (E : fadd Fl (fzero Fl) (fone Fl) = fone Fl) by (apply B2SF_inj; vm_compute; reflexivity).
  assert (Z : fadd Fl (fzero Fl) (fzero Fl) = fzero Fl) by reflexivity.
  apply (pred_generic (c_default Fl) (c_unit Fl) (c_unit Fl) (c_add_assign Fl)).
  unfold c_add_assign, c_default, c_unit. cbn [re im]. now rewrite E, Z.
Qed.

Lemma rate32 : forall k (lr : cplx (F Fl)), k <> 0 -> exists s, c_div Fl lr (c_of_nat Fl k) = Ret s.
Proof. intros k lr H. destruct (C62_rate k H) as (_ & R & _). apply R. Qed.

Lemma avg32 : forall b : list (cplx (F Fl)), length b = 4 -> exists v, avg_block Fl b = Ret v.
Proof. intros b H. unfold avg_block. rewrite H. apply rate32. discriminate. Qed.
End F32.

(** ** The statements of the properties *)
Lemma stages_values : forall Fl p n gs x g, stages Fl n gs -> n <> [] -> has_geom (nth 0 gs g) x ->
  (forall k, k < length n -> exists y l, net_intercept Fl p n x k = Ret (Ok (y, l)) /\ has_geom (nth k gs g) y) /\
  exists y, net_forward Fl p n x = Ret (Ok y) /\ has_geom (nth (length n) gs g) y.
Proof.
  intros Fl p n gs x g H NE X. split.
  - intros k K. eapply stages_intercept; eassumption.
  - eapply forward_total; [exact NE| |exact X]. now apply stages_fit.
Qed.

Lemma train_on_trained : forall Fl p f lr ds n0 n n', trained Fl p n0 n -> train_on Fl p n ds f lr = Ret n' -> trained Fl p n0 n'.
Proof.
  intros Fl p f lr ds. induction ds as [|d ds IH]; intros n0 n n' T E; cbn [train_on] in E; [injection E as <-; exact T|].
  apply obind_inv in E as ((n1 & r) & E1 & E). cbn [fst snd] in E. destruct r as [u|e]; [|discriminate]. destruct u.
  eapply IH; [|exact E]. econstructor; eassumption.
Qed.

Lemma stages_trained : forall Fl p n gs g f lr ds, stages Fl n gs -> 2 <= length n -> Forall (trainable Fl) n ->
  (forall d, In d ds -> batch_for Fl (nth 0 gs g) (nth (length n) gs g) d /\ exists s, c_div Fl lr (c_of_nat Fl (length (ds_inputs d))) = Ret s) ->
  exists n', train_on Fl p n ds f lr = Ret n' /\ stages Fl n' gs /\ Forall (trainable Fl) n' /\ length n' = length n /\
    net_params_len Fl n' = net_params_len Fl n.
Proof.
  intros Fl p n gs g f lr ds H L2 TR HD.
  destruct (train_on_total Fl p _ _ f lr ds n L2 (stages_fit Fl n gs H g) TR HD) as (n' & E & _ & TR' & L).
  exists n'. assert (T : trained Fl p n n') by (eapply train_on_trained; [constructor|exact E]).
  split; [exact E|]. split; [|split; [exact TR'|split; [exact L|]]].
  - eapply stages_arch; [exact H|]. now apply (C52_history Fl p n n' T).
  - now apply (C52_observed Fl p n n' T).
Qed.

Lemma visits_trained : forall Fl f lr n0 n ds n' ls accs, visits Fl (Some lr) f n ds n' ls accs -> trained Fl P32 n0 n -> trained Fl P32 n0 n'.
Proof. intros Fl f lr n0 n ds n' ls accs H. induction H; intros T; [exact T|]. apply IHvisits. econstructor; eassumption. Qed.

Lemma run_trained : forall Fl f lr tr te k n n' trl tra tel tea, epochs_run Fl f lr tr te k n n' trl tra tel tea ->
  forall n0, trained Fl P32 n0 n -> trained Fl P32 n0 n'.
Proof. intros Fl f lr tr te k n n' trl tra tel tea H. induction H; intros n0 T; [exact T|]. apply IHepochs_run. eapply visits_trained; eassumption. Qed.

Lemma run_lengths : forall Fl f lr tr te epochs n n' trl tra tel tea, epochs_run Fl f lr tr te epochs n n' trl tra tel tea ->
  length trl = epochs /\ length tra = epochs /\ length tel = epochs /\ length tea = epochs.
Proof. intros Fl f lr tr te k n n' trl tra tel tea H. induction H; cbn [length]; [auto|]. lia. Qed.

Section Statements32.
Context (L : libm b32).
Local Notation Fl := (B32Ops L).

Lemma cnn_features : forall n hd hl rs,
  stages Fl n [Maps 1 28 28; Maps 8 26 26; Maps 8 13 13; Maps 16 11 11; Vec (11 * 11 * 16); Vec 16; Vec 10] ->
  length hd = 16 -> length hl = 8 -> Forall record_ok rs -> 60 <= length rs ->
  exists x1 y1 x2 y2 a b c e l1 l3 l1' l3',
    extract_features Fl n (image_file hd rs) (label_file hl rs) = Ret [a; b; c; e] /\
    shows (cbyte Fl) (c_default Fl) (c_unit Fl) (nth 18 rs black) (x1, y1) /\
    shows (cbyte Fl) (c_default Fl) (c_unit Fl) (nth 58 rs black) (x2, y2) /\
    net_intercept Fl P32 n x1 1 = Ret (Ok (IOMatrix a, l1)) /\ net_intercept Fl P32 n x1 3 = Ret (Ok (IOMatrix b, l3)) /\
    net_intercept Fl P32 n x2 1 = Ret (Ok (IOMatrix c, l1')) /\ net_intercept Fl P32 n x2 3 = Ret (Ok (IOMatrix e, l3')) /\
    maps_wf 8 26 26 a /\ maps_wf 16 11 11 b /\ maps_wf 8 26 26 c /\ maps_wf 16 11 11 e.
Proof.
  intros n hd hl rs ST H1 H2 G L60. pose proof (stages_length Fl _ _ ST) as LN. cbn [length] in LN.
  eapply (features_ok Fl (px32 L) (pred32 L) n _ (Vec 0)); [exact ST|reflexivity|lia|assumption|assumption|assumption|assumption|reflexivity|reflexivity].
Qed.

Lemma sweep_32 : forall train f size batches hd hl rs n,
  0 < size -> 2 <= length n -> fit_all Fl n (Maps 1 28 28) (Vec 10) -> Forall (trainable Fl) n ->
  length hd = 16 -> length hl = 8 -> Forall record_ok rs -> batches * size <= length rs -> (N.of_nat (batches * size) <= 60000)%N ->
  exists ds n' ls accs,
    class_sweep Fl train f batches size (image_file hd rs) (label_file hl rs) n = Ret (n', mean Fl ls, mean Fl accs) /\
    length ds = batches /\ slices Fl rs size ds /\ visits Fl train f n ds n' ls accs.
Proof.
  intros train f size batches hd hl rs n SZ L2 FA TR H1 H2 G B1 B2.
  destruct (class_sweep_ok Fl (px32 L) (pred32 L) (rate32 L) train f size batches hd hl rs n) as (n' & ls & accs & E & V & _); auto.
  { repeat split; assumption. }
  exists (cut Fl size batches rs), n', ls, accs. split; [exact E|]. split; [apply cut_length|]. split; [|exact V].
  apply cut_slices; [now apply rec_good|exact B1].
Qed.

Lemma pipeline_32 : forall f lr size trb teb hd hl rs hd' hl' rs' epochs n,
  0 < size -> 2 <= length n -> fit_all Fl n (Maps 1 28 28) (Vec 10) -> Forall (trainable Fl) n ->
  length hd = 16 -> length hl = 8 -> Forall record_ok rs -> trb * size <= length rs -> (N.of_nat (trb * size) <= 60000)%N ->
  length hd' = 16 -> length hl' = 8 -> Forall record_ok rs' -> teb * size <= length rs' -> (N.of_nat (teb * size) <= 60000)%N ->
  exists tr te n' trl tra tel tea,
    class_pipeline Fl n f lr epochs trb teb size (image_file hd rs) (label_file hl rs) (image_file hd' rs') (label_file hl' rs')
      = Ret (n', (trl, tra), (tel, tea)) /\
    length tr = trb /\ slices Fl rs size tr /\ length te = teb /\ slices Fl rs' size te /\
    epochs_run Fl f lr tr te epochs n n' trl tra tel tea.
Proof.
  intros f lr size trb teb hd hl rs hd' hl' rs' epochs n SZ L2 FA TR H1 H2 G B1 B2 H1' H2' G' B1' B2'.
  destruct (class_pipeline_ok Fl (px32 L) (pred32 L) (rate32 L) f lr size trb teb hd hl rs hd' hl' rs' epochs n)
    as (n' & trl & tra & tel & tea & E & R & _); auto.
  { repeat split; assumption. }
  exists (cut Fl size trb rs), (cut Fl size teb rs'), n', trl, tra, tel, tea. split; [exact E|].
  split; [apply cut_length|]. split; [apply cut_slices; [now apply rec_good|exact B1]|].
  split; [apply cut_length|]. split; [apply cut_slices; [now apply rec_good|exact B1']|]. exact R.
Qed.

Lemma program_32 : forall pr seed f lr epochs hd hl rs hd' hl' rs', seed_ok pr seed ->
  length hd = 16 -> length hl = 8 -> Forall record_ok rs -> N.of_nat (length rs) = 60000%N ->
  length hd' = 16 -> length hl' = 8 -> Forall record_ok rs' -> N.of_nat (length rs') = 10000%N ->
  let run n := class_pipeline Fl n f lr epochs 600 100 100 (image_file hd rs) (label_file hl rs) (image_file hd' rs') (label_file hl' rs') in
  (exists seed' n r, get_fully_connected_cvnn Fl pr seed = Ret (seed', (0, n)) /\ run n = Ret r) /\
  (exists seed' n n' curves tcurves maps, get_2conv_layer_cvcnn Fl pr seed = Ret (seed', (2, n)) /\ run n = Ret (n', curves, tcurves) /\
     extract_features Fl n' (image_file hd rs) (label_file hl rs) = Ret maps).
Proof.
  intros pr seed f lr epochs hd hl rs hd' hl' rs' HS H1 H2 G N1 H1' H2' G' N2 run.
  assert (R : forall n gs, stages Fl n gs -> nth 0 gs (Vec 0) = Maps 1 28 28 -> nth (length n) gs (Vec 0) = Vec 10 -> 2 <= length n ->
    Forall (trainable Fl) n -> exists n' a b, run n = Ret (n', a, b) /\ stages Fl n' gs).
  { intros n gs ST G0 G1 L2 TR. pose proof (stages_fit Fl n gs ST (Vec 0)) as FA. rewrite G0, G1 in FA.
    destruct (pipeline_32 f lr 100 600 100 hd hl rs hd' hl' rs' epochs n) as (tr & te & n' & trl & tra & tel & tea & E & _ & _ & _ & _ & R);
      try assumption; try lia.
    exists n', (trl, tra), (tel, tea). split; [exact E|]. eapply stages_arch; [exact ST|].
    apply (C52_history Fl P32 n n'). eapply run_trained; [exact R|constructor]. }
  split.
  - destruct (fc_ok Fl pr seed HS) as (s' & n & E & _ & ST & TR & _). exists s', n.
    pose proof (stages_length Fl _ _ ST) as LN. cbn [length fc_stages] in LN.
    assert (LN5 : length n = 5) by (clear - LN; cbn in LN; lia).
    destruct (R n _ ST) as (n' & a & b & ER & _); [reflexivity|now rewrite LN5|lia|exact TR|]. exists (n', a, b). auto.
  - destruct (cnn_ok Fl pr (avg32 L) seed HS) as (s' & n & E & _ & ST & TR & _). exists s', n.
    pose proof (stages_length Fl _ _ ST) as LN.
    assert (LN6 : length n = 6) by (clear - LN; cbn in LN; lia).
    destruct (R n _ ST) as (n' & a & b & ER & ST'); [reflexivity|now rewrite LN6|lia|exact TR|].
    destruct (cnn_features n' hd hl rs ST' H1 H2 G) as (x1 & y1 & x2 & y2 & q1 & q2 & q3 & q4 & l1 & l3 & l1' & l3' & EF & _); [lia|].
    exists n', a, b, [q1; q2; q3; q4]. auto.
Qed.
End Statements32.

(** A learning curve in its file. *)
Lemma curve_file : forall Fl (show : F Fl -> String.string) epochs curve,
  matrix_csv_pieces show (curve_column Fl epochs curve) =
    Ret (flat_map (fun v => [String.append (show v) (String.String (Ascii.ascii_of_nat 44) String.EmptyString); line_feed]) curve).
Proof.
  intros Fl show epochs curve. unfold matrix_csv_pieces, curve_column. cbn [from_body body sh1].
  replace curve with (concat (map (fun v => [v]) curve)) at 1.
  - rewrite chunks_concat; [|discriminate|].
    + cbn [obind]. f_equal. induction curve as [|v curve IH]; [reflexivity|]. cbn [map flat_map]. rewrite IH. reflexivity.
    + apply Forall_forall. intros l H. apply in_map_iff in H as (v & <- & _). reflexivity.
  - induction curve as [|v curve IH]; [reflexivity|]. cbn [map concat app]. now rewrite IH.
Qed.

Lemma assemble_built : forall Fl first rest n, assemble Fl first rest = Ret n <->
  built Fl (AddInput Fl first :: map (Add Fl) rest) (Ok tt :: map (fun _ => Ok tt) rest) n.
Proof.
  intros Fl first rest. induction rest as [|l rest IH] using rev_ind; intros n.
  - unfold assemble. cbn [map foldM]. destruct (net_add_input Fl (net_new Fl) first) as (m & r) eqn:E. split.
    + intros H. apply obind_inv in H as (u & H1 & H2). destruct r as [[]|r]; [|discriminate]. assert (m = n) as -> by congruence.
      apply (built_snoc Fl [] [] (net_new Fl) (AddInput Fl first) n (Ok tt)); [constructor|]. cbn [build_call]. now rewrite E.
    + intros H. inversion H as [|os rs m' o n' r' HB HC]; subst.
      destruct os as [|a os]; [|destruct os; discriminate]. destruct rs as [|b rs]; [|destruct rs; discriminate].
      match goal with H : [] ++ [_] = _ |- _ => cbn in H; injection H as -> end.
      match goal with H : [] ++ [_] = _ |- _ => cbn in H; injection H as -> end.
      inversion HB as [Q|os2 rs2 ? ? ? ? ? ? Q]; [|destruct os2; discriminate]. subst. cbn [build_call] in HC. rewrite E in HC.
      assert (m = n /\ r = Ok tt) as (-> & ->) by (split; congruence). reflexivity.
  - assert (EA : assemble Fl first (rest ++ [l]) = obind (assemble Fl first rest) (fun m => add_unwrap Fl m l)).
    { unfold assemble. destruct (net_add_input Fl (net_new Fl) first) as (m & r). destruct r as [[]|r]; cbn [unwrap obind]; [|reflexivity].
      rewrite foldM_app. destruct (foldM (add_unwrap Fl) rest m) as [m'|]; [|reflexivity]. cbn [obind foldM]. destruct (add_unwrap Fl m' l); reflexivity. }
    rewrite EA, !map_app. cbn [map]. rewrite !app_comm_cons. split.
    + intros H. apply obind_inv in H as (m & H1 & H2). apply IH in H1. unfold add_unwrap in H2. apply obind_inv in H2 as ((n' & r) & H2 & H3).
      destruct r as [[]|r]; [|discriminate]. assert (n' = n) as -> by (cbn in H3; congruence).
      eapply built_snoc; [exact H1 | exact H2].
    + intros H. inversion H as [|os rs m o n' r HB HC E1 E2]; subst.
      rewrite app_comm_cons in E1, E2. apply app_inj_tail in E1 as (-> & ->). apply app_inj_tail in E2 as (-> & ->).
      apply IH in HB. rewrite HB. cbn [obind]. unfold add_unwrap. cbn [build_call] in HC. rewrite HC. reflexivity.
Qed.
