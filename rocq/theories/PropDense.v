(** * Properties of dense layers and of the parameter update (C39 - C42) *)
From Coq Require Import Reals Lra.
From Coquelicot Require Import Coquelicot.
From Verif Require Import Base BaseFacts Float Matrix Cplx Random Act Input Dense Conv Layer SpecMatrix MatrixFacts
  RFloat CFacts SpecCalculus SpecLayer SpecConv DenseFacts LayerCalc LayerFacts ActFacts PropAct ExOps.
Local Notation P32 := Float.P32.
Local Notation P64 := Float.P64.
Local Notation re := Cplx.re.
Local Notation im := Cplx.im.
Local Open Scope nat_scope.

(** ** C39 *)
Theorem C39_init : forall Fl p pr n u f m seed seed' l,
  dense_init Fl p pr (ShScalar n) u f m seed = Ret (seed', Ok l) ->
  wf (d_weights l) /\ sh0 (d_weights l) = u /\ sh1 (d_weights l) = n /\
  d_biases l = repeat (c_default Fl) u /\ d_func l = f /\
  dense_input_shape Fl l = ShScalar n /\ dense_output_shape Fl l = ShScalar u /\
  dense_params_len Fl l = (u * n, u) /\
  draws (init_gen Fl p pr m) seed (body (d_weights l)) seed'.
Proof.
  intros Fl p pr n u f m seed seed' l H. cbn [dense_init] in H.
  apply obind_inv in H as [[s rows] [E H]].
  assert (E1 : s = seed') by congruence.
  assert (E2 : mkDense Fl (from_body (concat rows) u n) (repeat (c_default Fl) u) f = l) by congruence.
  subst s l. apply gen_n_nested in E as (D & L & Fa). cbn.
  unfold dense_input_shape, dense_output_shape, dense_params_len. cbn. rewrite repeat_length.
  repeat split; auto. unfold wf. cbn. rewrite (concat_length_const n) by auto. now rewrite L.
Qed.
Print Assumptions C39_init.

(** It succeeds for every size and method unless the generator overflows. *)
Theorem C39_total : forall Fl p pr n u f m seed, seed_ok pr seed ->
  exists seed' l, dense_init Fl p pr (ShScalar n) u f m seed = Ret (seed', Ok l) /\ seed_ok pr seed'.
Proof.
  intros Fl p pr n u f m seed H. cbn [dense_init].
  destruct (gen_n_total (seed_ok pr) (gen_n (init_gen Fl p pr m) n) u seed) as (s & rows & E & Hs); [|exact H|].
  - intros s Hs. apply gen_n_total; [|exact Hs]. intros s0 Hs0. now apply init_gen_ok.
  - rewrite E. cbn [obind]. eauto.
Qed.
Print Assumptions C39_total.

Theorem C39_rejects : forall Fl p pr c u f m seed,
  dense_init Fl p pr (ShMatrix c) u f m seed = Ret (seed, Err InvalidInputShape).
Proof. reflexivity. Qed.
Print Assumptions C39_rejects.

Example C39_ex : exists seed' l, dense_init ROps P32 Dev (ShScalar 3) 2 ActNone (Uniform 4) 12345%N = Ret (seed', Ok l).
Proof. destruct (C39_total ROps P32 Dev 3 2 ActNone (Uniform 4) 12345%N) as (s & l & E & _); [right; reflexivity | eauto]. Qed.

(** ** C40 *)
Theorem C40_forward : forall Fl p (l : dense Fl) x, dense_wf Fl l -> length x = inputs Fl l ->
  forall ys, dense_forward Fl p l (IOScalar x) = Ret (Ok (IOScalar ys)) <->
    length ys = units Fl l /\
    forall i, i < units Fl l -> activate Fl p (d_func l) (pre Fl l x i) = Ret (nth i ys (c_default Fl)).
Proof.
  intros Fl p l x W X ys. rewrite dense_forward_ok by auto. split.
  - intros H. apply obind_inv in H as [ys' [E H]]. assert (ys' = ys) by congruence. subst ys'. clear H.
    pose proof (mapM_length _ _ _ E) as Ln. rewrite seq_length in Ln. split; [auto|]. intros i Hi.
    destruct (mapM_nth_inv _ (seq 0 (units Fl l)) ys i i E) as (b & Hb & Eb).
    { rewrite nth_error_seq; [reflexivity | auto]. }
    rewrite Eb. f_equal. symmetry. now apply nth_error_nth.
  - intros [L H]. rewrite (mapM_ret _ (fun i => nth i ys (c_default Fl))).
    + cbn [obind]. rewrite <- L, <- list_eq_map_nth. reflexivity.
    + intros i Hi. apply in_seq in Hi. apply H. lia.
Qed.
Print Assumptions C40_forward.

(** The forward pass returns an error or panics in no other case than the
    activation panicking. *)
Theorem C40_total : forall Fl p (l : dense Fl) x, dense_wf Fl l -> length x = inputs Fl l ->
  (exists ys, dense_forward Fl p l (IOScalar x) = Ret (Ok (IOScalar ys))) \/
  (dense_forward Fl p l (IOScalar x) = Panic /\
   exists i, i < units Fl l /\ activate Fl p (d_func l) (pre Fl l x i) = Panic).
Proof.
  intros Fl p l x W X. rewrite dense_forward_ok by auto.
  destruct (mapM _ _) as [ys|] eqn:E; [left; eexists; reflexivity|]. right. split; [reflexivity|].
  apply mapM_panic_inv in E as (i & Hi & Ei). apply in_seq in Hi. exists i. split; [lia | auto].
Qed.
Print Assumptions C40_total.

Theorem C40_rejects : forall Fl p (l : dense Fl),
  (forall ms, dense_forward Fl p l (IOMatrix ms) = Ret (Err InvalidInput)) /\
  (forall x, length x <> inputs Fl l -> dense_forward Fl p l (IOScalar x) = Panic).
Proof. split; [reflexivity|]. intros. now apply dense_forward_bad. Qed.
Print Assumptions C40_rejects.

Definition ex_dense : dense ZFl :=
  mkDense ZFl (from_body [mkC 1 0; mkC 0 1; mkC 2 0; mkC 3 0]%Z 2 2) [mkC 1 1; mkC 0 0]%Z ActNone.

Example C40_ex : dense_wf ZFl ex_dense /\
  dense_forward ZFl P32 ex_dense (IOScalar [mkC 1 0; mkC 1 1]%Z) = Ret (Ok (IOScalar [mkC 1 2; mkC 5 3]%Z)).
Proof. split; [repeat split; discriminate | reflexivity]. Qed.

(** ** C41 *)
Theorem C41_derivatives : forall Fl p (l : dense Fl) (x g gc : list (cplx (F Fl))) (d dc : nat -> cplx (F Fl)),
  dense_wf Fl l -> length x = inputs Fl l -> length g = units Fl l -> length gc = units Fl l ->
  (forall i, i < units Fl l -> d_activate Fl p (d_func l) (pre Fl l x i) = Ret (d i) /\
                               d_conj_activate Fl p (d_func l) (pre Fl l x i) = Ret (dc i)) ->
  let z := c_default Fl in
  let delta i := c_add Fl (c_mul Fl (d i) (nth i g z)) (c_mul Fl (c_conj Fl (dc i)) (nth i gc z)) in
  exists dw db dx,
    dense_derivatives Fl p l (IOScalar x) g gc = Ret (Ok (dw, db, dx, map (c_conj Fl) dx)) /\
    length dw = units Fl l * inputs Fl l /\ length db = units Fl l /\ length dx = inputs Fl l /\
    (forall i, i < units Fl l -> nth i db z = delta i) /\
    (forall i j, i < units Fl l -> j < inputs Fl l -> nth (i * inputs Fl l + j) dw z = c_mul Fl (nth j x z) (delta i)) /\
    (forall j, j < inputs Fl l ->
       nth j dx z = sum_from (c_add Fl) z (fun i => c_mul Fl (weight Fl l i j) (delta i)) (units Fl l)).
Proof.
  intros Fl p l x g gc d dc W X G GC D z delta.
  pose proof (dense_derivatives_ok Fl p l x g gc d dc W X G GC D) as E. cbv zeta in E. fold z in E. fold delta in E.
  do 3 eexists. split; [rewrite E; do 3 f_equal; rewrite map_map; reflexivity|].
  rewrite concat_tab_length, !map_length, !seq_length. repeat (split; [reflexivity|]). repeat split.
  - intros i Hi. now rewrite nth_map_seq.
  - intros i j Hi Hj. now rewrite nth_concat_tab.
  - intros j Hj. now rewrite nth_map_seq.
Qed.
Print Assumptions C41_derivatives.

Theorem C41_rejects : forall Fl p (l : dense Fl) prev g gc,
  length g <> units Fl l \/ length gc <> units Fl l ->
  dense_derivatives Fl p l prev g gc = Ret (Err G_InconsistentShape).
Proof.
  intros Fl p l prev g gc H. unfold dense_derivatives, units in *.
  destruct (Nat.eqb_spec (length g) (sh0 (d_weights l))); [|reflexivity].
  destruct (Nat.eqb_spec (length gc) (sh0 (d_weights l))); [|reflexivity]. tauto.
Qed.
Print Assumptions C41_rejects.

(** In exact arithmetic these are the chain-rule values: whatever curve the
    weights, the biases and the input move along, and whatever gradient [g] of a
    real quantity with respect to the output is handed in (with its conjugate),
    the rate of change of that quantity, computed at the output, is the one
    computed from the returned gradients. *)
Theorem C41_chain_rule : forall p (L : R -> dense ROps) vw vb (x : R -> list RC) vx,
  dense_moves L vw vb -> vderiv x vx -> length vx = inputs ROps (L 0%R) ->
  (forall i, i < units ROps (L 0%R) -> act_diff p (d_func (L 0%R)) (pre ROps (L 0%R) (x 0%R) i)) ->
  exists (y : R -> list RC) (vy : list RC),
    locally 0%R (fun t => dense_forward ROps p (L t) (IOScalar (x t)) = Ret (Ok (IOScalar (y t)))) /\
    vderiv y vy /\ length vy = units ROps (L 0%R) /\
    forall g, length g = units ROps (L 0%R) ->
      exists dw db dx,
        dense_derivatives ROps p (L 0%R) (IOScalar (x 0%R)) g (map (c_conj ROps) g) = Ret (Ok (dw, db, dx, map (c_conj ROps) dx)) /\
        rate g vy = (rate dw vw + rate db vb + rate dx vx)%R.
Proof.
  intros p L vw vb x vx M DX X AD. destruct (dense_chain p L vw vb x vx M DX X AD) as (y & vy & A & B & C & D).
  exists y, vy. repeat (split; auto). intros g Hg.
  destruct (D g (map (c_conj ROps) g)) as (dw & db & dx & E1 & _ & _ & _ & E2); rewrite ?map_length; try congruence; [now left|]. eauto 6.
Qed.
Print Assumptions C41_chain_rule.

(** Every smooth point of every activation satisfies the hypothesis. *)
Theorem C41_smooth : forall p f z, smooth p f z -> act_diff p f z.
Proof.
  intros p f z H. destruct (C30_wirtinger p f z H) as (d & dc & E1 & E2 & W). exists d, dc. auto.
Qed.
Print Assumptions C41_smooth.

Example C41_ex : exists (L : R -> dense ROps) vw vb (x : R -> list RC) vx,
  dense_moves L vw vb /\ vderiv x vx /\ length vx = inputs ROps (L 0%R) /\ vw <> [0%RC] /\ vx <> [0%RC] /\
  (forall i, i < units ROps (L 0%R) -> act_diff P64 (d_func (L 0%R)) (pre ROps (L 0%R) (x 0%R) i)).
Proof.
  assert (D : vderiv (fun t => [mkC t 0%R]) [mkC 1%R 0%R]).
  { split; [reflexivity|]. intros [|k] Hk; cbn in Hk; [|lia]. cbn. split; cbn; auto_derive; auto. }
  exists (fun t => mkDense ROps (from_body [mkC t 0%R] 1 1) [mkC t 0%R] RITTanh), [mkC 1%R 0%R], [mkC 1%R 0%R], (fun t => [mkC t 0%R]), [mkC 1%R 0%R].
  split; [|split; [exact D|split; [reflexivity|split; [|split]]]].
  - split; [|split; exact D]. intros t. repeat split; cbn; discriminate.
  - intros H. assert (E : re (hd 0%RC [mkC 1%R 0%R]) = 0%R) by now rewrite H. cbn in E. lra.
  - intros H. assert (E : re (hd 0%RC [mkC 1%R 0%R]) = 0%R) by now rewrite H. cbn in E. lra.
  - intros i _. apply C41_smooth. exact I.
Qed.

(** ** C42 *)
Theorem C42_dense : forall Fl (l : dense Fl) dw db,
  (length dw = length (body (d_weights l)) /\ length db = length (d_biases l) ->
   exists l', layer_adjust Fl (LDense l) dw db = Ret (Ok (LDense l')) /\
     d_func l' = d_func l /\ sh0 (d_weights l') = sh0 (d_weights l) /\ sh1 (d_weights l') = sh1 (d_weights l) /\
     length (body (d_weights l')) = length (body (d_weights l)) /\ length (d_biases l') = length (d_biases l) /\
     (forall k z, k < length dw -> nth k (body (d_weights l')) z = c_sub Fl (nth k (body (d_weights l)) z) (c_conj Fl (nth k dw z))) /\
     (forall k z, k < length db -> nth k (d_biases l') z = c_sub Fl (nth k (d_biases l) z) (c_conj Fl (nth k db z)))) /\
  (length dw <> length (body (d_weights l)) \/ length db <> length (d_biases l) ->
   layer_adjust Fl (LDense l) dw db = Ret (Err G_InconsistentShape)).
Proof.
  intros Fl l dw db. cbn [layer_adjust]. unfold dense_adjust.
  destruct (Nat.eqb_spec (length db) (length (d_biases l))) as [B|B]; cbn [negb map_ok].
  2: { split; [tauto | reflexivity]. }
  destruct (Nat.eqb_spec (length dw) (length (body (d_weights l)))) as [A|A]; cbn [negb map_ok].
  2: { split; [tauto | reflexivity]. }
  split; [|tauto]. intros _. eexists. split; [reflexivity|]. cbn [d_func d_weights d_biases sh0 sh1 with_body body].
  rewrite !zip_assign_length. repeat (split; [reflexivity|]). split; intros k z Hk; apply nth_zip_sub; congruence.
Qed.
Print Assumptions C42_dense.

(** Convolutional layers: the kernels' entries filter by filter, channel by
    channel, row by row. *)

Theorem C42_conv : forall Fl (l : conv Fl) dw db, Forall wf (body (k_kernels l)) ->
  (length dw = length (kernel_values l) /\ length db = length (k_biases l) ->
   exists l', layer_adjust Fl (LConv l) dw db = Ret (Ok (LConv l')) /\
     k_func l' = k_func l /\ k_in l' = k_in l /\
     sh0 (k_kernels l') = sh0 (k_kernels l) /\ sh1 (k_kernels l') = sh1 (k_kernels l) /\
     map (fun k => (sh0 k, sh1 k, length (body k))) (body (k_kernels l')) =
     map (fun k => (sh0 k, sh1 k, length (body k))) (body (k_kernels l)) /\
     length (kernel_values l') = length (kernel_values l) /\ length (k_biases l') = length (k_biases l) /\
     (forall i z, i < length dw -> nth i (kernel_values l') z = c_sub Fl (nth i (kernel_values l) z) (c_conj Fl (nth i dw z))) /\
     (forall i z, i < length db -> nth i (k_biases l') z = c_sub Fl (nth i (k_biases l) z) (c_conj Fl (nth i db z)))) /\
  (length dw <> length (kernel_values l) \/ length db <> length (k_biases l) ->
   layer_adjust Fl (LConv l) dw db = Ret (Err G_InconsistentShape)).
Proof.
  intros Fl l dw db W. cbn [layer_adjust]. unfold conv_adjust, conv_params_len. unfold kernel_values.
  rewrite kernel_count by exact W.
  destruct (Nat.eqb_spec (length db) (length (k_biases l))) as [B|B]; cbn [negb map_ok].
  2: { split; [tauto | reflexivity]. }
  destruct (Nat.eqb_spec (length dw) (length (concat (map body (body (k_kernels l)))))) as [A|A]; cbn [negb map_ok].
  2: { split; [tauto | reflexivity]. }
  split; [|tauto]. intros _. eexists. split; [reflexivity|]. cbn [k_func k_in k_kernels k_biases sh0 sh1 with_body body].
  repeat (split; [reflexivity|]). rewrite adjust_kernels_shapes. split; [reflexivity|].
  rewrite adjust_kernels_values, !zip_assign_length. repeat (split; [reflexivity|]). split; intros i z Hi; apply nth_zip_sub; congruence.
Qed.
Print Assumptions C42_conv.

Theorem C42_reduce_flatten : forall Fl dw db,
  (forall l : red Fl, layer_adjust Fl (LReduce l) dw db = Ret (Ok (LReduce l))) /\
  (forall l : flat, layer_adjust Fl (LFlatten l) dw db = Panic).
Proof. split; reflexivity. Qed.
Print Assumptions C42_reduce_flatten.

Example C42_ex : exists l, layer_adjust ZFl (LDense ex_dense) [mkC 1 1; mkC 0 0; mkC 0 0; mkC 1 0]%Z [mkC 0 2; mkC 0 0]%Z = Ret (Ok (LDense l)) /\
  body (d_weights l) = [mkC 0 1; mkC 0 1; mkC 2 0; mkC 2 0]%Z /\ d_biases l = [mkC 1 3; mkC 0 0]%Z.
Proof. eexists. repeat split. Qed.
