(** * Lemmas about dense layers *)
From Verif Require Import Base BaseFacts Float Matrix Cplx Random Act Input Dense SpecMatrix MatrixFacts SpecLayer PropMatrix PropRandom.

(** ** Generators *)
Lemma draws_app : forall {S A} (g : S -> outcome (S * A)) s1 l1 s2 l2 s3,
  draws g s1 l1 s2 -> draws g s2 l2 s3 -> draws g s1 (l1 ++ l2) s3.
Proof. intros S A g s1 l1 s2 l2 s3 H; induction H; intros; cbn [app]; [auto|]. econstructor; eauto. Qed.

Lemma gen_n_draws : forall {S A} (g : S -> outcome (S * A)) n s s' l,
  gen_n g n s = Ret (s', l) <-> draws g s l s' /\ length l = n.
Proof.
  intros S A g n; induction n as [|n IH]; intros s s' l; cbn [gen_n].
  - split.
    + intros H. injection H as <- <-. split; [constructor | reflexivity].
    + intros [H L]. destruct l; [|discriminate]. inversion H. reflexivity.
  - split.
    + intros H. apply obind_inv in H as [[s1 a] [Ha H]]. apply obind_inv in H as [[s2 t] [Ht H]].
      injection H as <- <-. apply IH in Ht as [Ht L]. split; [econstructor; eauto | cbn; lia].
    + intros [H L]. destruct l as [|a t]; [discriminate|]. inversion H; subst.
      rewrite H3. cbn [obind]. rewrite (proj2 (IH s1 s' t)) by (split; [auto | cbn in L; lia]). reflexivity.
Qed.

Lemma gen_n_nested : forall {S A} (g : S -> outcome (S * A)) n m s s' rows,
  gen_n (gen_n g n) m s = Ret (s', rows) ->
  draws g s (concat rows) s' /\ length rows = m /\ Forall (fun r => length r = n) rows.
Proof.
  intros S A g n m s s' rows H. apply gen_n_draws in H as [D L]. split; [|split; [exact L|]]; clear L.
  - induction D; cbn [concat]; [constructor|]. apply gen_n_draws in H as [H _]. eapply draws_app; eauto.
  - induction D; constructor; auto. now apply gen_n_draws in H as [_ H].
Qed.

Lemma gen_n_total : forall {S A} (P : S -> Prop) (g : S -> outcome (S * A)) n s,
  (forall s, P s -> exists s' a, g s = Ret (s', a) /\ P s') -> P s ->
  exists s' l, gen_n g n s = Ret (s', l) /\ P s'.
Proof.
  intros S A P g n; induction n as [|n IH]; intros s G H; cbn [gen_n]; [eauto|].
  destruct (G s H) as (s1 & a & E & H1). rewrite E. cbn [obind].
  destruct (IH s1 G H1) as (s2 & l & E2 & H2). rewrite E2. cbn [obind]. eauto.
Qed.

Lemma lcg_next_ok : forall pr s, seed_ok pr s -> exists s', lcg_next pr s = Ret s' /\ seed_ok pr s'.
Proof.
  intros pr s [-> | H].
  - destruct (lcg_next_release s) as [s' E]. exists s'. split; [auto | now left].
  - exists (next s). split; [now apply lcg_next_no_overflow|]. right. pose proof (next_lt s). unfold PropRandom.P in *. lia.
Qed.

Lemma init_gen_ok : forall Fl p pr m s, seed_ok pr s ->
  exists s' a, init_gen Fl p pr m s = Ret (s', a) /\ seed_ok pr s'.
Proof.
  intros Fl p pr m s H. destruct (lcg_next_ok pr s H) as (s1 & E1 & H1).
  destruct (lcg_next_ok pr s1 H1) as (s2 & E2 & H2). destruct (lcg_next_ok pr s2 H2) as (s3 & E3 & H3).
  destruct m; cbn [init_gen]; unfold c_gen, gen_xagu, gen_xagn, gen_xa, gen_he, gen_normal, draw_phase, lcgf;
    rewrite E1; cbn [obind]; rewrite E2; cbn [obind]; rewrite ?E3; cbn [obind]; eauto.
Qed.

(** ** Forward *)
Section Fwd.
Context (Fl : FloatOps) (p : prec).
Local Notation C := (cplx (F Fl)).
Local Notation z := (c_default Fl).

Lemma dense_q_ok : forall (l : dense Fl) (x : list C), dense_wf Fl l -> length x = inputs Fl l ->
  dense_q Fl l x = Ret (map (pre Fl l x) (seq 0 (units Fl l))).
Proof.
  intros l x (W & B & N) X. unfold dense_q.
  destruct (C22_mul_slice (cops Fl) (d_weights l) x W) as (_ & E & _). unfold inputs in X. rewrite E by auto.
  cbn [obind unwrap].
  assert (B' : d_biases l = map (fun i => nth i (d_biases l) z) (seq 0 (units Fl l))).
  { unfold units. rewrite <- B. apply list_eq_map_nth. }
  rewrite B' at 1. rewrite add_slice_mut_map_seq. reflexivity.
Qed.

Lemma dense_forward_ok : forall (l : dense Fl) (x : list C), dense_wf Fl l -> length x = inputs Fl l ->
  dense_forward Fl p l (IOScalar x) =
  (ys <- mapM (fun i => activate Fl p (d_func l) (pre Fl l x i)) (seq 0 (units Fl l)) ;; Ret (Ok (IOScalar ys))).
Proof.
  intros l x W X. pose proof (dense_q_ok l x W X) as Q. unfold dense_q in Q.
  cbn [dense_forward]. destruct (Matrix.mul_slice (cops Fl) (d_weights l) x) as [[r|e]|]; try discriminate.
  cbn [obind unwrap] in *. rewrite Q. cbn [obind]. unfold activate_mut. rewrite mapM_map. reflexivity.
Qed.

Lemma dense_forward_bad : forall (l : dense Fl) (x : list C), length x <> inputs Fl l ->
  dense_forward Fl p l (IOScalar x) = Panic.
Proof.
  intros l x X. cbn [dense_forward]. unfold Matrix.mul_slice. unfold inputs in X.
  replace (sh1 (d_weights l) =? length x) with false by (symmetry; apply Nat.eqb_neq; auto). reflexivity.
Qed.

(** ** Backward *)
Lemma local_d_ok : forall f (q : nat -> C) (g : list C) n (d : nat -> C), length g = n ->
  (forall i, i < n -> d_activate Fl p f (q i) = Ret (d i)) ->
  local_d Fl p f (map q (seq 0 n)) g = Ret (map (fun i => c_mul Fl (d i) (nth i g z)) (seq 0 n)).
Proof.
  intros f q g n d L H. unfold local_d. rewrite (list_eq_map_nth z g) at 1. rewrite L, combine_map_seq, mapM_map.
  apply mapM_ret. intros i Hi. apply in_seq in Hi. cbn [fst snd]. rewrite H by lia. reflexivity.
Qed.
Lemma local_d_conj_ok : forall f (q : nat -> C) (g : list C) n (d : nat -> C), length g = n ->
  (forall i, i < n -> d_conj_activate Fl p f (q i) = Ret (d i)) ->
  local_d_conj Fl p f (map q (seq 0 n)) g = Ret (map (fun i => c_mul Fl (c_conj Fl (d i)) (nth i g z)) (seq 0 n)).
Proof.
  intros f q g n d L H. unfold local_d_conj. rewrite (list_eq_map_nth z g) at 1. rewrite L, combine_map_seq, mapM_map.
  apply mapM_ret. intros i Hi. apply in_seq in Hi. cbn [fst snd]. rewrite H by lia. reflexivity.
Qed.

Definition bw_step (x : list C) (st : list C * list C * list C) (vr : C * C * list C) : outcome (list C * list C * list C) :=
  let '(dldw, dldb, new_dlda) := st in
  let '((val, conj_val), row) := vr in
  let mult := fun e => c_mul Fl e (c_add Fl val conj_val) in
  new_dlda' <- unwrap (add_slice_mut (cops Fl) new_dlda (map mult row)) ;;
  Ret (dldw ++ map mult x, dldb ++ [c_add Fl val conj_val], new_dlda').

Lemma bw_fold : forall (x : list C) (a b : nat -> C) (w : nat -> nat -> C) c n,
  length x = c ->
  foldM (bw_step x) (map (fun i => (a i, b i, map (w i) (seq 0 c))) (seq 0 n)) ([], [], repeat z c) =
  Ret (concat (tab_rows n c (fun i j => c_mul Fl (nth j x z) (c_add Fl (a i) (b i)))),
       map (fun i => c_add Fl (a i) (b i)) (seq 0 n),
       map (fun j => sum_from (c_add_assign Fl) z (fun i => c_mul Fl (w i j) (c_add Fl (a i) (b i))) n) (seq 0 c)).
Proof.
  intros x a b w c n X; induction n as [|n IH].
  - cbn [seq map foldM tab_rows concat]. rewrite repeat_map_seq. reflexivity.
  - rewrite seq_S, map_app, foldM_app, IH. cbn [obind map foldM bw_step Nat.add].
    rewrite map_map, (add_slice_mut_map_seq (cops Fl)). cbn [unwrap obind].
    rewrite tab_rows_snoc, concat_app, map_app. cbn [concat map]. rewrite app_nil_r.
    do 2 f_equal; [f_equal|].
    + f_equal. unfold tab_row. rewrite (list_eq_map_nth z x), X, map_map at 1. reflexivity.
    + apply map_ext. intros j. unfold sum_from. rewrite seq_S, fold_left_app. reflexivity.
Qed.

Lemma dense_derivatives_ok : forall (l : dense Fl) (x g gc : list C) (d dc : nat -> C),
  dense_wf Fl l -> length x = inputs Fl l -> length g = units Fl l -> length gc = units Fl l ->
  (forall i, i < units Fl l -> d_activate Fl p (d_func l) (pre Fl l x i) = Ret (d i) /\
                               d_conj_activate Fl p (d_func l) (pre Fl l x i) = Ret (dc i)) ->
  let delta i := c_add Fl (c_mul Fl (d i) (nth i g z)) (c_mul Fl (c_conj Fl (dc i)) (nth i gc z)) in
  let down j := sum_from (c_add Fl) z (fun i => c_mul Fl (weight Fl l i j) (delta i)) (units Fl l) in
  dense_derivatives Fl p l (IOScalar x) g gc =
  Ret (Ok (concat (tab_rows (units Fl l) (inputs Fl l) (fun i j => c_mul Fl (nth j x z) (delta i))),
           map delta (seq 0 (units Fl l)), map down (seq 0 (inputs Fl l)),
           map (fun j => c_conj Fl (down j)) (seq 0 (inputs Fl l)))).
Proof.
  intros l x g gc d dc W X G GC D delta down. unfold dense_derivatives. unfold units in G, GC |- *.
  rewrite G, GC, !Nat.eqb_refl. cbn [negb]. rewrite dense_q_ok by auto. cbn [obind].
  rewrite (local_d_ok _ _ g (units Fl l) d) by (auto; apply D). cbn [obind].
  rewrite (local_d_conj_ok _ _ gc (units Fl l) dc) by (auto; apply D). cbn [obind].
  destruct W as (W & B & N). rewrite (rows_as_iter_ok z _ W N). cbn [obind].
  unfold units, tab_rows. rewrite !combine_map_seq.
  pose proof (bw_fold x (fun i => c_mul Fl (d i) (nth i g z)) (fun i => c_mul Fl (c_conj Fl (dc i)) (nth i gc z))
    (weight Fl l) (inputs Fl l) (sh0 (d_weights l)) X) as E.
  match type of E with _ = ?r => match goal with |- context [foldM ?f ?a ?b] =>
    replace (foldM f a b) with r by (symmetry; exact E) end end. cbn [obind]. clear E.
  rewrite map_map. reflexivity.
Qed.
End Fwd.
