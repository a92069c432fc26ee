(** * Lemmas about convolutional layers *)
From Verif Require Import Base BaseFacts Float Matrix Cplx Random Act Input Dense Conv SpecMatrix MatrixFacts
  SpecLayer SpecConv DenseFacts LayerFacts.

(** ** Tables of three indices *)
Section Tab3.
Context {T : Type}.

Lemma tab3_S : forall n r c (f : nat -> nat -> nat -> T),
  tab3 (S n) r c f = concat (tab_rows r c (f 0)) ++ tab3 n r c (fun o => f (S o)).
Proof. intros. unfold tab3. cbn [seq map concat]. f_equal. f_equal. rewrite <- seq_shift, map_map. reflexivity. Qed.

Lemma tab3_snoc : forall n r c (f : nat -> nat -> nat -> T),
  tab3 (S n) r c f = tab3 n r c f ++ concat (tab_rows r c (f n)).
Proof. intros. unfold tab3. rewrite seq_S, map_app, concat_app. cbn. now rewrite app_nil_r. Qed.

Lemma tab3_length : forall n r c (f : nat -> nat -> nat -> T), length (tab3 n r c f) = n * (r * c).
Proof.
  intros n; induction n as [|n IH]; intros r c f; [reflexivity|].
  rewrite tab3_S, app_length, concat_tab_length, IH. lia.
Qed.

Lemma tab3_ext : forall n r c (f g : nat -> nat -> nat -> T),
  (forall o i j, o < n -> i < r -> j < c -> f o i j = g o i j) -> tab3 n r c f = tab3 n r c g.
Proof.
  intros n r c f g H. unfold tab3. f_equal. apply map_seq_ext. intros o Ho. f_equal. apply tab_rows_ext. auto.
Qed.

(** The same list as a table of [n * r] rows. *)
Lemma tab3_rows : forall n r c (f : nat -> nat -> nat -> T),
  tab3 n r c f = concat (tab_rows (n * r) c (fun k j => f (k / r) (k mod r) j)).
Proof.
  intros n r c; induction n as [|n IH]; intros f; [reflexivity|].
  rewrite tab3_snoc, IH. replace (S n * r) with (n * r + r) by lia. rewrite tab_rows_app, concat_app. f_equal.
  f_equal. apply tab_rows_ext. intros i j Hi Hj.
  rewrite Nat.div_add_l, Nat.div_small, (Nat.add_comm (n * r)), Nat.mod_add, Nat.mod_small by lia. f_equal. lia.
Qed.

Lemma at3_tab3 : forall d n r c (f : nat -> nat -> nat -> T) o i j, o < n -> i < r -> j < c ->
  at3 d r c (tab3 n r c f) o i j = f o i j.
Proof.
  intros d n r c f o i j Ho Hi Hj. unfold at3. rewrite tab3_rows, nth_concat_tab; [|nia|auto].
  rewrite Nat.div_add_l, Nat.div_small, (Nat.add_comm (o * r)), Nat.mod_add, Nat.mod_small by lia. f_equal. lia.
Qed.

Lemma list_tab3 : forall d n r c (l : list T), length l = n * (r * c) -> l = tab3 n r c (at3 d r c l).
Proof.
  intros d n r c l H. rewrite tab3_rows. rewrite (list_tab d (n * r) c l) at 1 by lia. f_equal.
  apply tab_rows_ext. intros k j Hk Hj. unfold at3. f_equal.
  assert (r <> 0) by (intros ->; lia). pose proof (Nat.div_mod k r). nia.
Qed.

Lemma Forall2_concat_tab : forall {A B} (P : A -> B -> Prop) r c f g,
  (forall i j, i < r -> j < c -> P (f i j) (g i j)) -> Forall2 P (concat (tab_rows r c f)) (concat (tab_rows r c g)).
Proof.
  intros A B P r c f g H. unfold tab_rows.
  assert (G : forall l, (forall i, In i l -> i < r) -> Forall2 P (concat (map (tab_row f c) l)) (concat (map (tab_row g c) l))).
  { induction l as [|i l IH]; intros Hl; cbn [map concat]; [constructor|]. apply Forall2_app.
    - unfold tab_row. assert (K : forall l', (forall j, In j l' -> j < c) -> Forall2 P (map (f i) l') (map (g i) l')).
      { induction l' as [|j l' IH']; intros Hj; cbn [map]; constructor; [apply H; [apply Hl; cbn; auto | apply Hj; cbn; auto]|].
        apply IH'. intros j' Hj'. apply Hj. cbn; auto. }
      apply K. intros j Hj. apply in_seq in Hj. lia.
    - apply IH. intros j Hj. apply Hl. cbn; auto. }
  apply G. intros i Hi. apply in_seq in Hi. lia.
Qed.

Lemma mapM_concat_tab : forall {A B} (h : A -> outcome B) r c f g,
  (forall i j, i < r -> j < c -> h (f i j) = Ret (g i j)) -> mapM h (concat (tab_rows r c f)) = Ret (concat (tab_rows r c g)).
Proof. intros A B h r c f g H. apply mapM_Forall2. now apply Forall2_concat_tab. Qed.

Lemma combine_concat_tab : forall {A B} r c (f : nat -> nat -> A) (g : nat -> nat -> B),
  combine (concat (tab_rows r c f)) (concat (tab_rows r c g)) = concat (tab_rows r c (fun i j => (f i j, g i j))).
Proof.
  intros A B r c f g. induction r as [|r IH]; [reflexivity|]. rewrite !tab_rows_snoc, !concat_app.
  rewrite combine_app' by now rewrite !concat_tab_length. rewrite IH. f_equal. cbn [concat]. rewrite !app_nil_r.
  unfold tab_row. apply combine_map_seq.
Qed.

Lemma map_concat_tab : forall {A B} (h : A -> B) r c f,
  map h (concat (tab_rows r c f)) = concat (tab_rows r c (fun i j => h (f i j))).
Proof. intros. unfold tab_rows. rewrite concat_map, map_map. f_equal. apply map_ext. intros i. unfold tab_row. now rewrite map_map. Qed.

Lemma zip_assign_concat_tab : forall {A B} (op : A -> B -> A) r c f g,
  zip_assign op (concat (tab_rows r c f)) (concat (tab_rows r c g)) = concat (tab_rows r c (fun i j => op (f i j) (g i j))).
Proof.
  intros A B op r c f g. rewrite zip_assign_combine by now rewrite !concat_tab_length.
  rewrite combine_concat_tab, map_concat_tab. reflexivity.
Qed.

End Tab3.

Section MatOps.
Context {T : Type} (O : BasicOps T).

Lemma mat_nonempty : forall r c (f : nat -> nat -> T), 1 <= r -> m_is_empty (mat r c f) = false.
Proof.
  intros r c f H. unfold m_is_empty. cbn [mat body sh0 sh1 cap0 cap1].
  replace (r =? 0) with false by (symmetry; apply Nat.eqb_neq; lia). now rewrite !andb_false_r.
Qed.

Lemma add_mut_mat : forall r c (f g : nat -> nat -> T), 1 <= r ->
  add_mut O (mat r c f) (mat r c g) = Ok (mat r c (fun i j => add_assign O (f i j) (g i j))).
Proof.
  intros r c f g H. unfold add_mut. rewrite !mat_nonempty by auto. cbn [mat sh0 sh1]. rewrite !Nat.eqb_refl. cbn [andb negb].
  unfold mat, with_body. cbn [body sh0 sh1 cap0 cap1]. now rewrite zip_assign_concat_tab.
Qed.

Lemma add_mut_scalar_mat : forall r c (f : nat -> nat -> T) s,
  add_mut_scalar O (mat r c f) s = mat r c (fun i j => add_assign O (f i j) s).
Proof.
  intros. unfold add_mut_scalar, with_body, mat. cbn [body sh0 sh1 cap0 cap1]. now rewrite map_concat_tab.
Qed.

Lemma add_slice_tab3 : forall n r c (f g : nat -> nat -> nat -> T),
  add_slice_mut O (tab3 n r c f) (tab3 n r c g) = Ok (tab3 n r c (fun o i j => add_assign O (f o i j) (g o i j))).
Proof.
  intros. unfold add_slice_mut. rewrite !tab3_length, Nat.eqb_refl. cbn [negb]. rewrite !tab3_rows. now rewrite zip_assign_concat_tab.
Qed.

End MatOps.

Lemma repeat_tab : forall {T} (z : T) r c, repeat z (r * c) = concat (tab_rows r c (fun _ _ => z)).
Proof.
  intros T z r c. induction r as [|r IH]; [reflexivity|]. rewrite tab_rows_S. cbn [concat]. rewrite <- IH. cbn [Nat.mul].
  rewrite repeat_app. f_equal. unfold tab_row. now rewrite repeat_map_seq.
Qed.

Lemma repeat_tab3 : forall {T} (z : T) n r c, repeat z (n * (r * c)) = tab3 n r c (fun _ _ _ => z).
Proof.
  intros. rewrite tab3_rows, <- repeat_tab. f_equal. lia.
Qed.

(** ** The layer *)
Section Conv.
Context (Fl : FloatOps) (p : prec).
Local Notation C := (cplx (F Fl)).
Local Notation z := (c_default Fl).
Local Notation CO := (cops Fl).

(** Geometry of a forward pass. *)
Definition geom (a b r c : nat) (l : conv Fl) (x : list (matrix C)) : Prop :=
  conv_wf Fl a b l /\ maps_wf (channels Fl l) r c x /\ a <= r /\ b <= c.

Lemma maps_nth : forall n r c (x : list (matrix C)) ch, maps_wf n r c x -> ch < n ->
  wf (nth ch x m_new) /\ sh0 (nth ch x m_new) = r /\ sh1 (nth ch x m_new) = c.
Proof. intros n r c x ch [L H] Hc. apply H. apply nth_In. lia. Qed.

Lemma kernel_nth : forall a b l o ch, conv_wf Fl a b l -> o < filters Fl l -> ch < channels Fl l ->
  wf (entry m_new (k_kernels l) o ch) /\ sh0 (entry m_new (k_kernels l) o ch) = a /\ sh1 (entry m_new (k_kernels l) o ch) = b.
Proof.
  intros a b l o ch (W & _ & _ & _ & _ & _ & _ & H) Ho Hc. apply H. unfold entry. apply nth_In.
  rewrite W. now apply body_length_lt.
Qed.

Lemma combine_rows_biases : forall a b l, conv_wf Fl a b l ->
  exists rows, rows_as_iter (k_kernels l) = Ret rows /\
    rows = map (fun o => map (entry m_new (k_kernels l) o) (seq 0 (channels Fl l))) (seq 0 (filters Fl l)) /\
    combine rows (k_biases l) =
    map (fun o => (map (entry m_new (k_kernels l) o) (seq 0 (channels Fl l)), nth o (k_biases l) z)) (seq 0 (filters Fl l)).
Proof.
  intros a b l (W & F1 & C1 & _ & _ & B & _). eexists. split; [apply (rows_as_iter_ok m_new); auto; unfold channels in C1; lia|].
  split; [reflexivity|]. rewrite (list_eq_map_nth z (k_biases l)) at 1. rewrite B. apply combine_map_seq.
Qed.

Lemma out_shape_ok : forall a b r c l x, geom a b r c l x ->
  conv_out_shape Fl l x = Ret (r - a + 1, c - b + 1).
Proof.
  intros a b r c l x (W & M & A & B). unfold conv_out_shape. pose proof W as (Wk & F1 & C1 & A1 & B1 & _).
  rewrite (elm_ok m_new) by (auto; unfold filters, channels in *; lia). cbn [obind unwrap].
  destruct (kernel_nth a b l 0 0 W F1 C1) as (_ & -> & ->).
  destruct (maps_nth _ r c x 0 M ltac:(lia)) as (_ & E0 & E1).
  rewrite (index_ok x 0 m_new) by (destruct M; lia). cbn [obind]. rewrite E0, E1.
  rewrite !usub_ok by lia. cbn [obind]. rewrite !usub_ok by lia. cbn [obind]. rewrite ?usub_ok by lia. cbn [obind].
  do 2 f_equal; lia.
Qed.

Lemma feature_ok : forall a b r c l x o, geom a b r c l x -> o < filters Fl l ->
  conv_feature Fl (r - a + 1) (c - b + 1) x (map (entry m_new (k_kernels l) o) (seq 0 (channels Fl l))) (nth o (k_biases l) z) =
  Ret (mat (r - a + 1) (c - b + 1) (cpre Fl a b l x o)).
Proof.
  intros a b r c l x o (W & M & A & B) Ho. unfold conv_feature.
  rewrite (list_eq_map_nth m_new x) at 1. replace (length x) with (channels Fl l) by (destruct M; auto). rewrite combine_map_seq.
  assert (G : forall n, n <= channels Fl l ->
    foldM (fun acc fk => c0 <-! convolution CO (fst fk) (snd fk) ;; unwrap (add_mut CO acc c0))
      (map (fun i => (nth i x m_new, entry m_new (k_kernels l) o i)) (seq 0 n))
      (from_body (repeat z ((r - a + 1) * (c - b + 1))) (r - a + 1) (c - b + 1)) =
    Ret (mat (r - a + 1) (c - b + 1) (fun i j => sum_from (c_add Fl) z (fun ch => corr CO a b (px z x ch) (kval Fl l o ch) i j) n))).
  { induction n as [|n IH]; intros Hn.
    - cbn [seq map foldM]. f_equal. rewrite repeat_tab. reflexivity.
    - rewrite seq_S, map_app, foldM_app, IH by lia. cbn [obind map foldM Nat.add fst snd].
      destruct (maps_nth _ r c x n M ltac:(lia)) as (W1 & E0 & E1).
      destruct (kernel_nth a b l o n W Ho ltac:(lia)) as (W2 & K0 & K1).
      pose proof W as (_ & _ & _ & A1 & B1 & _).
      rewrite convolution_ok by (auto; lia). cbn [obind unwrap]. rewrite E0, E1, K0, K1.
      rewrite add_mut_mat by lia. cbn [unwrap obind]. f_equal. apply mat_ext. intros i j Hi Hj.
      unfold sum_from at 2. rewrite seq_S, fold_left_app. reflexivity. }
  pose proof (G _ (le_n _)) as E.
  match type of E with _ = ?rr => match goal with |- context [foldM ?f ?a0 ?b0] =>
    replace (foldM f a0 b0) with rr by (symmetry; exact E) end end. cbn [obind].
  rewrite add_mut_scalar_mat. reflexivity.
Qed.

Lemma conv_forward_ok : forall a b r c l x (y : nat -> nat -> nat -> C), geom a b r c l x ->
  (forall o i j, o < filters Fl l -> i < r - a + 1 -> j < c - b + 1 -> activate Fl p (k_func l) (cpre Fl a b l x o i j) = Ret (y o i j)) ->
  conv_forward Fl p l (IOMatrix x) = Ret (Ok (IOMatrix (map (fun o => mat (r - a + 1) (c - b + 1) (y o)) (seq 0 (filters Fl l))))).
Proof.
  intros a b r c l x y G Hy. unfold conv_forward. rewrite (out_shape_ok a b r c) by auto. cbn [obind].
  pose proof G as (W & M & A & B). replace (sh1 (k_kernels l) =? length x) with true.
  2: { symmetry. apply Nat.eqb_eq. destruct M as [L _]. now rewrite L. }
  cbn [negb]. destruct (combine_rows_biases a b l W) as (rows & E1 & _ & E2). rewrite E1. cbn [obind]. rewrite E2, mapM_map.
  rewrite (mapM_ret _ (fun o => mat (r - a + 1) (c - b + 1) (y o))); [reflexivity|].
  intros o Ho. apply in_seq in Ho. cbn [fst snd]. rewrite (feature_ok a b r c) by (auto; lia). cbn [obind].
  unfold activate_mut. cbn [mat body]. rewrite (mapM_concat_tab _ _ _ _ (y o)) by (intros; apply Hy; auto; lia). reflexivity.
Qed.

Lemma conv_forward_panic : forall a b r c l x o i j, geom a b r c l x ->
  o < filters Fl l -> i < r - a + 1 -> j < c - b + 1 -> activate Fl p (k_func l) (cpre Fl a b l x o i j) = Panic ->
  conv_forward Fl p l (IOMatrix x) = Panic.
Proof.
  intros a b r c l x o i j G Ho Hi Hj Hp. unfold conv_forward. rewrite (out_shape_ok a b r c) by auto. cbn [obind].
  pose proof G as (W & M & A & B). replace (sh1 (k_kernels l) =? length x) with true.
  2: { symmetry. apply Nat.eqb_eq. destruct M as [L _]. now rewrite L. }
  cbn [negb]. destruct (combine_rows_biases a b l W) as (rows & E1 & _ & E2). rewrite E1. cbn [obind]. rewrite E2, mapM_map.
  rewrite (mapM_panic _ _ o); [reflexivity | apply in_seq; lia|]. cbn [fst snd]. rewrite (feature_ok a b r c) by auto. cbn [obind].
  unfold activate_mut. cbn [mat body]. rewrite (mapM_panic _ _ (cpre Fl a b l x o i j)); [reflexivity| |exact Hp].
  apply nth_error_In with (n := i * (c - b + 1) + j). now apply nth_error_concat_tab.
Qed.

(** ** Backward *)
Lemma flat_mapM_tab3 : forall {A} (h : A -> outcome (list C)) (g : nat -> A) n r c (f : nat -> nat -> nat -> C),
  (forall o, o < n -> h (g o) = Ret (concat (tab_rows r c (f o)))) -> flat_mapM h (map g (seq 0 n)) = Ret (tab3 n r c f).
Proof.
  intros A h g n r c f H. unfold flat_mapM. rewrite mapM_map.
  rewrite (mapM_ret _ (fun o => concat (tab_rows r c (f o)))); [reflexivity|]. intros o Ho. apply in_seq in Ho. apply H. lia.
Qed.

Lemma conv_q_ok : forall a b r c l x, geom a b r c l x ->
  conv_q Fl l x = Ret (tab3 (filters Fl l) (r - a + 1) (c - b + 1) (cpre Fl a b l x)).
Proof.
  intros a b r c l x G. unfold conv_q. rewrite (out_shape_ok a b r c) by auto. cbn [obind].
  pose proof G as (W & M & A & B). destruct (combine_rows_biases a b l W) as (rows & E1 & _ & E2). rewrite E1. cbn [obind]. rewrite E2.
  apply flat_mapM_tab3. intros o Ho. cbn [fst snd]. rewrite (feature_ok a b r c) by auto. reflexivity.
Qed.

Lemma local_d_tab3 : forall f n r c (q d : nat -> nat -> nat -> C) (g : list C), length g = n * (r * c) ->
  (forall o i j, o < n -> i < r -> j < c -> d_activate Fl p f (q o i j) = Ret (d o i j)) ->
  local_d Fl p f (tab3 n r c q) g = Ret (tab3 n r c (fun o i j => c_mul Fl (d o i j) (at3 z r c g o i j))).
Proof.
  intros f n r c q d g L H. unfold local_d. rewrite (list_tab3 z n r c g L) at 1. rewrite !tab3_rows, combine_concat_tab.
  apply mapM_concat_tab. intros k j Hk Hj. cbn [fst snd]. assert (r <> 0) by (intros ->; lia). rewrite H; [reflexivity| | |auto].
  - apply Nat.div_lt_upper_bound; lia.
  - now apply Nat.mod_upper_bound.
Qed.

Lemma local_d_conj_tab3 : forall f n r c (q d : nat -> nat -> nat -> C) (g : list C), length g = n * (r * c) ->
  (forall o i j, o < n -> i < r -> j < c -> d_conj_activate Fl p f (q o i j) = Ret (d o i j)) ->
  local_d_conj Fl p f (tab3 n r c q) g = Ret (tab3 n r c (fun o i j => c_mul Fl (c_conj Fl (d o i j)) (at3 z r c g o i j))).
Proof.
  intros f n r c q d g L H. unfold local_d_conj. rewrite (list_tab3 z n r c g L) at 1. rewrite !tab3_rows, combine_concat_tab.
  apply mapM_concat_tab. intros k j Hk Hj. cbn [fst snd]. assert (r <> 0) by (intros ->; lia). rewrite H; [reflexivity| | |auto].
  - apply Nat.div_lt_upper_bound; lia.
  - now apply Nat.mod_upper_bound.
Qed.

(** What filter [o] contributes: [fa], [fb] are its two families of local
    derivatives, both [R x S]. *)
Lemma oper_a_ok : forall a b r c l x (fa fb : nat -> nat -> C), geom a b r c l x ->
  let R := r - a + 1 in let S := c - b + 1 in
  conv_oper_a Fl x (mat R S fa) (mat R S fb) =
  Ret (tab3 (channels Fl l) a b (fun ch u v => c_add Fl (corr CO R S (px z x ch) fa u v) (corr CO R S (px z x ch) fb u v)),
       concat (tab_rows R S (fun i j => c_add Fl (fa i j) (fb i j)))).
Proof.
  intros a b r c l x fa fb (W & M & A & B) R S. pose proof W as (_ & _ & _ & A1 & B1 & _). unfold conv_oper_a.
  assert (HC : forall g ch, ch < channels Fl l ->
    convolution CO (nth ch x m_new) (mat R S g) = Ret (Ok (mat a b (corr CO R S (px z x ch) g)))).
  { intros g ch Hc. destruct (maps_nth _ r c x ch M Hc) as (W1 & E0 & E1).
    rewrite convolution_ok by (auto using wf_mat; cbn [mat sh0 sh1]; subst R S; lia). cbn [mat sh0 sh1]. rewrite E0, E1.
    replace (r - R + 1) with a by (subst R; lia). replace (c - S + 1) with b by (subst S; lia). do 2 f_equal.
    apply mat_ext. intros u v Hu Hv. unfold corr.
    apply sum_from_ext. intros i Hi. apply sum_from_ext. intros j Hj. unfold px. f_equal.
    apply (entry_mat (dflt CO)); auto. }
  rewrite (list_eq_map_nth m_new x) at 1. replace (length x) with (channels Fl l) by (destruct M; auto).
  rewrite (flat_mapM_tab3 _ _ _ a b (fun ch u v => c_add Fl (corr CO R S (px z x ch) fa u v) (corr CO R S (px z x ch) fb u v))).
  2: { intros ch Hc. rewrite !HC by auto. cbn [obind unwrap]. rewrite add_mut_mat by lia. reflexivity. }
  cbn [obind mat body]. unfold add_slice.
  rewrite !concat_tab_length. replace (R * S =? 0) with false by (symmetry; apply Nat.eqb_neq; subst R S; nia).
  rewrite Nat.eqb_refl. cbn [negb unwrap obind]. rewrite combine_concat_tab, map_concat_tab. reflexivity.
Qed.

Definition flipk (a b : nat) (k : nat -> nat -> C) (u v : nat) : C := k (a - 1 - u) (b - 1 - v).

Lemma oper_b_ok : forall a b r c l x o (fa fb : nat -> nat -> C), geom a b r c l x -> o < filters Fl l ->
  let R := r - a + 1 in let S := c - b + 1 in
  let full f := tab3 (channels Fl l) r c (fun ch => corr CO a b (framed z R S (a - 1) (b - 1) f) (flipk a b (kval Fl l o ch))) in
  conv_oper_b Fl (map (entry m_new (k_kernels l) o) (seq 0 (channels Fl l))) (mat R S fa) (mat R S fb) (a - 1) (b - 1) =
  Ret (full fa, full fb).
Proof.
  intros a b r c l x o fa fb (W & M & A & B) Ho R S full. pose proof W as (_ & _ & _ & A1 & B1 & _). unfold conv_oper_b.
  rewrite mapM_map. rewrite (mapM_ret _ (fun ch => mat a b (flipk a b (kval Fl l o ch)))).
  2: { intros ch Hc. apply in_seq in Hc. destruct (kernel_nth a b l o ch W Ho ltac:(lia)) as (W2 & K0 & K1).
       rewrite (flip_ok z) by auto. cbn [obind unwrap]. now rewrite K0, K1. }
  cbn [obind]. rewrite !pad_ok by apply wf_mat. cbn [obind].
  assert (HC : forall f, flat_mapM (fun fk => rr <-! convolution CO (mat (sh0 (mat R S f) + 2 * (a - 1)) (sh1 (mat R S f) + 2 * (b - 1))
       (framed (dflt CO) (sh0 (mat R S f)) (sh1 (mat R S f)) (a - 1) (b - 1) (entry (dflt CO) (mat R S f)))) fk ;; Ret (body rr))
     (map (fun ch => mat a b (flipk a b (kval Fl l o ch))) (seq 0 (channels Fl l))) = Ret (full f)).
  { intros f. apply flat_mapM_tab3. intros ch Hc. cbn [mat sh0 sh1].
    rewrite convolution_ok by (auto using wf_mat; cbn [mat sh0 sh1]; lia). cbn [obind unwrap mat sh0 sh1 body].
    replace (R + 2 * (a - 1) - a + 1) with r by (subst R; lia). replace (S + 2 * (b - 1) - b + 1) with c by (subst S; lia).
    f_equal. f_equal. apply tab_rows_ext. intros i j Hi Hj. unfold corr.
    apply sum_from_ext. intros u Hu. apply sum_from_ext. intros v Hv. f_equal.
    - rewrite (entry_mat (dflt CO)) by (subst R S; lia). unfold framed.
      destruct ((a - 1 <=? i + u) && (i + u <? a - 1 + R) && (b - 1 <=? j + v) && (j + v <? b - 1 + S)) eqn:E; [|reflexivity].
      repeat rewrite andb_true_iff in E. rewrite !Nat.leb_le, !Nat.ltb_lt in E. apply (entry_mat (dflt CO)); lia.
    - apply (entry_mat (dflt CO)); auto. }
  rewrite !HC. cbn [obind]. reflexivity.
Qed.

(** The bias gradient of a filter: the sum of its [R x S] local derivatives, the
    first one being the starting value. *)
Definition sum_all (n : nat) (f : nat -> C) : C := sum_from (c_add Fl) (f 0) (fun k => f (S k)) (n - 1).

Lemma reduce_map_seq : forall n (f : nat -> C), 1 <= n -> reduce (c_add Fl) (map f (seq 0 n)) = Some (sum_all n f).
Proof.
  intros n f H. destruct n as [|n]; [lia|]. cbn [seq map reduce]. f_equal. unfold sum_all, sum_from.
  replace (S n - 1) with n by lia. rewrite <- seq_shift, map_map, fold_left_map. reflexivity.
Qed.

Lemma tab_map_seq : forall {A} r c (f : nat -> nat -> A),
  concat (tab_rows r c f) = map (fun k => f (k / c) (k mod c)) (seq 0 (r * c)).
Proof.
  intros A r c f. induction r as [|r IH]; [reflexivity|]. rewrite tab_rows_snoc, concat_app, IH. cbn [concat]. rewrite app_nil_r.
  replace (S r * c) with (r * c + c) by lia. rewrite seq_app, map_app. f_equal. unfold tab_row. cbn [Nat.add].
  rewrite (map_seq_shift _ (r * c) c). apply map_seq_ext. intros j Hj.
  rewrite Nat.div_add_l, Nat.div_small, (Nat.add_comm (r * c)), Nat.mod_add, Nat.mod_small by lia. f_equal. lia.
Qed.

Lemma filter_fold : forall a b r c l x (da db : nat -> nat -> nat -> C), geom a b r c l x ->
  let R := r - a + 1 in let S := c - b + 1 in
  let delta o i j := c_add Fl (da o i j) (db o i j) in
  let full f o ch := corr CO a b (framed z R S (a - 1) (b - 1) (f o)) (flipk a b (kval Fl l o ch)) in
  forall n k, n + k = filters Fl l ->
  foldM (conv_filter_step Fl x (R * S) R S (a - 1) (b - 1))
    (map (fun o => map (entry m_new (k_kernels l) o) (seq 0 (channels Fl l))) (seq 0 n))
    (mkCB Fl (tab3 (filters Fl l) R S da) (tab3 (filters Fl l) R S db) [] []
       (tab3 (channels Fl l) r c (fun _ _ _ => z)) (tab3 (channels Fl l) r c (fun _ _ _ => z))) =
  Ret (mkCB Fl (tab3 k R S (fun o => da (n + o))) (tab3 k R S (fun o => db (n + o)))
    (concat (map (fun o => tab3 (channels Fl l) a b (fun ch u v =>
        c_add Fl (corr CO R S (px z x ch) (da o) u v) (corr CO R S (px z x ch) (db o) u v))) (seq 0 n)))
    (map (fun o => sum_all (R * S) (fun q => delta o (q / S) (q mod S))) (seq 0 n))
    (tab3 (channels Fl l) r c (fun ch i j => sum_from (c_add Fl) z (fun o => full da o ch i j) n))
    (tab3 (channels Fl l) r c (fun ch i j => sum_from (c_add Fl) z (fun o => full db o ch i j) n))).
Proof.
  intros a b r c l x da db G R S delta full n; induction n as [|n IH]; intros k Hk.
  - cbn [Nat.add] in Hk. subst k. reflexivity.
  - rewrite seq_S, map_app, foldM_app, (IH (Datatypes.S k)) by lia. cbn [obind map foldM Nat.add].
    unfold conv_filter_step. cbn [cb_a cb_b cb_dldk cb_dldb cb_dlda cb_dldac].
    rewrite !tab3_S.
    assert (SL : forall f (rest : list C), slice (concat (tab_rows R S f) ++ rest) 0 (R * S) = Ret (concat (tab_rows R S f))).
    { intros f rest. rewrite slice_ok; [|lia|rewrite app_length, concat_tab_length; lia]. cbn [skipn]. rewrite Nat.sub_0_r.
      rewrite firstn_app, concat_tab_length, Nat.sub_diag, firstn_O, app_nil_r. rewrite firstn_all2; [reflexivity|].
      rewrite concat_tab_length. lia. }
    rewrite !SL. cbn [obind]. rewrite !from_body_tab.
    pose proof (oper_a_ok a b r c l x (da (n + 0)) (db (n + 0)) G) as EA. cbv zeta in EA. fold R S in EA. rewrite EA. cbn [obind].
    pose proof (oper_b_ok a b r c l x n (da (n + 0)) (db (n + 0)) G ltac:(lia)) as EB. cbv zeta in EB. fold R S in EB. rewrite EB. cbn [obind].
    clear EA EB. rewrite tab_map_seq. rewrite reduce_map_seq by (subst R S; nia). cbn [unwrap_opt obind].
    rewrite !add_slice_tab3. cbn [unwrap obind]. f_equal.
    assert (SK : forall f (rest : list C), skipn (R * S) (concat (tab_rows R S f) ++ rest) = rest).
    { intros f rest. rewrite skipn_app, concat_tab_length, Nat.sub_diag. rewrite skipn_all2 by (rewrite concat_tab_length; lia). reflexivity. }
    rewrite !SK, !Nat.add_0_r. rewrite ?map_app, concat_app. cbn [map concat Nat.add]. rewrite app_nil_r.
    f_equal.
    + apply tab3_ext. intros o i j _ _ _. f_equal. lia.
    + apply tab3_ext. intros o i j _ _ _. f_equal. lia.
    + apply tab3_ext. intros ch i j _ _ _. unfold sum_from at 2. rewrite seq_S, fold_left_app. reflexivity.
    + apply tab3_ext. intros ch i j _ _ _. unfold sum_from at 2. rewrite seq_S, fold_left_app. reflexivity.
Qed.

Lemma conv_derivatives_ok : forall a b r c l x (g gc : list C) (d dc : nat -> nat -> nat -> C), geom a b r c l x ->
  let R := r - a + 1 in let S := c - b + 1 in let f := filters Fl l in let n := channels Fl l in
  length g = f * (R * S) -> length gc = f * (R * S) ->
  (forall o i j, o < f -> i < R -> j < S ->
     d_activate Fl p (k_func l) (cpre Fl a b l x o i j) = Ret (d o i j) /\
     d_conj_activate Fl p (k_func l) (cpre Fl a b l x o i j) = Ret (dc o i j)) ->
  let da o i j := c_mul Fl (d o i j) (at3 z R S g o i j) in
  let db o i j := c_mul Fl (c_conj Fl (dc o i j)) (at3 z R S gc o i j) in
  let full h o ch := corr CO a b (framed z R S (a - 1) (b - 1) (h o)) (flipk a b (kval Fl l o ch)) in
  conv_derivatives Fl p l (IOMatrix x) g gc =
  Ret (Ok (concat (map (fun o => tab3 n a b (fun ch u v =>
             c_add Fl (corr CO R S (px z x ch) (da o) u v) (corr CO R S (px z x ch) (db o) u v))) (seq 0 f)),
           map (fun o => sum_all (R * S) (fun q => c_add Fl (da o (q / S) (q mod S)) (db o (q / S) (q mod S)))) (seq 0 f),
           tab3 n r c (fun ch i j => sum_from (c_add Fl) z (fun o => full da o ch i j) f),
           tab3 n r c (fun ch i j => sum_from (c_add Fl) z (fun o => full db o ch i j) f))).
Proof.
  intros a b r c l x g gc d dc G R S f n Lg Lgc HD da db full. unfold conv_derivatives.
  pose proof G as (W & M & A & B). pose proof W as (Wk & F1 & C1 & A1 & B1 & _).
  destruct (maps_nth _ r c x 0 M ltac:(lia)) as (_ & E0 & E1). destruct M as [LM M].
  rewrite (index_ok x 0 m_new) by lia. cbn [obind]. rewrite (elm_ok m_new) by (auto; unfold filters, channels in *; lia). cbn [obind unwrap].
  destruct (kernel_nth a b l 0 0 W F1 C1) as (_ & -> & ->). rewrite E0, E1.
  rewrite !usub_ok by lia. cbn [obind]. rewrite !usub_ok by lia. cbn [obind].
  replace (r - (a - 1)) with R by (subst R; lia). replace (c - (b - 1)) with S by (subst S; lia).
  rewrite (conv_q_ok a b r c) by auto. cbn [obind]. fold R S f.
  rewrite (local_d_tab3 _ _ _ _ _ d) by (auto; intros; apply HD; auto). cbn [obind].
  rewrite (local_d_conj_tab3 _ _ _ _ _ dc) by (auto; intros; apply HD; auto). cbn [obind].
  fold da db. rewrite tab3_length. fold (filters Fl l). fold f.
  unfold udiv. replace (f =? 0) with false by (symmetry; apply Nat.eqb_neq; subst f; lia). cbn [obind].
  rewrite (Nat.mul_comm f), Nat.div_mul by (subst f; lia).
  destruct (combine_rows_biases a b l W) as (rows & ER & Er & _). rewrite ER. cbn [obind]. subst rows.
  replace (r * c * length x) with (channels Fl l * (r * c)) by lia. rewrite repeat_tab3.
  pose proof (filter_fold a b r c l x da db G f 0 (Nat.add_0_r _)) as E. cbv zeta in E. fold R S in E. fold f in E.
  fold f. fold n. fold n in E. rewrite E. cbn [obind cb_dldk cb_dldb cb_dlda cb_dldac]. reflexivity.
Qed.

End Conv.

(** ** Initialisation *)
Lemma kernel_draws : forall Fl p pr m a b s ks s',
  draws (fun s => '(s', rows) <- gen_n (gen_n (init_gen Fl p pr m) b) a s ;; Ret (s', from_body (concat rows) a b)) s ks s' ->
  draws (init_gen Fl p pr m) s (concat (map body ks)) s' /\ forall k, In k ks -> wf k /\ sh0 k = a /\ sh1 k = b.
Proof.
  intros Fl p pr m a b s ks s' D. induction D as [s|s s1 s2 k l E D [IH1 IH2]].
  - split; [constructor | intros k []].
  - apply obind_inv in E as [[s0 rows] [E H]]. assert (s0 = s1) by congruence. assert (K : from_body (concat rows) a b = k) by congruence.
    subst s0 k. clear H. apply gen_n_nested in E as (D0 & L & Fa). split.
    + cbn [map concat from_body body]. eapply draws_app; eauto.
    + intros k [<- | Hk]; [|auto]. unfold wf. cbn. rewrite (concat_length_const b) by auto. rewrite L. auto.
Qed.
