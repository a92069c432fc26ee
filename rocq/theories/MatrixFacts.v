(** * Lemmas about the matrix model *)
From Verif Require Import Base BaseFacts Matrix SpecMatrix.

Section Facts.
Context {T : Type}.
Implicit Types (m : matrix T) (f g : nat -> nat -> T).

Lemma tab_row_length : forall f c i, length (tab_row f c i) = c.
Proof. intros. unfold tab_row. now rewrite map_length, seq_length. Qed.

Lemma tab_rows_length : forall r c f, length (tab_rows r c f) = r.
Proof. intros. unfold tab_rows. now rewrite map_length, seq_length. Qed.

Lemma tab_rows_Forall : forall r c f, Forall (fun l => length l = c) (tab_rows r c f).
Proof.
  intros. unfold tab_rows. apply Forall_forall. intros l Hl.
  apply in_map_iff in Hl as [i [<- _]]. apply tab_row_length.
Qed.

Lemma concat_tab_length : forall r c f, length (concat (tab_rows r c f)) = r * c.
Proof.
  intros. rewrite (concat_length_const c) by apply tab_rows_Forall. now rewrite tab_rows_length.
Qed.

Lemma tab_rows_S : forall r c f,
  tab_rows (S r) c f = tab_row f c 0 :: tab_rows r c (fun i => f (S i)).
Proof.
  intros. unfold tab_rows. simpl. f_equal. rewrite map_seq_shift. apply map_ext. intros. reflexivity.
Qed.

Lemma tab_rows_snoc : forall r c f,
  tab_rows (S r) c f = tab_rows r c f ++ [tab_row f c r].
Proof. intros. unfold tab_rows. rewrite seq_S, map_app. reflexivity. Qed.

Lemma tab_rows_app : forall r1 r2 c f,
  tab_rows (r1 + r2) c f = tab_rows r1 c f ++ tab_rows r2 c (fun i => f (r1 + i)).
Proof.
  intros. unfold tab_rows. rewrite seq_app, map_app. f_equal.
  simpl. rewrite map_seq_shift. reflexivity.
Qed.

Lemma tab_rows_ext : forall r c f g,
  (forall i j, i < r -> j < c -> f i j = g i j) -> tab_rows r c f = tab_rows r c g.
Proof.
  intros r c f g H. apply map_seq_ext. intros i Hi. apply map_seq_ext. intros j Hj. auto.
Qed.

Lemma nth_error_concat_tab : forall r c f i j,
  i < r -> j < c -> nth_error (concat (tab_rows r c f)) (i * c + j) = Some (f i j).
Proof.
  intros r; induction r as [|r IH]; intros c f i j Hi Hj; [lia|].
  rewrite tab_rows_S. simpl. destruct i as [|i].
  - simpl. rewrite nth_error_app1 by now rewrite tab_row_length.
    unfold tab_row. now rewrite nth_error_map_seq.
  - rewrite nth_error_app2 by (rewrite tab_row_length; simpl; lia).
    rewrite tab_row_length. replace (S i * c + j - c) with (i * c + j) by (simpl; lia).
    apply (IH c (fun i => f (S i))); lia.
Qed.

Lemma nth_concat_tab : forall d r c f i j,
  i < r -> j < c -> nth (i * c + j) (concat (tab_rows r c f)) d = f i j.
Proof. intros. apply nth_error_nth. now apply nth_error_concat_tab. Qed.

Lemma entry_mat : forall d r c f i j, i < r -> j < c -> entry d (mat r c f) i j = f i j.
Proof. intros. unfold entry, mat. simpl. now apply nth_concat_tab. Qed.

Lemma wf_mat : forall r c f, wf (mat r c f).
Proof. intros. unfold wf, mat. simpl. apply concat_tab_length. Qed.

Lemma mat_ext : forall r c f g,
  (forall i j, i < r -> j < c -> f i j = g i j) -> mat r c f = mat r c g.
Proof. intros r c f g H. unfold mat. now rewrite (tab_rows_ext r c f g H). Qed.

Lemma body_length_lt : forall r c i j, i < r -> j < c -> i * c + j < r * c.
Proof. intros. assert (S i * c <= r * c) by (apply Nat.mul_le_mono_r; lia). simpl in *. lia. Qed.

(** Every list of the right length is the table of its own entries. *)
Lemma list_tab : forall d r c (l : list T),
  length l = r * c -> l = concat (tab_rows r c (fun i j => nth (i * c + j) l d)).
Proof.
  intros d r c l H. destruct (Nat.eq_dec c 0) as [->|Hc].
  - rewrite Nat.mul_0_r in H. destruct l; [|discriminate].
    symmetry. apply length_zero_iff_nil. rewrite concat_tab_length. lia.
  - apply nth_error_ext. intros k. destruct (Nat.lt_ge_cases k (r * c)) as [Hk|Hk].
    + pose proof (Nat.div_mod k c Hc) as E. pose proof (Nat.mod_upper_bound k c Hc) as Hm.
      assert (k / c < r) by (apply Nat.div_lt_upper_bound; lia).
      replace k with (k / c * c + k mod c) by lia.
      rewrite nth_error_concat_tab by auto. apply nth_error_nth'. lia.
    + rewrite !(proj2 (nth_error_None _ _)); auto; [rewrite concat_tab_length; auto | lia].
Qed.

Lemma wf_body : forall d m, wf m -> body m = concat (tab_rows (sh0 m) (sh1 m) (entry d m)).
Proof. intros d m H. apply list_tab. exact H. Qed.

(** Two bodies of the same shape are equal iff their entries are. *)
Lemma concat_tab_inj : forall r c f g,
  concat (tab_rows r c f) = concat (tab_rows r c g) ->
  forall i j, i < r -> j < c -> f i j = g i j.
Proof.
  intros r c f g H i j Hi Hj.
  pose proof (nth_error_concat_tab r c f i j Hi Hj) as E1.
  pose proof (nth_error_concat_tab r c g i j Hi Hj) as E2. congruence.
Qed.

Lemma firstn_concat_tab : forall k r c f,
  k <= r -> firstn (k * c) (concat (tab_rows r c f)) = concat (tab_rows k c f).
Proof.
  intros k r c f H. replace r with (k + (r - k)) by lia.
  rewrite tab_rows_app, concat_app, firstn_app, concat_tab_length.
  rewrite Nat.sub_diag, firstn_O, app_nil_r. apply firstn_all2. rewrite concat_tab_length; lia.
Qed.

Lemma skipn_concat_tab : forall k r c f,
  k <= r -> skipn (k * c) (concat (tab_rows r c f)) = concat (tab_rows (r - k) c (fun i => f (k + i))).
Proof.
  intros k r c f H. replace r with (k + (r - k)) at 1 by lia.
  rewrite tab_rows_app, concat_app, skipn_app, concat_tab_length.
  rewrite skipn_all2 by (rewrite concat_tab_length; lia). rewrite Nat.sub_diag. reflexivity.
Qed.

Lemma slice_tab : forall i k r c f,
  i + k <= r -> slice (concat (tab_rows r c f)) (i * c) (i * c + k * c)
  = Ret (concat (tab_rows k c (fun u => f (i + u)))).
Proof.
  intros i k r c f H. rewrite slice_ok.
  - rewrite skipn_concat_tab by lia.
    replace (i * c + k * c - i * c) with (k * c) by lia.
    rewrite firstn_concat_tab by lia. reflexivity.
  - lia.
  - rewrite concat_tab_length, <- Nat.mul_add_distr_r. apply Nat.mul_le_mono_r. lia.
Qed.

Lemma slice_tab_row : forall i r c f,
  i < r -> slice (concat (tab_rows r c f)) (i * c) (i * c + c) = Ret (tab_row f c i).
Proof.
  intros i r c f H. replace (i * c + c) with (i * c + 1 * c) by lia.
  rewrite slice_tab by lia. f_equal. unfold tab_rows. simpl. rewrite app_nil_r.
  unfold tab_row. now rewrite Nat.add_0_r.
Qed.

Lemma chunks_tab : forall r c f, c <> 0 -> chunks c (concat (tab_rows r c f)) = Ret (tab_rows r c f).
Proof. intros. apply chunks_concat; auto. apply tab_rows_Forall. Qed.

Lemma rows_as_iter_ok : forall d m, wf m -> sh1 m <> 0 ->
  rows_as_iter m = Ret (tab_rows (sh0 m) (sh1 m) (entry d m)).
Proof. intros d m H Hc. unfold rows_as_iter. rewrite (wf_body d m H). now apply chunks_tab. Qed.

Lemma row_ok : forall d m i, wf m -> i < sh0 m -> row m i = Ret (Ok (tab_row (entry d m) (sh1 m) i)).
Proof.
  intros d m i H Hi. unfold row. replace (sh0 m <=? i) with false by (symmetry; apply Nat.leb_gt; auto).
  rewrite (wf_body d m H), slice_tab_row by auto. reflexivity.
Qed.

Lemma elm_ok : forall d m i j, wf m -> i < sh0 m -> j < sh1 m -> elm m i j = Ret (Ok (entry d m i j)).
Proof.
  intros d m i j H Hi Hj. unfold elm.
  replace (sh0 m <=? i) with false by (symmetry; apply Nat.leb_gt; auto).
  replace (sh1 m <=? j) with false by (symmetry; apply Nat.leb_gt; auto). simpl.
  rewrite (index_ok _ _ d); [reflexivity|]. rewrite H. now apply body_length_lt.
Qed.

Lemma elm_out : forall m i j, sh0 m <= i \/ sh1 m <= j -> elm m i j = Ret (Err Acc_OutOfBounds).
Proof.
  intros m i j H. unfold elm. destruct H as [H|H]; apply Nat.leb_le in H; rewrite H.
  - reflexivity.
  - now rewrite orb_true_r.
Qed.

Lemma to_matrix_ok : forall r c f, to_matrix (concat (tab_rows r c f)) r c = Ok (mat r c f).
Proof. intros. unfold to_matrix. now rewrite concat_tab_length, Nat.eqb_refl. Qed.

Lemma from_body_tab : forall r c f, from_body (concat (tab_rows r c f)) r c = mat r c f.
Proof. reflexivity. Qed.

Lemma flip_ok : forall d m, wf m ->
  flip m = Ret (Ok (mat (sh0 m) (sh1 m) (fun i j => entry d m (sh0 m - 1 - i) (sh1 m - 1 - j)))).
Proof.
  intros d m H. unfold flip.
  rewrite (mapM_ret _ (fun i => map (fun j => entry d m i j) (rev (seq 0 (sh1 m))))).
  - simpl. rewrite rev_map_seq. unfold from_body, mat. do 3 f_equal.
    unfold tab_rows. f_equal. apply map_ext. intros i. rewrite rev_map_seq. reflexivity.
  - intros i Hi. apply in_rev in Hi. apply in_seq in Hi.
    apply mapM_ret. intros j Hj. apply in_rev in Hj. apply in_seq in Hj.
    rewrite (elm_ok d) by (auto; lia). reflexivity.
Qed.

Lemma map_const_seq : forall {A B} (x : B) (l : list A), map (fun _ => x) l = repeat x (length l).
Proof. intros A B x l; induction l; simpl; auto. now rewrite IHl. Qed.

End Facts.

Section NumFacts.
Context {T : Type} (O : BasicOps T).
Implicit Types (m : matrix T) (f g : nat -> nat -> T).
Local Notation ent := (entry (dflt O)).

Lemma scalar_prod_map_seq : forall (f g : nat -> T) n,
  scalar_prod O (map f (seq 0 n)) (map g (seq 0 n)) =
  sum_from (add O) (dflt O) (fun v => mul O (f v) (g v)) n.
Proof.
  intros. unfold scalar_prod, sum_from. rewrite combine_map_seq, fold_left_map. reflexivity.
Qed.

Lemma scalar_prod_sum : forall l r,
  length l = length r ->
  scalar_prod O l r =
  sum_from (add O) (dflt O) (fun v => mul O (nth v l (dflt O)) (nth v r (dflt O))) (length l).
Proof.
  intros l r H. rewrite (list_eq_map_nth (dflt O) l) at 1. rewrite (list_eq_map_nth (dflt O) r) at 1.
  rewrite <- H. apply scalar_prod_map_seq.
Qed.

Lemma add_slice_mut_map_seq : forall (f g : nat -> T) n,
  add_slice_mut O (map f (seq 0 n)) (map g (seq 0 n)) =
  Ok (map (fun i => add_assign O (f i) (g i)) (seq 0 n)).
Proof.
  intros. unfold add_slice_mut. rewrite !map_length, Nat.eqb_refl. simpl.
  now rewrite zip_assign_map_seq.
Qed.

(** Accumulating rows of the same width entry by entry. *)
Lemma foldM_add_rows : forall (rows : nat -> nat -> T) c n (z : nat -> T),
  foldM (fun acc i => unwrap (add_slice_mut O acc (map (rows i) (seq 0 c)))) (seq 0 n) (map z (seq 0 c))
  = Ret (map (fun j => sum_from (add_assign O) (z j) (fun i => rows i j) n) (seq 0 c)).
Proof.
  intros rows c n z.
  assert (G : forall k a z, foldM (fun acc i => unwrap (add_slice_mut O acc (map (rows i) (seq 0 c)))) (seq a k) (map z (seq 0 c))
     = Ret (map (fun j => fold_left (fun acc i => add_assign O acc (rows i j)) (seq a k) (z j)) (seq 0 c))).
  { induction k as [|k IH]; intros a z'; [reflexivity|]. cbn [seq foldM].
    rewrite add_slice_mut_map_seq. cbn [unwrap obind]. rewrite IH. reflexivity. }
  apply G.
Qed.

(** ** Convolution *)
Lemma conv_row_ok : forall m k i,
  wf m -> wf k -> 1 <= sh0 k -> 1 <= sh1 k -> sh1 k <= sh1 m -> i + sh0 k <= sh0 m ->
  conv_row O m k (sh1 m - sh1 k + 1) i =
  Ret (map (corr O (sh0 k) (sh1 k) (ent m) (ent k) i) (seq 0 (sh1 m - sh1 k + 1))).
Proof.
  intros m k i Hm Hk H1 H2 H3 H4. unfold conv_row, get_slider.
  rewrite (wf_body (dflt O) m Hm), slice_tab by auto. cbn [obind].
  rewrite chunks_tab by lia. cbn [obind].
  rewrite (rows_as_iter_ok (dflt O) k) by (auto; lia). cbn [obind].
  unfold tab_rows. rewrite combine_map_seq, foldM_map.
  rewrite (foldM_ext _ (fun acc u => unwrap (add_slice_mut O acc
     (map (fun j => sum_from (add O) (dflt O) (fun v => mul O (ent m (i + u) (j + v)) (ent k u v)) (sh1 k))
          (seq 0 (sh1 m - sh1 k + 1)))))).
  - rewrite repeat_map_seq.
    rewrite (foldM_add_rows (fun u j => sum_from (add O) (dflt O) (fun v => mul O (ent m (i + u) (j + v)) (ent k u v)) (sh1 k))).
    reflexivity.
  - intros acc u Hu. cbn [fst snd]. unfold tab_row at 1. rewrite windows_map_seq by lia.
    cbn [obind]. do 2 f_equal. rewrite map_map. apply map_ext. intros j.
    unfold tab_row. rewrite scalar_prod_map_seq. reflexivity.
Qed.

Lemma convolution_ok : forall m k,
  wf m -> wf k -> 1 <= sh0 k -> sh0 k <= sh0 m -> 1 <= sh1 k -> sh1 k <= sh1 m ->
  convolution O m k =
  Ret (Ok (mat (sh0 m - sh0 k + 1) (sh1 m - sh1 k + 1) (corr O (sh0 k) (sh1 k) (ent m) (ent k)))).
Proof.
  intros m k Hm Hk H1 H2 H3 H4. unfold convolution.
  replace (sh0 m <? sh0 k) with false by (symmetry; apply Nat.ltb_ge; auto).
  replace (sh1 m <? sh1 k) with false by (symmetry; apply Nat.ltb_ge; auto). cbn [orb].
  rewrite (usub_ok (sh0 k) 1), (usub_ok (sh1 k) 1) by auto. cbn [obind].
  rewrite !usub_ok by lia. cbn [obind].
  replace (sh0 m - (sh0 k - 1)) with (sh0 m - sh0 k + 1) by lia.
  replace (sh1 m - (sh1 k - 1)) with (sh1 m - sh1 k + 1) by lia.
  unfold flat_mapM.
  rewrite (mapM_ret _ (tab_row (corr O (sh0 k) (sh1 k) (ent m) (ent k)) (sh1 m - sh1 k + 1))).
  - cbn [obind]. fold (tab_rows (sh0 m - sh0 k + 1) (sh1 m - sh1 k + 1) (corr O (sh0 k) (sh1 k) (ent m) (ent k))).
    rewrite to_matrix_ok. reflexivity.
  - intros i Hi. apply in_seq in Hi. apply conv_row_ok; auto; lia.
Qed.

(** ** Padding *)
Lemma pad_row_inner : forall r c p q f i,
  p <= i -> i < p + r ->
  repeat (dflt O) q ++ tab_row f c (i - p) ++ repeat (dflt O) q = tab_row (framed (dflt O) r c p q f) (c + 2 * q) i.
Proof.
  intros r c p q f i H1 H2. unfold tab_row.
  replace (c + 2 * q) with (q + (c + q)) by lia. rewrite !seq_app, !map_app. cbn [Nat.add].
  rewrite !repeat_map_seq. rewrite (map_seq_shift _ q c), (map_seq_shift _ (q + c) q).
  f_equal; [|f_equal].
  - apply map_seq_ext. intros j Hj. unfold framed.
    replace (q <=? j) with false by (symmetry; apply Nat.leb_gt; lia).
    now rewrite andb_false_r.
  - apply map_seq_ext. intros j Hj. unfold framed.
    replace (p <=? i) with true by (symmetry; apply Nat.leb_le; lia).
    replace (i <? p + r) with true by (symmetry; apply Nat.ltb_lt; lia).
    replace (q <=? q + j) with true by (symmetry; apply Nat.leb_le; lia).
    replace (q + j <? q + c) with true by (symmetry; apply Nat.ltb_lt; lia).
    simpl. f_equal. lia.
  - apply map_seq_ext. intros j Hj. unfold framed.
    replace (q + c + j <? q + c) with false by (symmetry; apply Nat.ltb_ge; lia).
    now rewrite andb_false_r.
Qed.

Lemma pad_row_outer : forall r c p q f i,
  (i < p \/ p + r <= i) ->
  repeat (dflt O) (c + 2 * q) = tab_row (framed (dflt O) r c p q f) (c + 2 * q) i.
Proof.
  intros r c p q f i H. rewrite repeat_map_seq. unfold tab_row. apply map_seq_ext. intros j _.
  unfold framed. destruct H as [H|H].
  - now replace (p <=? i) with false by (symmetry; apply Nat.leb_gt; lia).
  - replace (i <? p + r) with false by (symmetry; apply Nat.ltb_ge; lia).
    now rewrite andb_false_r.
Qed.

Lemma pad_ok : forall m p q, wf m ->
  pad O m p q = Ret (mat (sh0 m + 2 * p) (sh1 m + 2 * q) (framed (dflt O) (sh0 m) (sh1 m) p q (ent m))).
Proof.
  intros m p q H. unfold pad.
  set (r := sh0 m). set (c := sh1 m). set (f := ent m). set (g := framed (dflt O) r c p q f).
  assert (G : forall n, n <= r + 2 * p ->
    foldM (pad_row O m p q) (seq 0 n) ([], body m) =
    Ret (concat (tab_rows n (c + 2 * q) g), concat (tab_rows (r - (n - p)) c (fun i => f (n - p + i))))).
  { induction n as [|n IH]; intros Hn.
    - simpl. rewrite Nat.sub_0_r. rewrite (wf_body (dflt O) m H). reflexivity.
    - rewrite seq_S, foldM_app, IH by lia. cbn [obind foldM Nat.add].
      rewrite tab_rows_snoc, concat_app. cbn [concat]. rewrite app_nil_r.
      unfold pad_row. fold r c.
      destruct (n <? p) eqn:E1; [|destruct (r + 2 * p - p <=? n) eqn:E2].
      + apply Nat.ltb_lt in E1. cbn [obind].
        replace (S n - p) with (n - p) by lia. unfold g. now rewrite <- pad_row_outer by auto.
      + apply Nat.ltb_ge in E1. apply Nat.leb_le in E2. cbn [obind].
        replace (r - (S n - p)) with 0 by lia. replace (r - (n - p)) with 0 by lia.
        unfold g. now rewrite <- pad_row_outer by (right; lia).
      + apply Nat.ltb_ge in E1. apply Nat.leb_gt in E2.
        replace (r - (n - p)) with (S (r - (S n - p))) by lia.
        rewrite tab_rows_S. cbn [concat].
        rewrite slice_ok.
        2: lia.
        2: { rewrite app_length, tab_row_length. lia. }
        cbn [obind]. rewrite Nat.sub_0_r. cbn [skipn].
        rewrite firstn_app, skipn_app, tab_row_length, Nat.sub_diag. cbn [firstn skipn].
        rewrite firstn_all2 by (rewrite tab_row_length; auto).
        rewrite skipn_all2 by (rewrite tab_row_length; auto).
        rewrite app_nil_r. cbn [app].
        replace (tab_row (fun i => f (n - p + i)) c 0) with (tab_row f c (n - p))
          by (unfold tab_row; now rewrite Nat.add_0_r).
        rewrite (pad_row_inner r c p q f n) by lia. fold g.
        do 3 f_equal. apply tab_rows_ext. intros i j _ _. f_equal. lia. }
  rewrite G by lia. cbn [obind fst]. reflexivity.
Qed.

End NumFacts.
