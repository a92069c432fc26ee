(** * More lemmas about the matrix model: histories, blocks, up-sampling *)
From Coq Require Import Permutation.
From Verif Require Import Base BaseFacts Matrix SpecMatrix MatrixFacts.

Section Facts.
Context {T : Type}.
Implicit Types (m : matrix T) (f g : nat -> nat -> T).

(** ** Addresses *)
Lemma address_inj : forall c i j i' j', j < c -> j' < c -> i * c + j = i' * c + j' -> i = i' /\ j = j'.
Proof.
  intros c i j i' j' Hj Hj' H.
  assert (E : (i * c + j) / c = (i' * c + j') / c) by now rewrite H.
  assert (F : (i * c + j) mod c = (i' * c + j') mod c) by now rewrite H.
  rewrite !Nat.div_add_l, !Nat.div_small in E by lia.
  rewrite !(Nat.add_comm (_ * c)), !Nat.mod_add, !Nat.mod_small in F by lia. lia.
Qed.

Lemma div_block : forall b j v, v < b -> (j * b + v) / b = j.
Proof. intros. rewrite Nat.div_add_l, Nat.div_small by lia. lia. Qed.

Lemma mod_block : forall b j v, v < b -> (j * b + v) mod b = v.
Proof. intros. rewrite Nat.add_comm, Nat.mod_add, Nat.mod_small by lia. lia. Qed.

Lemma row_out : forall m i, sh0 m <= i -> row m i = Ret (Err Acc_OutOfBounds).
Proof. intros m i H. unfold row. apply Nat.leb_le in H. now rewrite H. Qed.

(** ** Writes *)
Lemma elm_write_ok : forall d m i j v, wf m -> i < sh0 m -> j < sh1 m ->
  exists m', elm_write m i j v = Ret (m', Ok tt) /\ wf m' /\
    sh0 m' = sh0 m /\ sh1 m' = sh1 m /\ cap0 m' = cap0 m /\ cap1 m' = cap1 m /\
    forall i' j', i' < sh0 m -> j' < sh1 m ->
      entry d m' i' j' = if (i' =? i) && (j' =? j) then v else entry d m i' j'.
Proof.
  intros d m i j v H Hi Hj.
  exists (with_body m (set_nth (body m) (i * sh1 m + j) v)).
  assert (L : i * sh1 m + j < length (body m)) by (rewrite H; now apply body_length_lt).
  split; [|split; [|repeat split]].
  - unfold elm_write.
    replace (sh0 m <=? i) with false by (symmetry; apply Nat.leb_gt; auto).
    replace (sh1 m <=? j) with false by (symmetry; apply Nat.leb_gt; auto). cbn [orb].
    rewrite (index_ok _ _ d) by auto. reflexivity.
  - unfold wf. simpl. now rewrite set_nth_length.
  - intros i' j' Hi' Hj'. unfold entry. simpl.
    destruct ((i' =? i) && (j' =? j)) eqn:E.
    + apply andb_true_iff in E as [E1 E2]. apply Nat.eqb_eq in E1, E2. subst.
      apply nth_error_nth. now apply nth_error_set_nth_eq.
    + assert (N : i * sh1 m + j <> i' * sh1 m + j').
      { intros C. apply address_inj in C as [-> ->]; auto. rewrite !Nat.eqb_refl in E. discriminate. }
      assert (L' : i' * sh1 m + j' < length (body m)) by (rewrite H; now apply body_length_lt).
      apply nth_error_nth. rewrite nth_error_set_nth_neq by auto. now apply nth_error_nth'.
Qed.

Lemma elm_write_out : forall m i j v, sh0 m <= i \/ sh1 m <= j ->
  elm_write m i j v = Ret (m, Err Acc_OutOfBounds).
Proof.
  intros m i j v H. unfold elm_write. destruct H as [H|H]; apply Nat.leb_le in H; rewrite H.
  - reflexivity.
  - now rewrite orb_true_r.
Qed.

Lemma zip_assign_snd : forall (l v : list T), length l = length v -> zip_assign (fun _ b => b) l v = v.
Proof. induction l; intros [|b v] H; simpl in *; try discriminate; auto. f_equal. auto. Qed.

Lemma row_write_ok : forall d m i (v : list T), wf m -> i < sh0 m -> length v = sh1 m ->
  exists m', row_write m i v = Ret (m', Ok tt) /\ wf m' /\
    sh0 m' = sh0 m /\ sh1 m' = sh1 m /\ cap0 m' = cap0 m /\ cap1 m' = cap1 m /\
    forall i' j', i' < sh0 m -> j' < sh1 m ->
      entry d m' i' j' = if i' =? i then nth j' v d else entry d m i' j'.
Proof.
  intros d m i v H Hi Hv. unfold row_write.
  replace (sh0 m <=? i) with false by (symmetry; apply Nat.leb_gt; auto).
  pose proof (wf_body d m H) as B.
  assert (Sl : slice (body m) (i * sh1 m) (i * sh1 m + sh1 m) = Ret (tab_row (entry d m) (sh1 m) i))
    by (rewrite B at 1; now apply slice_tab_row).
  rewrite Sl. cbn [obind].
  eexists. split; [reflexivity|].
  set (g := fun i' j' => if i' =? i then nth j' v d else entry d m i' j').
  assert (E : firstn (i * sh1 m) (body m) ++
     zip_assign (fun _ b => b) (tab_row (entry d m) (sh1 m) i) v ++
     skipn (i * sh1 m + sh1 m) (body m) = concat (tab_rows (sh0 m) (sh1 m) g)).
  { replace (i * sh1 m + sh1 m) with (S i * sh1 m) by (simpl; lia).
    rewrite B. rewrite firstn_concat_tab, skipn_concat_tab by lia.
    replace (sh0 m) with (i + (1 + (sh0 m - S i))) at 2 by lia.
    rewrite !tab_rows_app, !concat_app. f_equal; [|f_equal].
    - f_equal. apply tab_rows_ext. intros i' j' Hi' _. unfold g.
      now replace (i' =? i) with false by (symmetry; apply Nat.eqb_neq; lia).
    - unfold tab_rows. simpl. rewrite app_nil_r. unfold tab_row.
      rewrite zip_assign_snd by (rewrite map_length, seq_length; auto).
      rewrite (list_eq_map_nth d v) at 1. rewrite Hv.
      apply map_seq_ext. intros j' _. unfold g. now rewrite Nat.add_0_r, Nat.eqb_refl.
    - f_equal. apply tab_rows_ext. intros i' j' _ _. unfold g.
      replace (i + (1 + i') =? i) with false by (symmetry; apply Nat.eqb_neq; lia). f_equal. lia. }
  unfold with_body. rewrite E. split; [unfold wf; simpl; apply concat_tab_length|].
  repeat split. intros i' j' Hi' Hj'. unfold entry at 1. simpl. now rewrite nth_concat_tab.
Qed.

(** ** Rows and columns *)
Lemma rows_as_iter_zero : forall m, sh1 m = 0 -> rows_as_iter m = Panic.
Proof. intros m H. unfold rows_as_iter. now rewrite H. Qed.

Lemma copy_col_ok : forall d m j, wf m -> j < sh1 m ->
  copy_col_into_vec m j = Ret (Ok (map (fun i => entry d m i j) (seq 0 (sh0 m)))).
Proof.
  intros d m j H Hj. unfold copy_col_into_vec.
  replace (sh1 m <=? j) with false by (symmetry; apply Nat.leb_gt; auto).
  rewrite (mapM_ret _ (fun i => entry d m i j)); [reflexivity|].
  intros i Hi. apply in_seq in Hi. apply index_ok. rewrite H. apply body_length_lt; lia.
Qed.

Lemma skipn_S_eq : forall {A} k (acc : list A) x t, skipn k acc = x :: t -> skipn (S k) acc = t.
Proof.
  induction k as [|k IH]; intros [|a acc] x t E; simpl in E; try discriminate.
  - inversion E. reflexivity.
  - apply IH in E. exact E.
Qed.

Lemma foldM_set_col : forall (g : nat -> T) n k (acc : list T),
  length acc = n -> k <= n ->
  foldM (fun acc i => Ret (set_nth acc i (g i))) (seq 0 k) acc = Ret (map g (seq 0 k) ++ skipn k acc).
Proof.
  intros g n k; induction k as [|k IH]; intros acc L Hk; [reflexivity|].
  rewrite seq_S, foldM_app, IH, map_app by lia. cbn [obind foldM Nat.add map]. f_equal.
  rewrite set_nth_app_r by (rewrite map_length, seq_length; lia).
  rewrite map_length, seq_length, Nat.sub_diag, <- app_assoc. f_equal.
  assert (exists x t, skipn k acc = x :: t) as [x [t E]].
  { destruct (skipn k acc) eqn:E; [|eauto]. exfalso.
    assert (length (skipn k acc) = 0) by now rewrite E. rewrite skipn_length in H. lia. }
  rewrite E. simpl. f_equal. symmetry. eapply skipn_S_eq; eauto.
Qed.

Lemma col_into_slice_ok : forall d m j res, wf m -> j < sh1 m -> length res = sh0 m ->
  col_into_slice m j res = Ret (map (fun i => entry d m i j) (seq 0 (sh0 m)), Ok tt).
Proof.
  intros d m j res H Hj L. unfold col_into_slice.
  replace (sh1 m <=? j) with false by (symmetry; apply Nat.leb_gt; auto).
  rewrite L, Nat.eqb_refl. cbn [negb].
  rewrite (foldM_ext _ (fun acc i => Ret (set_nth acc i (entry d m i j)))).
  - rewrite (foldM_set_col _ (sh0 m)) by auto. cbn [obind].
    rewrite skipn_all2 by lia. now rewrite app_nil_r.
  - intros s i Hi. apply in_seq in Hi.
    rewrite (index_ok _ _ d); [reflexivity|]. rewrite H. apply body_length_lt; lia.
Qed.

Lemma row_into_slice_ok : forall d m i res, wf m -> i < sh0 m -> length res = sh1 m ->
  row_into_slice m i res = Ret (tab_row (entry d m) (sh1 m) i, Ok tt).
Proof.
  intros d m i res H Hi L. unfold row_into_slice.
  replace (sh0 m <=? i) with false by (symmetry; apply Nat.leb_gt; auto).
  rewrite L, Nat.eqb_refl. cbn [negb].
  rewrite (wf_body d m H), slice_tab_row by auto. reflexivity.
Qed.

Lemma into_slice_err : forall m k (res : list T),
  (sh0 m <= k -> row_into_slice m k res = Ret (res, Err Op_OutOfBounds)) /\
  (k < sh0 m -> length res <> sh1 m -> row_into_slice m k res = Ret (res, Err Op_InconsistentShape)) /\
  (sh1 m <= k -> col_into_slice m k res = Ret (res, Err Op_OutOfBounds)) /\
  (k < sh1 m -> length res <> sh0 m -> col_into_slice m k res = Ret (res, Err Op_InconsistentShape)) /\
  (sh1 m <= k -> copy_col_into_vec m k = Ret (Err Op_OutOfBounds)).
Proof.
  intros m k res. unfold row_into_slice, col_into_slice, copy_col_into_vec.
  repeat split; intros H; try intros H'.
  - apply Nat.leb_le in H. now rewrite H.
  - apply Nat.leb_gt in H. rewrite H. apply Nat.eqb_neq in H'. now rewrite H'.
  - apply Nat.leb_le in H. now rewrite H.
  - apply Nat.leb_gt in H. rewrite H. apply Nat.eqb_neq in H'. now rewrite H'.
  - apply Nat.leb_le in H. now rewrite H.
Qed.

(** ** flip *)
Lemma flip_flip : forall m, wf m ->
  exists m1 m2, flip m = Ret (Ok m1) /\ flip m1 = Ret (Ok m2) /\
    body m2 = body m /\ sh0 m2 = sh0 m /\ sh1 m2 = sh1 m.
Proof.
  intros m H. destruct (body m) as [|d l] eqn:Eb.
  - (* empty body: any default will do, but none is available *)
    assert (Z : sh0 m * sh1 m = 0) by (rewrite <- H, Eb; reflexivity).
    assert (F : forall n : matrix T, body n = [] -> sh0 n * sh1 n = 0 ->
       flip n = Ret (Ok (mkM [] (sh0 n) (sh1 n) (sh0 n) (sh1 n)))).
    { intros n E Zn. unfold flip. apply Nat.eq_mul_0 in Zn as [Z'|Z']; rewrite Z'; simpl.
      - reflexivity.
      - rewrite (mapM_ret _ (fun _ => [])) by auto. cbn [obind].
        unfold from_body. do 3 f_equal. clear. induction (rev (seq 0 (sh0 n))); simpl; auto. }
    rewrite F by auto. eexists; eexists; split; [reflexivity|]. rewrite F by (simpl; auto).
    split; [reflexivity|]. simpl. auto.
  - rewrite (flip_ok d m H). eexists; eexists; split; [reflexivity|].
    rewrite (flip_ok d) by apply wf_mat. split; [reflexivity|].
    simpl. repeat split. rewrite <- Eb, (wf_body d m H). f_equal. apply tab_rows_ext.
    intros i j Hi Hj. rewrite entry_mat by lia. f_equal; lia.
Qed.

(** ** add_col *)
(** The loop body of [add_col]. *)
Definition ac_step (s1 : nat) (st : list T * list T) (i : nat) : outcome (list T * list T) :=
  let last := i * s1 + s1 - 1 in
  match snd st with
  | [] => b <- insert_at (fst st) last [] ;; Ret (b, [])
  | v :: rest => b <- insert_at (fst st) last [v] ;; Ret (b, rest)
  end.

Lemma add_col_fold_rows : forall c (rows : list (list T)) col (pre : list T),
  Forall (fun l => length l = c) rows -> forall k s n,
  length col <= length rows -> k = length col ->
  length pre = s * (S c) -> n = s ->
  foldM (ac_step (c + 1)) (seq n k) (pre ++ concat rows, col)
  = Ret (pre ++ concat (map (fun rv => fst rv ++ [snd rv]) (combine rows col))
             ++ concat (skipn (length col) rows), []).
Proof.
  intros c rows. induction rows as [|r rows IH]; intros col pre F k s n L Hk Hp Hn.
  - destruct col; [|simpl in L; lia]. subst. simpl. reflexivity.
  - destruct col as [|v col].
    + subst. simpl. reflexivity.
    + inversion F as [|? ? Hr F']; subst. cbn [length seq foldM]. unfold ac_step at 1. cbn [snd fst].
      assert (E : s * (length r + 1) + (length r + 1) - 1 = length (pre ++ r)).
      { rewrite app_length, Hp. nia. }
      cbn zeta. rewrite E. unfold insert_at at 1. cbn [concat].
      rewrite app_assoc.
      replace (length (pre ++ r) <=? length ((pre ++ r) ++ concat rows)) with true
        by (symmetry; apply Nat.leb_le; rewrite (app_length (pre ++ r)); lia).
      cbn [obind]. rewrite firstn_app, skipn_app, Nat.sub_diag, firstn_all, skipn_all. cbn [firstn skipn app].
      rewrite app_nil_r. change (v :: concat rows) with ([v] ++ concat rows). rewrite (app_assoc (pre ++ r)).
      rewrite (IH col ((pre ++ r) ++ [v]) F' (length col) (S s) (S s)); auto.
      * cbn [combine map concat fst snd length skipn]. rewrite <- !app_assoc. reflexivity.
      * cbn [length] in L. lia.
      * rewrite !app_length, Hp. simpl. nia.
Qed.

Lemma add_col_fold_panic : forall c (rows : list (list T)) col (pre : list T),
  1 <= c -> Forall (fun l => length l = c) rows -> forall k s,
  length rows < length col -> k = length col -> length pre = s * (S c) ->
  foldM (ac_step (c + 1)) (seq s k) (pre ++ concat rows, col) = Panic.
Proof.
  intros c rows. induction rows as [|r rows IH]; intros col pre Hc F k s L Hk Hp.
  - destruct col as [|v col]; [simpl in L; lia|]. subst. cbn [length seq foldM concat]. unfold ac_step at 1. cbn [snd fst].
    cbn zeta. unfold insert_at.
    replace (s * (c + 1) + (c + 1) - 1 <=? length (pre ++ [])) with false; [reflexivity|].
    symmetry. apply Nat.leb_gt. rewrite app_nil_r, Hp. nia.
  - destruct col as [|v col]; [simpl in L; lia|].
    inversion F as [|? ? Hr F']; subst. cbn [length seq foldM]. unfold ac_step at 1. cbn [snd fst].
    assert (E : s * (length r + 1) + (length r + 1) - 1 = length (pre ++ r)).
    { rewrite app_length, Hp. nia. }
    cbn zeta. rewrite E. unfold insert_at at 1. cbn [concat].
    rewrite app_assoc.
    replace (length (pre ++ r) <=? length ((pre ++ r) ++ concat rows)) with true
      by (symmetry; apply Nat.leb_le; rewrite (app_length (pre ++ r)); lia).
    cbn [obind]. rewrite firstn_app, skipn_app, Nat.sub_diag, firstn_all, skipn_all. cbn [firstn skipn app].
    rewrite app_nil_r. change (v :: concat rows) with ([v] ++ concat rows). rewrite (app_assoc (pre ++ r)).
    apply (IH col ((pre ++ r) ++ [v])); auto.
    + cbn [length] in L. lia.
    + rewrite !app_length, Hp. simpl. nia.
Qed.

(** The rows of a matrix as lists. *)
Fixpoint cut (n c : nat) (l : list T) : list (list T) :=
  match n with O => [] | S n' => firstn c l :: cut n' c (skipn c l) end.

Lemma cut_spec : forall n c (l : list T), length l = n * c ->
  concat (cut n c l) = l /\ length (cut n c l) = n /\ Forall (fun x => length x = c) (cut n c l).
Proof.
  induction n as [|n IH]; intros c l H.
  - destruct l; [simpl; auto | discriminate].
  - cbn [cut concat length]. destruct (IH c (skipn c l)) as [A [B C]].
    { rewrite skipn_length, H. simpl. lia. }
    rewrite A, B, firstn_skipn. repeat split; auto. constructor; auto.
    rewrite firstn_length, H. simpl. lia.
Qed.

Lemma add_col_outcome : forall m col, wf m ->
  (length col = sh0 m -> add_col m col = Ret (m, col, Err Upd_InconsistentLength)) /\
  (length col <> sh0 m -> sh1 m < cap1 m -> add_col m col = Ret (m, col, Err Upd_Overflow)) /\
  (1 <= sh1 m -> length col < sh0 m -> cap1 m <= sh1 m ->
     exists b, add_col m col = Ret (mkM b (length col) (sh1 m + 1) (cap0 m) (cap1 m), [], Ok tt) /\
               length b = length (body m) + length col) /\
  (1 <= sh1 m -> sh0 m < length col -> cap1 m <= sh1 m -> add_col m col = Panic) /\
  (sh1 m = 0 -> length col <> sh0 m -> cap1 m = 0 ->
     add_col m col = Ret (mkM col (length col) 1 (cap0 m) 0, [], Ok tt)).
Proof.
  intros m col H. destruct (cut_spec (sh0 m) (sh1 m) (body m) H) as [Eb [Lr F]].
  assert (FR : length col <= sh0 m ->
     foldM (ac_step (sh1 m + 1)) (seq 0 (length col)) (body m, col) =
     Ret (concat (map (fun rv => fst rv ++ [snd rv]) (combine (cut (sh0 m) (sh1 m) (body m)) col))
             ++ concat (skipn (length col) (cut (sh0 m) (sh1 m) (body m))), [])).
  { intros L. rewrite <- Eb at 1. apply (add_col_fold_rows (sh1 m) _ col [] F (length col) 0 0); auto; lia. }
  assert (FP : 1 <= sh1 m -> sh0 m < length col ->
     foldM (ac_step (sh1 m + 1)) (seq 0 (length col)) (body m, col) = Panic).
  { intros Hc L. rewrite <- Eb. apply (add_col_fold_panic (sh1 m) _ col [] Hc F (length col) 0); auto; lia. }
  unfold ac_step in FR, FP. unfold add_col. cbn zeta in *.
  repeat split.
  - intros E. now rewrite E, Nat.eqb_refl.
  - intros E E1. apply Nat.eqb_neq in E. rewrite E. apply Nat.ltb_lt in E1. now rewrite E1.
  - intros Hc Hl Hcap.
    replace (length col =? sh0 m) with false by (symmetry; apply Nat.eqb_neq; lia).
    replace (sh1 m <? cap1 m) with false by (symmetry; apply Nat.ltb_ge; lia).
    rewrite FR by lia.
    cbn [obind fst snd app]. eexists. split; [reflexivity|].
    rewrite app_length. rewrite <- Eb at 3.
    set (rows := cut (sh0 m) (sh1 m) (body m)) in *.
    assert (G : forall (rs : list (list T)) (cl : list T), length cl <= length rs ->
       length (concat (map (fun rv => fst rv ++ [snd rv]) (combine rs cl))) + length (concat (skipn (length cl) rs))
       = length (concat rs) + length cl).
    { clear. induction rs as [|r rs IH]; intros [|v cl] L; simpl in *; auto; try lia.
      rewrite !app_length. simpl. rewrite <- (Nat.add_assoc _ (length (concat (map _ _)))), IH by lia. lia. }
    apply G. lia.
  - intros Hc Hl Hcap.
    replace (length col =? sh0 m) with false by (symmetry; apply Nat.eqb_neq; lia).
    replace (sh1 m <? cap1 m) with false by (symmetry; apply Nat.ltb_ge; lia).
    now rewrite FP by lia.
  - intros Hc Hl Hcap. apply Nat.eqb_neq in Hl. rewrite Hl, Hc, Hcap. cbn [Nat.ltb Nat.leb].
    assert (Bn : body m = []) by (apply length_zero_iff_nil; rewrite H, Hc; lia).
    rewrite Bn. cbn zeta.
    change (seq 0 (length col)) with (seq (length (@nil T)) (length col)).
    assert (G : forall (cl pre : list T),
      foldM (ac_step (0 + 1)) (seq (length pre) (length cl)) (pre, cl) = Ret (pre ++ cl, [])).
    { induction cl as [|v cl IH]; intros pre; [simpl; now rewrite app_nil_r|].
      cbn [length seq foldM]. unfold ac_step at 1. cbn [fst snd]. cbn zeta.
      replace (length pre * (0 + 1) + (0 + 1) - 1) with (length pre) by lia.
      unfold insert_at at 1. rewrite Nat.leb_refl, firstn_all, skipn_all. cbn [obind].
      rewrite app_nil_r. specialize (IH (pre ++ [v])). rewrite app_length in IH. cbn [length] in IH.
      rewrite (Nat.add_comm (length pre)) in IH. cbn [Nat.add] in IH. cbn [Nat.add]. rewrite IH.
      now rewrite <- app_assoc. }
    unfold ac_step in G. cbn zeta in G. rewrite G. reflexivity.
Qed.

End Facts.

(** ** Row histories *)
Section Hist.
Context {T : Type}.

Lemma rect_wf : forall s : rstate T, rect (r_rows s) -> wf (repr s).
Proof. intros s H. unfold wf, repr. simpl. rewrite (concat_length_const _ _ H). reflexivity. Qed.

Lemma width_app : forall (rows : list (list T)) r, rows <> [] -> width (rows ++ [r]) = width rows.
Proof. intros [|x rows] r H; [congruence | reflexivity]. Qed.

Lemma slice_rows : forall (rows : list (list T)) w i r,
  Forall (fun r => length r = w) rows -> nth_error rows i = Some r ->
  slice (concat rows) (i * w) (i * w + w) = Ret r /\
  firstn (i * w) (concat rows) ++ skipn (i * w + w) (concat rows) = concat (firstn i rows ++ skipn (S i) rows).
Proof.
  intros rows w i r F E. apply nth_error_split in E as [l1 [l2 [-> L]]].
  apply Forall_app in F as [F1 F2]. inversion F2 as [|? ? Hr F2']; subst.
  assert (Lc : length (concat l1) = length l1 * length r) by (apply concat_length_const; auto).
  rewrite concat_app. cbn [concat]. rewrite <- Lc. split.
  - rewrite slice_ok; [|lia | rewrite !app_length; lia].
    rewrite skipn_app, skipn_all, Nat.sub_diag. cbn [app skipn].
    replace (length (concat l1) + length r - length (concat l1)) with (length r) by lia.
    rewrite firstn_app, firstn_all, Nat.sub_diag. cbn [firstn]. now rewrite app_nil_r.
  - assert (S1 : skipn (length (concat l1) + length r) (concat l1 ++ r ++ concat l2) = concat l2).
    { rewrite app_assoc, <- app_length, skipn_app, skipn_all, Nat.sub_diag. reflexivity. }
    assert (S2 : skipn (S (length l1)) (l1 ++ r :: l2) = l2).
    { replace (l1 ++ r :: l2) with ((l1 ++ [r]) ++ l2) by now rewrite <- app_assoc.
      replace (S (length l1)) with (length (l1 ++ [r])) by (rewrite app_length; simpl; lia).
      rewrite skipn_app, skipn_all, Nat.sub_diag. reflexivity. }
    rewrite S1, S2, !firstn_app, !firstn_all, !Nat.sub_diag. cbn [firstn].
    rewrite !app_nil_r, concat_app. reflexivity.
Qed.

Lemma Forall_del : forall {A} (P : A -> Prop) i l, Forall P l -> Forall P (firstn i l ++ skipn (S i) l).
Proof.
  intros A P i l H. apply Forall_forall. intros x Hx. rewrite Forall_forall in H. apply H.
  apply in_app_or in Hx as [Hx|Hx]; [rewrite <- (firstn_skipn i l) | rewrite <- (firstn_skipn (S i) l)];
    apply in_or_app; auto.
Qed.

Lemma rect_del : forall (rows : list (list T)) i, rect rows -> rect (firstn i rows ++ skipn (S i) rows).
Proof.
  intros rows i H. unfold rect in *. set (rows' := firstn i rows ++ skipn (S i) rows).
  assert (G : Forall (fun r => length r = width rows) rows').
  { now apply Forall_del. }
  destruct rows' as [|x xs] eqn:E; auto. inversion G; subst. simpl. rewrite H2. exact G.
Qed.

Lemma m_step_refines : forall (s : rstate T) o, rect (r_rows s) ->
  m_step (repr s) o = Ret (repr (fst (s_step s o)), snd (s_step s o)) /\ rect (r_rows (fst (s_step s o))).
Proof.
  intros [rows [c0 c1]] o H. cbn [r_rows] in H. destruct o as [r|i|]; cbn [m_step s_step r_rows r_cap fst snd].
  - change (repr (mkR rows (c0, c1))) with (mkM (concat rows) (length rows) (width rows) c0 c1). unfold add_row. cbn [sh0 sh1 cap0 cap1 body r_rows r_cap fst snd].
    destruct rows as [|x xs].
    + cbn [length width Nat.eqb andb orb negb]. rewrite orb_true_r. cbn [negb].
      change (0 + 1) with 1. replace (c1 <? 0) with false by (symmetry; apply Nat.ltb_ge; lia).
      cbn [orb]. destruct ((c0 <? 1) || (c1 <? length r)) eqn:E.
      * split; [reflexivity|exact H].
      * cbn [fst snd r_rows]. split.
        -- unfold repr. simpl. now rewrite app_nil_r.
        -- unfold rect. simpl. constructor; auto.
    + set (rows := x :: xs) in *. assert (N : length rows =? 0 = false) by reflexivity.
      rewrite N. cbn [andb negb]. rewrite orb_false_r.
      destruct (length r =? width rows) eqn:E; cbn [negb].
      * apply Nat.eqb_eq in E. rewrite <- E, orb_diag.
        destruct ((c0 <? length rows + 1) || (c1 <? length r)) eqn:E2.
        -- split; [|exact H]. unfold repr. cbn [fst snd r_rows r_cap]. rewrite Nat.add_sub, <- E. reflexivity.
        -- cbn [fst snd r_rows]. split.
           ++ unfold repr. cbn [r_rows r_cap fst snd]. rewrite concat_app, app_length. cbn [concat length].
              rewrite app_nil_r. rewrite width_app by (unfold rows; congruence). now rewrite E.
           ++ unfold rect. rewrite width_app by (unfold rows; congruence). apply Forall_app.
              split; [exact H | constructor; auto].
      * split; [reflexivity | exact H].
  - change (repr (mkR rows (c0, c1))) with (mkM (concat rows) (length rows) (width rows) c0 c1). unfold del_row. cbn [sh0 sh1 cap0 cap1 body r_rows r_cap fst snd].
    destruct (nth_error rows i) as [r|] eqn:E.
    + assert (Li : i < length rows) by (apply nth_error_Some; congruence).
      replace (length rows <=? i) with false by (symmetry; apply Nat.leb_gt; auto).
      replace (length rows =? 0) with false by (symmetry; apply Nat.eqb_neq; lia).
      destruct (slice_rows rows (width rows) i r H E) as [E1 E2].
      cbn zeta. rewrite E1. cbn [obind]. rewrite E2. cbn [fst snd r_rows].
      split; [|now apply rect_del].
      unfold dealloc, repr. cbn [body sh0 sh1 r_rows r_cap fst snd].
      assert (L' : length (firstn i rows ++ skipn (S i) rows) = length rows - 1)
        by (rewrite app_length, firstn_length, skipn_length; lia).
      rewrite L'.
      assert (W : (if length rows - 1 =? 0 then 0 else width rows) = width (firstn i rows ++ skipn (S i) rows)).
      { destruct (length rows - 1 =? 0) eqn:Z.
        - apply Nat.eqb_eq in Z. destruct (firstn i rows ++ skipn (S i) rows); auto. simpl in L'. lia.
        - apply Nat.eqb_neq in Z. pose proof (rect_del rows i H) as R.
          assert (G : Forall (fun r => length r = width rows) (firstn i rows ++ skipn (S i) rows)).
          { now apply Forall_del. }
          destruct (firstn i rows ++ skipn (S i) rows) as [|y ys]; [simpl in L'; lia|].
          inversion G; subst. simpl. auto. }
      rewrite W. reflexivity.
    + apply nth_error_None in E. apply Nat.leb_le in E. rewrite E. cbn [obind fst snd]. split; [reflexivity|exact H].
  - split; [reflexivity|exact H].
Qed.

Lemma m_run_refines : forall ops (s : rstate T), rect (r_rows s) ->
  m_run (repr s) ops = Ret (repr (fst (s_run s ops)), snd (s_run s ops)) /\ rect (r_rows (fst (s_run s ops))).
Proof.
  induction ops as [|o ops IH]; intros s H; [simpl; auto|].
  destruct (m_step_refines s o H) as [E R]. cbn [m_run s_run]. rewrite E. cbn [obind].
  destruct (s_step s o) as [s1 x]. cbn [fst snd] in *.
  destruct (IH s1 R) as [E2 R2]. rewrite E2. cbn [obind].
  destruct (s_run s1 ops) as [s2 xs]. auto.
Qed.

End Hist.

(** ** Blocks *)
Section Blocks.
Context {T : Type}.
Implicit Types (f g : nat -> nat -> T).

Lemma tab_row_chunks : forall f n b i,
  tab_row f (n * b) i = concat (tab_rows n b (fun j v => f i (j * b + v))).
Proof.
  intros f n b i. rewrite (list_tab (f i 0) n b (tab_row f (n * b) i)) by apply tab_row_length.
  f_equal. apply tab_rows_ext. intros j v Hj Hv. unfold tab_row. apply nth_map_seq.
  now apply body_length_lt.
Qed.

Lemma foldM_take : forall {A B} (g : A -> outcome B) (h : A -> B) n s pre rest (acc : list B),
  length pre = n -> (forall a, In a pre -> g a = Ret (h a)) ->
  foldM (fun st2 (_ : nat) =>
           match snd st2 with
           | [] => Panic
           | r :: rest => cs <- g r ;; Ret (fst st2 ++ [cs], rest)
           end) (seq s n) (acc, pre ++ rest) = Ret (acc ++ map h pre, rest).
Proof.
  intros A B g h n; induction n as [|n IH]; intros s pre rest acc L H.
  - destruct pre; [|discriminate]. simpl. now rewrite app_nil_r.
  - destruct pre as [|a pre]; [discriminate|]. cbn [seq foldM snd fst app].
    rewrite H by (left; auto). cbn [obind].
    rewrite IH; [|simpl in L; lia | intros; apply H; right; auto].
    now rewrite <- app_assoc.
Qed.

Lemma take_heads_ok : forall {X} (h : X -> list T) (t : X -> list (list T)) (us : list X),
  take_heads (map (fun u => h u :: t u) us) = Ret (concat (map h us), map t us).
Proof.
  intros X h t us. unfold take_heads.
  assert (G : forall us a b, foldM (fun st s =>
           match s with
           | [] => Panic
           | h :: t => Ret (fst st ++ h, snd st ++ [t])
           end) (map (fun u => h u :: t u) us) (a, b) = Ret (a ++ concat (map h us), b ++ map t us)).
  { clear us. induction us as [|u us IH]; intros a b; simpl; [now rewrite !app_nil_r|].
    rewrite IH. now rewrite <- !app_assoc. }
  apply (G us [] []).
Qed.

Lemma mapM_seq_S : forall {A} (f : nat -> outcome A) n,
  mapM f (seq 0 (S n)) = (x <- f 0 ;; xs <- mapM (fun i => f (S i)) (seq 0 n) ;; Ret (x :: xs)).
Proof. intros. cbn [seq mapM]. rewrite <- seq_shift, mapM_map. reflexivity. Qed.

Lemma obind_assoc : forall {A B D} (m : outcome A) (k : A -> outcome B) (h : B -> outcome D),
  obind (obind m k) h = obind m (fun a => obind (k a) h).
Proof. intros A B D [a|] k h; reflexivity. Qed.

Lemma obind_ext : forall {A B} (m : outcome A) (k k' : A -> outcome B),
  (forall a, k a = k' a) -> obind m k = obind m k'.
Proof. intros A B [a|] k k' H; simpl; auto. Qed.

Lemma block_row_ok : forall (F : list T -> outcome T) a b (G : nat -> nat -> nat -> T) n,
  block_row F n (map (fun u => tab_rows n b (G u)) (seq 0 a)) =
  mapM (fun j => F (concat (map (fun u => tab_row (G u) b j) (seq 0 a)))) (seq 0 n).
Proof.
  intros F a b G n. unfold block_row.
  assert (K : forall n s (G : nat -> nat -> nat -> T) acc,
    (st <- foldM (fun st (_ : nat) =>
          bh <- take_heads (snd st) ;;
          v <- F (fst bh) ;;
          Ret (fst st ++ [v], snd bh)) (seq s n) (acc, map (fun u => tab_rows n b (G u)) (seq 0 a)) ;;
     Ret (fst st)) =
    (vs <- mapM (fun j => F (concat (map (fun u => tab_row (G u) b j) (seq 0 a)))) (seq 0 n) ;; Ret (acc ++ vs))).
  { clear n G. induction n as [|n IH]; intros s G acc; [simpl; now rewrite app_nil_r|].
    rewrite mapM_seq_S. cbn [seq foldM].
    rewrite (map_ext (fun u => tab_rows (S n) b (G u))
               (fun u => tab_row (G u) b 0 :: tab_rows n b (fun i => G u (S i)))) by (intros; apply tab_rows_S).
    cbn [snd]. rewrite take_heads_ok. cbn [obind fst snd].
    rewrite !obind_assoc. apply obind_ext. intros v. cbn [obind fst].
    rewrite (IH (S s) (fun u i => G u (S i)) (acc ++ [v])), obind_assoc.
    unfold tab_row. apply obind_ext. intros vs. cbn [obind]. now rewrite <- app_assoc. }
  rewrite K. destruct (mapM _ _); reflexivity.
Qed.

Lemma block_reduce_ok : forall d (m : matrix T) a b (F : list T -> outcome T),
  wf m -> 1 <= a -> 1 <= b -> sh0 m mod a = 0 -> sh1 m mod b = 0 -> a <= sh0 m -> b <= sh1 m ->
  block_reduce m a b F =
  (rows <- mapM (fun i => mapM (fun j => F (block a b (entry d m) i j)) (seq 0 (sh1 m / b))) (seq 0 (sh0 m / a)) ;;
   Ret (Ok (from_body (concat rows) (sh0 m / a) (sh1 m / b)))).
Proof.
  intros d m a b F H Ha Hb Ma Mb La Lb. unfold block_reduce.
  rewrite !umod_ok, !udiv_ok by lia. cbn [obind]. rewrite Ma, Mb. cbn [Nat.eqb negb obind].
  replace (sh0 m <? a) with false by (symmetry; apply Nat.ltb_ge; auto).
  replace (sh1 m <? b) with false by (symmetry; apply Nat.ltb_ge; auto). cbn [orb].
  rewrite (rows_as_iter_ok d m H) by lia. cbn [obind].
  assert (Er : sh0 m = sh0 m / a * a) by (pose proof (Nat.div_mod (sh0 m) a); lia).
  assert (Ec : sh1 m = sh1 m / b * b) by (pose proof (Nat.div_mod (sh1 m) b); lia).
  set (R := sh0 m / a) in *. set (C := sh1 m / b) in *. rewrite Er at 1. rewrite Ec at 1.
  set (e := entry d m).
  assert (K : forall R s (e : nat -> nat -> T) acc,
    (st <- foldM (fun st (_ : nat) =>
            taken <- foldM (fun st2 (_ : nat) =>
                        match snd st2 with
                        | [] => Panic
                        | r :: rest => cs <- chunks b r ;; Ret (fst st2 ++ [cs], rest)
                        end) (seq 0 a) ([], snd st) ;;
            out <- block_row F C (fst taken) ;;
            Ret (fst st ++ out, snd taken)) (seq s R) (acc, tab_rows (R * a) (C * b) e) ;; Ret (fst st)) =
    (rows <- mapM (fun i => mapM (fun j => F (block a b e i j)) (seq 0 C)) (seq 0 R) ;; Ret (acc ++ concat rows))).
  { clear R e Er. induction R as [|R IH]; intros s e acc; [simpl; now rewrite app_nil_r|].
    rewrite mapM_seq_S. cbn [seq foldM]. cbn [snd fst].
    replace (S R * a) with (a + R * a) by (simpl; lia). rewrite tab_rows_app.
    rewrite (foldM_take (chunks b) (fun l => match chunks b l with Ret c => c | Panic => [] end));
      [|now rewrite tab_rows_length|].
    2: { intros l _. unfold chunks. replace (b =? 0) with false by (symmetry; apply Nat.eqb_neq; lia). reflexivity. }
    cbn [obind fst snd app].
    assert (Em : map (fun l => match chunks b l with Ret c => c | Panic => [] end) (tab_rows a (C * b) e)
            = map (fun u => tab_rows C b (fun j v => e u (j * b + v))) (seq 0 a)).
    { unfold tab_rows at 1. rewrite map_map. apply map_ext. intros u.
      rewrite tab_row_chunks, chunks_tab by lia. reflexivity. }
    rewrite Em, block_row_ok.
    replace (mapM (fun j => F (concat (map (fun u => tab_row (fun j0 v => e u (j0 * b + v)) b j) (seq 0 a)))) (seq 0 C))
      with (mapM (fun j => F (block a b e 0 j)) (seq 0 C)) by reflexivity.
    rewrite !obind_assoc. apply obind_ext. intros out. cbn [obind fst snd].
    rewrite (IH (S s) (fun i => e (a + i)) (acc ++ out)), obind_assoc.
    rewrite (mapM_ext (fun i => mapM (fun j => F (block a b (fun i0 => e (a + i0)) i j)) (seq 0 C))
                      (fun i => mapM (fun j => F (block a b e (S i) j)) (seq 0 C))).
    - apply obind_ext. intros rows. cbn [obind concat]. now rewrite <- app_assoc.
    - intros i _. apply mapM_ext. intros j _. unfold block. do 2 f_equal.
      apply tab_rows_ext. intros u v _ _. f_equal. simpl. lia. }
  specialize (K R 0 e []). cbn [app] in K.
  set (X := foldM _ _ _) in *. destruct X as [[o rest]|] eqn:EX; cbn [obind fst] in *.
  - destruct (mapM _ _) as [rows|]; [|discriminate]. cbn [obind] in *. inversion K. reflexivity.
  - destruct (mapM _ _) as [rows|]; [discriminate|]. reflexivity.
Qed.

Lemma block_reduce_err : forall (m : matrix T) a b (F : list T -> outcome T),
  (a = 0 \/ (sh0 m mod a = 0 /\ b = 0) -> block_reduce m a b F = Panic) /\
  (1 <= a -> 1 <= b -> sh0 m mod a <> 0 \/ sh1 m mod b <> 0 \/ sh0 m < a \/ sh1 m < b ->
     block_reduce m a b F = Ret (Err Op_InconsistentShape)).
Proof.
  intros m a b F. split.
  - intros H. unfold block_reduce. destruct (Nat.eq_dec a 0) as [->|Ha]; [reflexivity|].
    destruct H as [H|[H ->]]; [lia|]. rewrite umod_ok by auto. cbn [obind]. rewrite H. reflexivity.
  - intros Ha Hb H. unfold block_reduce. rewrite !umod_ok by lia. cbn [obind].
    destruct (sh0 m mod a =? 0) eqn:E0; cbn [negb obind]; [|reflexivity].
    destruct (sh1 m mod b =? 0) eqn:E1; cbn [negb]; [|reflexivity].
    apply Nat.eqb_eq in E0, E1.
    replace ((sh0 m <? a) || (sh1 m <? b)) with true; [reflexivity|]. symmetry.
    apply orb_true_iff. rewrite !Nat.ltb_lt. lia.
Qed.

(** Every entry goes to exactly one block. *)
Lemma concat_map_swap : forall {A B X} (h : A -> B -> list X) (la : list A) (lb : list B),
  Permutation (concat (map (fun a => concat (map (fun b => h a b) lb)) la))
              (concat (map (fun b => concat (map (fun a => h a b) la)) lb)).
Proof.
  intros A B X h la lb. induction la as [|a la IH]; simpl.
  - induction lb; simpl; auto.
  - rewrite IH. clear IH. induction lb as [|b lb IHb]; simpl; auto.
    rewrite <- !app_assoc. apply Permutation_app_head.
    rewrite <- IHb. rewrite !app_assoc. apply Permutation_app_tail. apply Permutation_app_comm.
Qed.

Lemma concat_permutation_ext : forall {A X} (h k : A -> list X) l,
  (forall a, In a l -> Permutation (h a) (k a)) -> Permutation (concat (map h l)) (concat (map k l)).
Proof.
  intros A X h k l; induction l as [|a l IH]; intros H; simpl; auto.
  apply Permutation_app; [apply H; left; auto | apply IH; intros; apply H; right; auto].
Qed.

Lemma blocks_partition : forall f R C a b,
  Permutation (concat (map (fun i => concat (map (fun j => block a b f i j) (seq 0 C))) (seq 0 R)))
              (concat (tab_rows (R * a) (C * b) f)).
Proof.
  intros f R C a b.
  assert (E : concat (tab_rows (R * a) (C * b) f) =
     concat (map (fun i => concat (map (fun u => tab_row f (C * b) (i * a + u)) (seq 0 a))) (seq 0 R))).
  { revert f. induction R as [|R IH]; intros f; [reflexivity|].
    replace (S R * a) with (a + R * a) by (simpl; lia). rewrite tab_rows_app, concat_app, IH.
    cbn [seq map concat]. apply (f_equal2 (@app T)); [reflexivity|].
    rewrite <- seq_shift, map_map. f_equal. apply map_ext. intros i. f_equal. apply map_ext. intros u.
    unfold tab_row. apply map_ext. intros j. f_equal. simpl. lia. }
  rewrite E. apply concat_permutation_ext. intros i _. unfold block, tab_rows.
  rewrite concat_map_swap. apply concat_permutation_ext. intros u _.
  rewrite tab_row_chunks. unfold tab_rows. apply Permutation_refl.
Qed.

End Blocks.

(** ** Up-sampling *)
Section Up.
Context {T : Type} (O : BasicOps T).
Local Notation ent := (entry (dflt O)).
Local Notation z := (dflt O).

Lemma stuff_row : forall (f : nat -> nat -> T) c b q i,
  q < b ->
  flat_map (fun e => repeat z q ++ [e] ++ repeat z (b - q - 1)) (tab_row f c i)
  = tab_row (fun i j => if j mod b =? q then f i (j / b) else z) (c * b) i.
Proof.
  intros f c b q i Hq. rewrite tab_row_chunks, flat_map_concat_map. unfold tab_row at 1. rewrite map_map.
  f_equal. apply map_ext. intros j. unfold tab_row.
  rewrite !repeat_map_seq. replace (seq 0 b) with (seq 0 (q + (1 + (b - q - 1)))) by (f_equal; lia).
  rewrite !seq_app, !map_app. cbn [Nat.add seq map app]. f_equal; [|f_equal].
  - apply map_seq_ext. intros v Hv. rewrite mod_block by lia.
    now replace (v =? q) with false by (symmetry; apply Nat.eqb_neq; lia).
  - rewrite mod_block, Nat.eqb_refl, div_block by lia. reflexivity.
  - replace (q + 1) with (S q) by lia. rewrite (map_seq_shift _ (S q)).
    apply map_seq_ext. intros v Hv.
    rewrite mod_block by lia. now replace (S q + v =? q) with false by (symmetry; apply Nat.eqb_neq; lia).
Qed.

Lemma stuff_rows : forall (f : nat -> nat -> T) c a b p q i,
  p < a -> q < b ->
  concat (repeat (repeat z (c * b)) p) ++
  flat_map (fun e => repeat z q ++ [e] ++ repeat z (b - q - 1)) (tab_row f c i) ++
  concat (repeat (repeat z (c * b)) (a - p - 1))
  = concat (tab_rows a (c * b) (fun u j => stuffed z a b p q f (i * a + u) j)).
Proof.
  intros f c a b p q i Hp Hq. rewrite stuff_row by auto.
  replace a with (p + (1 + (a - p - 1))) at 2 by lia. rewrite !tab_rows_app, !concat_app.
  f_equal; [|f_equal].
  - f_equal. rewrite !repeat_map_seq. unfold tab_rows, tab_row. apply map_seq_ext. intros u Hu.
    apply map_seq_ext. intros j _. unfold stuffed. rewrite mod_block by lia.
    now replace (u =? p) with false by (symmetry; apply Nat.eqb_neq; lia).
  - unfold tab_rows. cbn [seq map concat]. rewrite app_nil_r. unfold tab_row. apply map_seq_ext. intros j _.
    unfold stuffed. rewrite Nat.add_0_r, mod_block, div_block, Nat.eqb_refl by lia. reflexivity.
  - f_equal. rewrite !repeat_map_seq. unfold tab_rows, tab_row. apply map_seq_ext. intros u Hu.
    apply map_seq_ext. intros j _. unfold stuffed. rewrite mod_block by lia.
    now replace (p + (1 + u) =? p) with false by (symmetry; apply Nat.eqb_neq; lia).
Qed.

(** The zero-stuffed matrix is built correctly. *)
Lemma upsampling_shape : forall (m : matrix T) a b kernel,
  wf m -> 1 <= a -> 1 <= b -> sh1 m <> 0 -> up_off b a < b ->
  fractional_upsampling O m a b kernel =
  (let s := mat (sh0 m * a) (sh1 m * b) (stuffed z a b (up_off a a) (up_off b a) (ent m)) in
   if (sh0 kernel mod 2 =? 0) || (sh1 kernel mod 2 =? 0) then Ret (Err Op_InvalidRHS)
   else p <- usub (sh0 kernel) 2 ;; padded <- pad O s p p ;; out <-! convolution O padded kernel ;; Ret (Ok out)).
Proof.
  intros m a b kernel H Ha Hb Hc Hq. unfold fractional_upsampling.
  rewrite (rows_as_iter_ok z m H Hc). cbn [obind].
  assert (Hp : up_off a a < a).
  { unfold up_off. destruct (a mod 2 =? 0); [|].
    - assert (a / 2 <= a) by (apply Nat.div_le_upper_bound; lia). lia.
    - assert ((a - 1) / 2 <= a - 1) by (apply Nat.div_le_upper_bound; lia). lia. }
  assert (E1 : (if a mod 2 =? 0 then usub (a / 2) 1 else x <- usub a 1;; Ret (x / 2)) = Ret (up_off a a)).
  { unfold up_off. destruct (a mod 2 =? 0) eqn:E.
    - apply Nat.eqb_eq in E. apply usub_ok. destruct a as [|[|a']]; [lia|discriminate|].
      apply Nat.div_le_lower_bound; lia.
    - rewrite usub_ok by lia. reflexivity. }
  assert (E2 : (if b mod 2 =? 0 then usub (b / 2) 1 else x <- usub a 1;; Ret (x / 2)) = Ret (up_off b a)).
  { unfold up_off. destruct (b mod 2 =? 0) eqn:E.
    - apply Nat.eqb_eq in E. apply usub_ok. destruct b as [|[|b']]; [lia|discriminate|].
      apply Nat.div_le_lower_bound; lia.
    - rewrite usub_ok by lia. reflexivity. }
  rewrite E1. cbn [obind]. rewrite (usub_ok a) by lia. cbn [obind]. rewrite usub_ok by lia. cbn [obind].
  rewrite E2. cbn [obind]. rewrite (usub_ok b) by lia. cbn [obind]. rewrite usub_ok by lia. cbn [obind].
  set (p := up_off a a) in *. set (q := up_off b a) in *. cbn zeta.
  assert (K : forall n s i0 acc,
     foldM (fun st (_ : nat) =>
          match snd st with
          | [] => Panic
          | r :: rest =>
              Ret (fst st
                   ++ concat (repeat (repeat z (sh1 m * b)) p)
                   ++ flat_map (fun e => repeat z q ++ [e] ++ repeat z (b - q - 1)) r
                   ++ concat (repeat (repeat z (sh1 m * b)) (a - p - 1)), rest)
          end) (seq s n) (acc, tab_rows n (sh1 m) (fun i => ent m (i0 + i)))
     = Ret (acc ++ concat (tab_rows (n * a) (sh1 m * b) (fun i => stuffed z a b p q (ent m) (i0 * a + i))), [])).
  { induction n as [|n IH]; intros s i0 acc; [simpl; now rewrite app_nil_r|].
    cbn [seq foldM]. rewrite tab_rows_S. cbn [snd fst].
    rewrite stuff_rows by auto. cbn [obind].
    rewrite (tab_rows_ext n (sh1 m) _ (fun i => ent m (S i0 + i))) by (intros; f_equal; lia).
    rewrite IH. replace (S n * a) with (a + n * a) by (simpl; lia).
    rewrite (tab_rows_app a (n * a)), concat_app, <- app_assoc. do 4 f_equal.
    - f_equal. apply tab_rows_ext. intros u j Hu _. unfold stuffed.
      rewrite !(mod_block a), !(div_block a) by lia. now rewrite !Nat.add_0_r.
    - f_equal. apply tab_rows_ext. intros u j _ _. f_equal. simpl. lia. }
  rewrite (tab_rows_ext _ _ (ent m) (fun i => ent m (0 + i))) by auto.
  rewrite K. cbn [obind fst app]. rewrite concat_tab_length, Nat.eqb_refl. cbn [negb]. reflexivity.
Qed.

Lemma upsampling_ok : forall (m : matrix T) a b kernel k,
  wf m -> wf kernel -> 1 <= a -> 1 <= b -> 1 <= sh0 m -> 1 <= sh1 m -> up_off b a < b ->
  sh0 kernel = k -> sh1 kernel = k -> k mod 2 = 1 -> 3 <= k ->
  fractional_upsampling O m a b kernel =
  Ret (Ok (mat (sh0 m * a + k - 3) (sh1 m * b + k - 3)
     (corr O k k (framed z (sh0 m * a) (sh1 m * b) (k - 2) (k - 2)
                    (stuffed z a b (up_off a a) (up_off b a) (ent m))) (ent kernel)))).
Proof.
  intros m a b kernel k H Hk Ha Hb H0 H1 Hq K0 K1 Hodd Hk3.
  rewrite upsampling_shape by (auto; lia). cbn zeta. rewrite K0, K1, Hodd. cbn [Nat.eqb orb].
  rewrite usub_ok by lia. cbn [obind]. rewrite pad_ok by apply wf_mat. cbn [obind].
  set (s := mat (sh0 m * a) (sh1 m * b) _). set (P := mat _ _ (framed _ _ _ _ _ (ent s))).
  assert (P0 : sh0 P = sh0 m * a + 2 * (k - 2)) by reflexivity.
  assert (P1 : sh1 P = sh1 m * b + 2 * (k - 2)) by reflexivity.
  assert (1 <= sh0 m * a) by nia. assert (1 <= sh1 m * b) by nia.
  rewrite convolution_ok; [|apply wf_mat | exact Hk | lia ..].
  cbn [obind unwrap]. rewrite P0, P1, K0, K1.
  replace (sh0 m * a + 2 * (k - 2) - k + 1) with (sh0 m * a + k - 3) by lia.
  replace (sh1 m * b + 2 * (k - 2) - k + 1) with (sh1 m * b + k - 3) by lia.
  do 2 f_equal. apply mat_ext. intros i j Hi Hj. unfold corr, sum_from.
  apply fold_left_ext. intros acc u Hu. apply in_seq in Hu. f_equal.
  apply fold_left_ext. intros acc' v Hv. apply in_seq in Hv. f_equal. f_equal.
  unfold P. change (sh0 s) with (sh0 m * a). change (sh1 s) with (sh1 m * b).
  rewrite entry_mat by lia. unfold framed.
  destruct ((k - 2 <=? i + u) && (i + u <? k - 2 + sh0 m * a) && (k - 2 <=? j + v) && (j + v <? k - 2 + sh1 m * b)) eqn:E; auto.
  repeat rewrite andb_true_iff in E. rewrite !Nat.leb_le, !Nat.ltb_lt in E.
  unfold s. apply entry_mat; lia.
Qed.

End Up.
