(** * Properties C13-C23, C25-C28: matrices and slices *)
From Coq Require Import String Permutation.
From Verif Require Import Base BaseFacts Matrix SpecMatrix MatrixFacts MatrixFacts2 Input Dataset ExOps.
Local Open Scope nat_scope.
Local Open Scope list_scope.
Local Notation length := List.length.

(** A 2 x 3 integer matrix used in the examples. *)
Definition m23 : matrix Z := mkM [1; 2; 3; 4; 5; 6]%Z 2 3 2 3.
Example m23_wf : wf m23.
Proof. reflexivity. Qed.

(** ** C13 *)
Theorem C13_elm : forall {T} (m : matrix T) i j, wf m ->
  (i < sh0 m /\ j < sh1 m ->
     exists x, nth_error (body m) (i * sh1 m + j) = Some x /\ elm m i j = Ret (Ok x)) /\
  (~ (i < sh0 m /\ j < sh1 m) -> elm m i j = Ret (Err Acc_OutOfBounds)).
Proof.
  intros T m i j H. split.
  - intros [Hi Hj].
    assert (L : i * sh1 m + j < length (body m)) by (rewrite H; now apply body_length_lt).
    destruct (nth_error (body m) (i * sh1 m + j)) as [x|] eqn:E.
    + exists x. split; auto. rewrite (elm_ok x) by auto. unfold entry.
      now rewrite (nth_error_nth _ _ _ E).
    + apply nth_error_None in E. lia.
  - intros N. apply elm_out. lia.
Qed.
Print Assumptions C13_elm.

Theorem C13_addresses_distinct : forall c i j i' j',
  j < c -> j' < c -> (i, j) <> (i', j') -> i * c + j <> i' * c + j'.
Proof.
  intros c i j i' j' Hj Hj' N E. apply N. destruct (address_inj c i j i' j' Hj Hj' E). congruence.
Qed.
Print Assumptions C13_addresses_distinct.

Theorem C13_row : forall {T} (m : matrix T) i, wf m ->
  (i < sh0 m ->
     exists r, row m i = Ret (Ok r) /\ length r = sh1 m /\
               forall j, j < sh1 m -> nth_error r j = nth_error (body m) (i * sh1 m + j)) /\
  (sh0 m <= i -> row m i = Ret (Err Acc_OutOfBounds)).
Proof.
  intros T m i H. split; [|apply row_out].
  intros Hi. unfold row. replace (sh0 m <=? i) with false by (symmetry; apply Nat.leb_gt; auto).
  assert (L : i * sh1 m + sh1 m <= length (body m)).
  { rewrite H. replace (i * sh1 m + sh1 m) with (S i * sh1 m) by (simpl; lia). apply Nat.mul_le_mono_r. lia. }
  rewrite slice_ok by lia. cbn [obind]. eexists. split; [reflexivity|].
  replace (i * sh1 m + sh1 m - i * sh1 m) with (sh1 m) by lia. split.
  - rewrite firstn_length, skipn_length. lia.
  - intros j Hj. rewrite nth_error_firstn_lt, nth_error_skipn_eq by auto. reflexivity.
Qed.
Print Assumptions C13_row.

(** A matrix made from a body and a shape holds that body, row after row. *)
Theorem C13_from_body : forall {T} (b : list T) r c, length b = r * c ->
  (forall i j x, nth_error b (i * c + j) = Some x -> j < c -> elm (from_body b r c) i j = Ret (Ok x)) /\
  (forall i j, ~ (i < r /\ j < c) -> elm (from_body b r c) i j = Ret (Err Acc_OutOfBounds)).
Proof.
  intros T b r c H. assert (W : wf (from_body b r c)) by exact H. split.
  - intros i j x E J. assert (L : i * c + j < r * c) by (rewrite <- H; apply nth_error_Some; congruence).
    assert (I : i < r) by nia. destruct (proj1 (C13_elm (from_body b r c) i j W) (conj I J)) as (y & N & R).
    cbn [from_body body sh1] in N. congruence.
  - intros i j N. apply (proj2 (C13_elm (from_body b r c) i j W)). exact N.
Qed.
Print Assumptions C13_from_body.

Example C13_ex : elm m23 1 2 = Ret (Ok 6%Z) /\ elm m23 1 3 = Ret (Err Acc_OutOfBounds)
  /\ row m23 1 = Ret (Ok [4; 5; 6]%Z) /\ row m23 2 = Ret (Err Acc_OutOfBounds).
Proof. repeat split. Qed.

(** ** C14 *)
Theorem C14_elm_write : forall {T} (m : matrix T) i j v, wf m -> i < sh0 m -> j < sh1 m ->
  exists m', elm_write m i j v = Ret (m', Ok tt) /\
    sh0 m' = sh0 m /\ sh1 m' = sh1 m /\ cap0 m' = cap0 m /\ cap1 m' = cap1 m /\ wf m' /\
    elm m' i j = Ret (Ok v) /\
    forall i' j', (i', j') <> (i, j) -> elm m' i' j' = elm m i' j'.
Proof.
  intros T m i j v H Hi Hj.
  destruct (elm_write_ok v m i j v H Hi Hj) as [m' [E [W [S0 [S1 [C0 [C1 V]]]]]]].
  exists m'. repeat split; auto.
  - rewrite (elm_ok v m') by (auto; lia). rewrite V by auto. now rewrite !Nat.eqb_refl.
  - intros i' j' N. destruct (Nat.lt_ge_cases i' (sh0 m)) as [A|A];
      [destruct (Nat.lt_ge_cases j' (sh1 m)) as [B|B]|].
    + rewrite (elm_ok v m), (elm_ok v m') by (auto; lia). rewrite V by auto.
      destruct ((i' =? i) && (j' =? j)) eqn:F; auto.
      apply andb_true_iff in F as [F1 F2]. apply Nat.eqb_eq in F1, F2. congruence.
    + rewrite !elm_out by lia. reflexivity.
    + rewrite !elm_out by lia. reflexivity.
Qed.
Print Assumptions C14_elm_write.

Theorem C14_elm_write_out : forall {T} (m : matrix T) i j v,
  ~ (i < sh0 m /\ j < sh1 m) -> elm_write m i j v = Ret (m, Err Acc_OutOfBounds).
Proof. intros T m i j v N. apply elm_write_out. lia. Qed.
Print Assumptions C14_elm_write_out.

Theorem C14_row_write : forall {T} (m : matrix T) i (v : list T), wf m ->
  (i < sh0 m -> length v = sh1 m ->
   exists m', row_write m i v = Ret (m', Ok tt) /\
    sh0 m' = sh0 m /\ sh1 m' = sh1 m /\ cap0 m' = cap0 m /\ cap1 m' = cap1 m /\ wf m' /\
    row m' i = Ret (Ok v) /\ forall i', i' <> i -> row m' i' = row m i') /\
  (sh0 m <= i -> row_write m i v = Ret (m, Err Acc_OutOfBounds)).
Proof.
  intros T m i v H. split.
  - intros Hi L. destruct (body m) as [|d b] eqn:Eb.
    + (* no entry at all: zero columns *)
      assert (Z : sh1 m = 0) by (unfold wf in H; rewrite Eb in H; simpl in H; destruct (sh1 m); nia).
      assert (v = []) by (apply length_zero_iff_nil; lia). subst v.
      unfold row_write. replace (sh0 m <=? i) with false by (symmetry; apply Nat.leb_gt; auto).
      rewrite Z, Eb. rewrite slice_ok by (simpl; lia). cbn [obind].
      rewrite !firstn_nil, !skipn_nil. cbn [app zip_assign].
      eexists. split; [rewrite firstn_nil; reflexivity|]. simpl. repeat split; auto.
      * unfold wf. simpl. rewrite Z. lia.
      * unfold row. simpl. replace (sh0 m <=? i) with false by (symmetry; apply Nat.leb_gt; auto).
        rewrite Z. rewrite slice_ok by (simpl; lia). now rewrite skipn_nil, firstn_nil.
      * intros i' _. unfold row. simpl. now rewrite Eb.
    + destruct (row_write_ok d m i v H Hi L) as [m' [E [W [S0 [S1 [C0 [C1 V]]]]]]].
      exists m'. repeat split; auto.
      * rewrite (row_ok d m') by (auto; lia). do 2 f_equal. unfold tab_row. rewrite S1.
        transitivity (map (fun j => nth j v d) (seq 0 (length v))); [|symmetry; apply list_eq_map_nth].
        rewrite L. apply map_seq_ext. intros j Hj. rewrite V by auto. now rewrite Nat.eqb_refl.
      * intros i' N. destruct (Nat.lt_ge_cases i' (sh0 m)) as [A|A].
        -- rewrite (row_ok d m'), (row_ok d m) by (auto; lia). do 2 f_equal. unfold tab_row. rewrite S1.
           apply map_seq_ext. intros j Hj. rewrite V by auto.
           now replace (i' =? i) with false by (symmetry; apply Nat.eqb_neq; auto).
        -- rewrite !row_out by lia. reflexivity.
  - intros Hi. unfold row_write. apply Nat.leb_le in Hi. now rewrite Hi.
Qed.
Print Assumptions C14_row_write.

Example C14_ex : elm_write m23 0 1 9%Z = Ret (mkM [1; 9; 3; 4; 5; 6]%Z 2 3 2 3, Ok tt)
  /\ row_write m23 1 [7; 8; 9]%Z = Ret (mkM [1; 2; 3; 7; 8; 9]%Z 2 3 2 3, Ok tt).
Proof. split; reflexivity. Qed.

(** ** C15 *)
Theorem C15_history : forall {T} c0 c1 (ops : list (rowop T)),
  let s := fst (s_run (mkR [] (c0, c1)) ops) in
  m_run (m_with_capacity c0 c1) ops = Ret (repr s, snd (s_run (mkR [] (c0, c1)) ops)) /\
  Forall (fun r => length r = sh1 (repr s)) (r_rows s) /\ wf (repr s).
Proof.
  intros T c0 c1 ops s.
  destruct (m_run_refines ops (mkR [] (c0, c1)) (Forall_nil _)) as [E R].
  split; [exact E|]. split; [exact R | now apply rect_wf].
Qed.
Print Assumptions C15_history.

(** From any matrix, an accepted deletion makes the next [add_row] fail. *)
Theorem C15_add_after_del : forall {T} (m m' : matrix T) i r row,
  del_row m i = Ret (m', Ok r) ->
  add_row m' row = (m', Err Upd_InconsistentLength) \/ add_row m' row = (m', Err Upd_Overflow).
Proof.
  intros T m m' i r row H. unfold del_row in H.
  destruct (sh0 m <=? i); [discriminate|]. destruct (sh0 m =? 0); [discriminate|].
  apply obind_inv in H as [x [_ H]]. inversion H; subst. clear H.
  unfold add_row, dealloc. cbn [sh0 sh1 cap0 cap1 body].
  set (b := firstn _ _ ++ _). set (s1 := if _ : bool then 0 else _).
  destruct (negb _) eqn:E; [left; reflexivity|].
  right. replace (sh0 m - 1 <? sh0 m - 1 + 1) with true by (symmetry; apply Nat.ltb_lt; lia).
  cbn [orb]. now rewrite Nat.add_sub.
Qed.
Print Assumptions C15_add_after_del.

Theorem C15_add_after_del_width : forall {T} (m m' : matrix T) i r row,
  del_row m i = Ret (m', Ok r) -> length row = sh1 m' -> add_row m' row = (m', Err Upd_Overflow).
Proof.
  intros T m m' i r row H L. destruct (C15_add_after_del m m' i r row H) as [E|E]; [|exact E].
  unfold add_row in E. rewrite L, Nat.eqb_refl in E. cbn [orb negb] in E.
  destruct (_ || _) in E; inversion E.
Qed.
Print Assumptions C15_add_after_del_width.

Example C15_ex :
  m_run (m_with_capacity 3 2) [AddRow [1; 2]; AddRow [3]; AddRow [3; 4]; DelRow 0; AddRow [5; 6]; DelRow 4]%Z
  = Ret (mkM [3; 4]%Z 1 2 1 2,
         [OutAdd (Ok tt); OutAdd (Err Upd_InconsistentLength); OutAdd (Ok tt); OutDel (Ok [1; 2]%Z);
          OutAdd (Err Upd_Overflow); OutDel (Err Del_OutOfBounds)]).
Proof. reflexivity. Qed.

(** ** C16 *)
Theorem C16_flush : forall {T} (m : matrix T) r m' left res,
  add_mut_row m r = (m', left, res) ->
  (res = Ok tt /\ left = [] /\ body m' = body m ++ r /\ sh0 m' = sh0 m + 1 /\ sh1 m' = length r /\
   cap0 m' = cap0 m /\ cap1 m' = cap1 m) \/
  ((res = Err Upd_InconsistentLength \/ res = Err Upd_Overflow) /\ left = r /\ m' = m).
Proof.
  intros T m r m' left res H. unfold add_mut_row in H.
  destruct (negb _); [inversion H; subst; auto|].
  destruct (_ || _); inversion H; subst; auto. left. repeat split.
Qed.
Print Assumptions C16_flush.

(** Exactly when it is accepted: the length of the row is never compared with
    the column capacity. *)
Theorem C16_accepted_iff : forall {T} (m : matrix T) r,
  (exists m' left, add_mut_row m r = (m', left, Ok tt)) <->
  (length r = sh1 m \/ sh1 m = 0) /\ sh0 m < cap0 m /\ sh1 m <= cap1 m.
Proof.
  intros T m r. unfold add_mut_row. split.
  - intros [m' [left H]].
    destruct (negb _) eqn:E; [inversion H|]. apply negb_false_iff, orb_true_iff in E.
    rewrite !Nat.eqb_eq in E.
    destruct (_ || _) eqn:F; [inversion H|]. apply orb_false_iff in F as [F1 F2].
    apply Nat.leb_gt in F1. apply Nat.ltb_ge in F2. auto.
  - intros [A [B C]]. eexists; eexists.
    replace (negb ((length r =? sh1 m) || (sh1 m =? 0))) with false.
    2: { symmetry. apply negb_false_iff, orb_true_iff. rewrite !Nat.eqb_eq. exact A. }
    replace ((cap0 m <=? sh0 m) || (cap1 m <? sh1 m)) with false.
    2: { symmetry. apply orb_false_iff. split; [apply Nat.leb_gt | apply Nat.ltb_ge]; lia. }
    reflexivity.
Qed.
Print Assumptions C16_accepted_iff.

(** Consequences the documentation does not warn about: the shape can exceed
    the declared capacity, and a matrix with rows but no columns stops being
    rectangular. *)
Theorem C16_capacity_refuted : forall {T} (x : T),
  exists (m : matrix T) r (m' : matrix T), wf m /\ add_mut_row m r = (m', [], Ok tt) /\ cap1 m' < sh1 m'.
Proof.
  intros T x. exists (m_with_capacity 1 1), [x; x]. eexists. split; [reflexivity|].
  split; [reflexivity|]. simpl. lia.
Qed.
Print Assumptions C16_capacity_refuted.

Theorem C16_rectangular_refuted : forall {T} (x : T),
  exists (m : matrix T) r (m' : matrix T), wf m /\ add_mut_row m r = (m', [], Ok tt) /\ ~ wf m'.
Proof.
  intros T x. exists (mkM [] 1 0 2 2), [x]. eexists. split; [reflexivity|].
  split; [reflexivity|]. unfold wf. simpl. lia.
Qed.
Print Assumptions C16_rectangular_refuted.

Theorem C16_rectangular : forall {T} (m : matrix T) r m' left,
  wf m -> (sh0 m = 0 \/ sh1 m <> 0) -> add_mut_row m r = (m', left, Ok tt) -> wf m'.
Proof.
  intros T m r m' left H N E.
  destruct (C16_flush m r m' left (Ok tt) E) as [[_ [_ [B [S0 [S1 _]]]]]|[[?|?] _]]; [|discriminate|discriminate].
  assert (A : exists m' left, add_mut_row m r = (m', left, Ok tt)) by eauto.
  apply C16_accepted_iff in A as [A _]. unfold wf in *. rewrite B, app_length, H, S0, S1.
  destruct N as [N|N]; [rewrite N; lia | destruct A as [A|A]; [rewrite A; lia | lia]].
Qed.
Print Assumptions C16_rectangular.

Example C16_ex : add_mut_row (mkM [1; 2]%Z 1 2 2 2) [3; 4]%Z = (mkM [1; 2; 3; 4]%Z 2 2 2 2, [], Ok tt)
  /\ wf (mkM [1; 2]%Z 1 2 2 2) /\ sh1 (mkM [1; 2]%Z 1 2 2 2) <> 0.
Proof. repeat split. simpl. lia. Qed.

(** ** C17 *)
Theorem C17_outcome : forall {T} (m : matrix T) col, wf m ->
  (length col = sh0 m -> add_col m col = Ret (m, col, Err Upd_InconsistentLength)) /\
  (length col <> sh0 m -> sh1 m < cap1 m -> add_col m col = Ret (m, col, Err Upd_Overflow)) /\
  (1 <= sh1 m -> length col < sh0 m -> cap1 m <= sh1 m ->
     exists b, add_col m col = Ret (mkM b (length col) (sh1 m + 1) (cap0 m) (cap1 m), [], Ok tt) /\
               length b = length (body m) + length col) /\
  (1 <= sh1 m -> sh0 m < length col -> cap1 m <= sh1 m -> add_col m col = Panic) /\
  (sh1 m = 0 -> length col <> sh0 m -> cap1 m = 0 ->
     add_col m col = Ret (mkM col (length col) 1 (cap0 m) 0, [], Ok tt)).
Proof. intros T m col. exact (add_col_outcome m col). Qed.
Print Assumptions C17_outcome.

(** Whenever a matrix with columns accepts a column, it is corrupted. *)
Theorem C17_corrupts : forall {T} (m : matrix T) col m' left,
  wf m -> 1 <= sh1 m -> add_col m col = Ret (m', left, Ok tt) -> ~ wf m'.
Proof.
  intros T m col m' left H Hc E. destruct (add_col_outcome m col H) as [A [B [C [D _]]]].
  destruct (Nat.eq_dec (length col) (sh0 m)) as [N|N]; [rewrite A in E by auto; discriminate|].
  destruct (Nat.lt_ge_cases (sh1 m) (cap1 m)) as [K|K]; [rewrite B in E by auto; discriminate|].
  destruct (Nat.lt_ge_cases (length col) (sh0 m)) as [L|L].
  - destruct (C Hc L K) as [b [Eb Lb]]. rewrite Eb in E. inversion E; subst. unfold wf. simpl.
    unfold wf in H. rewrite Lb, H. nia.
  - rewrite D in E by lia. discriminate.
Qed.
Print Assumptions C17_corrupts.

(** The intended column is never accepted: for a matrix with at least one
    column there is no column for which the result is a rectangular matrix with
    one more column. *)
Theorem C17_never_extends : forall {T} (m : matrix T) col m' left,
  wf m -> 1 <= sh1 m -> wf m' -> add_col m col <> Ret (m', left, Ok tt).
Proof. intros T m col m' left H Hc W E. exact (C17_corrupts m col m' left H Hc E W). Qed.
Print Assumptions C17_never_extends.

Example C17_ex : add_col m23 [7; 8]%Z = Ret (m23, [7; 8]%Z, Err Upd_InconsistentLength)
  /\ add_col m23 [7]%Z = Ret (mkM [1; 2; 3; 7; 4; 5; 6]%Z 1 4 2 3, [], Ok tt)
  /\ add_col m23 [7; 8; 9]%Z = Panic
  /\ add_col m_new [7; 8; 9]%Z = Ret (mkM [7; 8; 9]%Z 3 1 0 0, [], Ok tt).
Proof. repeat split. Qed.

(** ** C18 *)
Theorem C18_rows : forall {T} (m : matrix T), wf m ->
  (sh1 m <> 0 ->
     exists rows, rows_as_iter m = Ret rows /\ length rows = sh0 m /\
       Forall (fun r => length r = sh1 m) rows /\ concat rows = body m /\
       forall i, i < sh0 m -> exists r, nth_error rows i = Some r /\ row m i = Ret (Ok r)) /\
  (sh1 m = 0 -> rows_as_iter m = Panic).
Proof.
  intros T m H. split; [|apply rows_as_iter_zero].
  intros Hc. destruct (body m) as [|d b] eqn:Eb.
  - exists []. assert (Z : sh0 m = 0) by (unfold wf in H; rewrite Eb in H; simpl in H; nia).
    unfold rows_as_iter. rewrite Eb, chunks_nil, Z by auto. repeat split; auto. intros; lia.
  - exists (tab_rows (sh0 m) (sh1 m) (entry d m)).
    split; [now apply rows_as_iter_ok|]. split; [apply tab_rows_length|]. split; [apply tab_rows_Forall|].
    split; [rewrite <- Eb; symmetry; now apply wf_body|].
    intros i Hi. exists (tab_row (entry d m) (sh1 m) i). split; [|now apply row_ok].
    unfold tab_rows. now apply nth_error_map_seq with (f := tab_row (entry d m) (sh1 m)).
Qed.
Print Assumptions C18_rows.

Theorem C18_col : forall {T} (d : T) (m : matrix T) j res, wf m ->
  (j < sh1 m -> copy_col_into_vec m j = Ret (Ok (map (fun i => entry d m i j) (seq 0 (sh0 m))))) /\
  (sh1 m <= j -> copy_col_into_vec m j = Ret (Err Op_OutOfBounds)) /\
  (j < sh1 m -> length res = sh0 m ->
     col_into_slice m j res = Ret (map (fun i => entry d m i j) (seq 0 (sh0 m)), Ok tt)) /\
  (sh1 m <= j -> col_into_slice m j res = Ret (res, Err Op_OutOfBounds)) /\
  (j < sh1 m -> length res <> sh0 m -> col_into_slice m j res = Ret (res, Err Op_InconsistentShape)).
Proof.
  intros T d m j res H. destruct (into_slice_err m j res) as [_ [_ [A [B C]]]].
  repeat split; auto; intros; [now apply copy_col_ok | now apply col_into_slice_ok].
Qed.
Print Assumptions C18_col.

Theorem C18_row_into_slice : forall {T} (d : T) (m : matrix T) i res, wf m ->
  (i < sh0 m -> length res = sh1 m ->
     row_into_slice m i res = Ret (map (fun j => entry d m i j) (seq 0 (sh1 m)), Ok tt)) /\
  (sh0 m <= i -> row_into_slice m i res = Ret (res, Err Op_OutOfBounds)) /\
  (i < sh0 m -> length res <> sh1 m -> row_into_slice m i res = Ret (res, Err Op_InconsistentShape)).
Proof.
  intros T d m i res H. destruct (into_slice_err m i res) as [A [B _]].
  repeat split; auto; intros. now apply row_into_slice_ok.
Qed.
Print Assumptions C18_row_into_slice.

Theorem C18_to_matrix : forall {T} (l : list T) r c,
  (length l = r * c -> exists m, to_matrix l r c = Ok m /\ wf m /\ sh0 m = r /\ sh1 m = c /\ export_body m = l) /\
  (length l <> r * c -> to_matrix l r c = Err Op_InconsistentShape).
Proof.
  intros T l r c. unfold to_matrix. split; intros E.
  - exists (from_body l r c). rewrite E, Nat.eqb_refl. repeat split; auto.
  - apply Nat.eqb_neq in E. now rewrite E.
Qed.
Print Assumptions C18_to_matrix.

Example C18_ex : rows_as_iter m23 = Ret [[1; 2; 3]; [4; 5; 6]]%Z /\ copy_col_into_vec m23 1 = Ret (Ok [2; 5]%Z)
  /\ col_into_slice m23 2 [0; 0]%Z = Ret ([3; 6]%Z, Ok tt) /\ row_into_slice m23 1 [0; 0; 0]%Z = Ret ([4; 5; 6]%Z, Ok tt)
  /\ to_matrix [1; 2; 3; 4; 5; 6]%Z 2 3 = Ok m23.
Proof. repeat split. Qed.

(** ** C19 *)
Theorem C19_flip : forall {T} (d : T) (m : matrix T), wf m ->
  flip m = Ret (Ok (mat (sh0 m) (sh1 m) (fun i j => entry d m (sh0 m - 1 - i) (sh1 m - 1 - j)))).
Proof. intros T. exact (@flip_ok T). Qed.
Print Assumptions C19_flip.

Theorem C19_involution : forall {T} (m : matrix T), wf m ->
  exists m1 m2, flip m = Ret (Ok m1) /\ flip m1 = Ret (Ok m2) /\
    body m2 = body m /\ sh0 m2 = sh0 m /\ sh1 m2 = sh1 m.
Proof. intros T. exact (@flip_flip T). Qed.
Print Assumptions C19_involution.

Example C19_ex : flip m23 = Ret (Ok (mkM [6; 5; 4; 3; 2; 1]%Z 2 3 2 3)).
Proof. reflexivity. Qed.

(** ** C20 *)
Theorem C20_pad : forall {T} (O : BasicOps T) (m : matrix T) p q, wf m ->
  pad O m p q = Ret (mat (sh0 m + 2 * p) (sh1 m + 2 * q)
                         (framed (dflt O) (sh0 m) (sh1 m) p q (entry (dflt O) m))).
Proof. intros T. exact (@pad_ok T). Qed.
Print Assumptions C20_pad.

Example C20_ex : pad Zops (mkM [1; 2]%Z 1 2 1 2) 1 2 =
  Ret (mkM [0;0;0;0;0;0; 0;0;1;2;0;0; 0;0;0;0;0;0]%Z 3 6 3 6).
Proof. reflexivity. Qed.

(** ** C21 *)
Theorem C21_add_mut : forall {T} (O : BasicOps T) (d : T) (m n : matrix T), wf m -> wf n ->
  sh0 m = sh0 n -> sh1 m = sh1 n ->
  exists r, add_mut O m n = Ok r /\ wf r /\ sh0 r = sh0 m /\ sh1 r = sh1 m /\
    forall i j, i < sh0 m -> j < sh1 m -> entry d r i j = add_assign O (entry d m i j) (entry d n i j).
Proof.
  intros T O d m n Hm Hn E0 E1. unfold add_mut. rewrite E0, E1, !Nat.eqb_refl. cbn [andb negb].
  destruct (m_is_empty m) eqn:Em; [|destruct (m_is_empty n) eqn:En].
  - apply andb_true_iff in Em as [Em _]. apply andb_true_iff in Em as [_ Em].
    apply andb_true_iff in Em as [A B]. apply Nat.eqb_eq in A, B.
    eexists. split; [reflexivity|]. split; [exact Hn|]. simpl. repeat split; auto. intros; lia.
  - apply andb_true_iff in En as [En _]. apply andb_true_iff in En as [_ En].
    apply andb_true_iff in En as [A B]. apply Nat.eqb_eq in A, B.
    eexists. split; [reflexivity|]. split; [exact Hm|]. repeat split; auto. intros; lia.
  - eexists. split; [reflexivity|].
    assert (G : zip_assign (add_assign O) (body m) (body n) =
      concat (tab_rows (sh0 m) (sh1 m) (fun i j => add_assign O (entry d m i j) (entry d n i j)))).
    { rewrite zip_assign_combine by (rewrite Hm, Hn; lia).
      rewrite (list_tab (add_assign O d d) (sh0 m) (sh1 m)
        (map (fun ab => add_assign O (fst ab) (snd ab)) (combine (body m) (body n)))).
      - f_equal. apply tab_rows_ext. intros i j Hi Hj.
        change (add_assign O d d) with ((fun ab => add_assign O (fst ab) (snd ab)) (d, d)).
        rewrite map_nth, combine_nth by (rewrite Hm, Hn; lia). unfold entry. now rewrite <- E1.
      - rewrite map_length, combine_length, Hm, Hn. rewrite <- E0, <- E1. lia. }
    unfold with_body. rewrite G. split; [unfold wf; simpl; apply concat_tab_length|].
    repeat split; auto. intros i j Hi Hj. unfold entry at 1. cbn [body sh1]. now rewrite nth_concat_tab by lia.
Qed.
Print Assumptions C21_add_mut.

Theorem C21_neutral : forall {T} (O : BasicOps T) (m : matrix T),
  add_mut O m_new m = Ok m /\ add_mut O m m_new = Ok m.
Proof.
  intros T O m. unfold add_mut. replace (m_is_empty (@m_new T)) with true by reflexivity.
  cbn [negb]. rewrite !andb_false_r. split; [destruct m; reflexivity|].
  destruct (m_is_empty m) eqn:E; [|reflexivity]. unfold m_is_empty in E. destruct m as [b s0 s1 k0 k1].
  cbn [body sh0 sh1 cap0 cap1] in E. repeat rewrite andb_true_iff in E. rewrite !Nat.eqb_eq in E.
  destruct E as [[L [-> ->]] [-> ->]]. apply length_zero_iff_nil in L. now subst.
Qed.
Print Assumptions C21_neutral.

Theorem C21_mismatch : forall {T} (O : BasicOps T) (m n : matrix T),
  (sh0 m, sh1 m) <> (sh0 n, sh1 n) -> m <> m_new -> n <> m_new -> add_mut O m n = Err Op_InconsistentShape.
Proof.
  intros T O m n N Em En. unfold add_mut.
  assert (K : forall x : matrix T, x <> m_new -> m_is_empty x = false).
  { intros [b s0 s1 k0 k1] Nx. apply not_true_is_false. intros E. apply Nx. unfold m_is_empty in E.
    cbn [body sh0 sh1 cap0 cap1] in E. repeat rewrite andb_true_iff in E. rewrite !Nat.eqb_eq in E.
    destruct E as [[L [-> ->]] [-> ->]]. apply length_zero_iff_nil in L. now subst. }
  rewrite !K by auto. cbn [negb andb]. rewrite andb_true_r.
  destruct ((sh0 m =? sh0 n) && (sh1 m =? sh1 n)) eqn:E; [|reflexivity].
  apply andb_true_iff in E as [A B]. apply Nat.eqb_eq in A, B. congruence.
Qed.
Print Assumptions C21_mismatch.

Theorem C21_scalars : forall {T} (O : BasicOps T) (m : matrix T) s,
  (forall i, nth_error (body (add_mut_scalar O m s)) i = option_map (fun x => add_assign O x s) (nth_error (body m) i)) /\
  (forall i, nth_error (body (mul_mut_scalar O m s)) i = option_map (fun x => mul_assign O x s) (nth_error (body m) i)) /\
  (sh0 (add_mut_scalar O m s), sh1 (add_mut_scalar O m s), cap0 (add_mut_scalar O m s), cap1 (add_mut_scalar O m s))
    = (sh0 m, sh1 m, cap0 m, cap1 m) /\
  (sh0 (mul_mut_scalar O m s), sh1 (mul_mut_scalar O m s), cap0 (mul_mut_scalar O m s), cap1 (mul_mut_scalar O m s))
    = (sh0 m, sh1 m, cap0 m, cap1 m).
Proof. intros T O m s. repeat split; intros i; simpl; apply nth_error_map. Qed.
Print Assumptions C21_scalars.

Theorem C21_div_scalar : forall {T} (O : BasicOps T) (m : matrix T) s,
  (forall m', div_mut_scalar O m s = Ret m' ->
     sh0 m' = sh0 m /\ sh1 m' = sh1 m /\ cap0 m' = cap0 m /\ cap1 m' = cap1 m /\
     Forall2 (fun x y => div_assign O x s = Ret y) (body m) (body m')) /\
  (div_mut_scalar O m s = Panic <-> exists x, In x (body m) /\ div_assign O x s = Panic).
Proof.
  intros T O m s. unfold div_mut_scalar. split.
  - intros m' E. apply obind_inv in E as [b [E1 E2]]. inversion E2; subst. simpl.
    repeat split. now apply mapM_inv.
  - split.
    + intros E. destruct (mapM_cases (fun e => div_assign O e s) (body m)) as [[bs B]|[_ B]]; [|exact B].
      rewrite B in E. discriminate.
    + intros [x [Hx Ex]]. now rewrite (mapM_panic _ _ x).
Qed.
Print Assumptions C21_div_scalar.

Example C21_ex : add_mut Zops m23 m23 = Ok (mkM [2; 4; 6; 8; 10; 12]%Z 2 3 2 3)
  /\ add_mut Zops m23 (mkM [1]%Z 1 1 1 1) = Err Op_InconsistentShape
  /\ div_mut_scalar Zops m23 0%Z = Panic /\ m23 <> m_new.
Proof. repeat split. discriminate. Qed.

(** ** C22 *)
Theorem C22_mul_slice : forall {T} (O : BasicOps T) (m : matrix T) v, wf m ->
  (sh1 m <> length v -> mul_slice O m v = Ret (Err Op_InvalidRHS)) /\
  (sh1 m = length v -> sh1 m <> 0 ->
     mul_slice O m v = Ret (Ok (map (fun i => sum_from (add O) (dflt O)
        (fun j => mul O (entry (dflt O) m i j) (nth j v (dflt O))) (sh1 m)) (seq 0 (sh0 m))))) /\
  (sh1 m = 0 -> v = [] -> mul_slice O m v = Panic).
Proof.
  intros T O m v H. unfold mul_slice. repeat split.
  - intros N. apply Nat.eqb_neq in N. now rewrite N.
  - intros E N. apply Nat.eqb_eq in E as E'. rewrite E'. cbn [negb].
    rewrite (rows_as_iter_ok (dflt O) m H N). cbn [obind]. do 2 f_equal.
    unfold tab_rows. rewrite map_map. apply map_ext. intros i.
    rewrite (list_eq_map_nth (dflt O) v) at 1. rewrite <- E.
    change (scalar_prod O (tab_row (entry (dflt O) m) (sh1 m) i) (map (fun j => nth j v (dflt O)) (seq 0 (sh1 m)))
            = sum_from (add O) (dflt O) (fun j => mul O (entry (dflt O) m i j) (nth j v (dflt O))) (sh1 m)).
    unfold tab_row. apply scalar_prod_map_seq.
  - intros E ->. rewrite E. cbn [length Nat.eqb negb]. now rewrite rows_as_iter_zero.
Qed.
Print Assumptions C22_mul_slice.

Theorem C22_mul_vec_same : forall {T} (O : BasicOps T) (m : matrix T) v, mul_vec O m v = mul_slice O m v.
Proof. reflexivity. Qed.
Print Assumptions C22_mul_vec_same.

Example C22_ex : mul_slice Zops m23 [1; 10; 100]%Z = Ret (Ok [321; 654]%Z)
  /\ mul_vec Zops m23 [1]%Z = Ret (Err Op_InvalidRHS) /\ mul_vec Zops m_new [] = Panic.
Proof. repeat split. Qed.

(** ** C23 *)
Theorem C23_convolution : forall {T} (O : BasicOps T) (m k : matrix T),
  wf m -> wf k -> 1 <= sh0 k -> sh0 k <= sh0 m -> 1 <= sh1 k -> sh1 k <= sh1 m ->
  convolution O m k =
  Ret (Ok (mat (sh0 m - sh0 k + 1) (sh1 m - sh1 k + 1)
               (corr O (sh0 k) (sh1 k) (entry (dflt O) m) (entry (dflt O) k)))).
Proof. intros T. exact (@convolution_ok T). Qed.
Print Assumptions C23_convolution.

Theorem C23_too_large : forall {T} (O : BasicOps T) (m k : matrix T),
  sh0 m < sh0 k \/ sh1 m < sh1 k -> convolution O m k = Ret (Err Op_InvalidRHS).
Proof.
  intros T O m k H. unfold convolution.
  replace ((sh0 m <? sh0 k) || (sh1 m <? sh1 k)) with true; [reflexivity|].
  symmetry. apply orb_true_iff. rewrite !Nat.ltb_lt. exact H.
Qed.
Print Assumptions C23_too_large.

Theorem C23_zero_dim : forall {T} (O : BasicOps T) (m k : matrix T),
  sh0 k <= sh0 m -> sh1 k <= sh1 m -> sh0 k = 0 \/ sh1 k = 0 -> convolution O m k = Panic.
Proof.
  intros T O m k A B H. unfold convolution.
  replace ((sh0 m <? sh0 k) || (sh1 m <? sh1 k)) with false.
  2: { symmetry. apply orb_false_iff. rewrite !Nat.ltb_ge. auto. }
  destruct H as [H|H].
  - now rewrite H.
  - destruct (usub (sh0 k) 1); cbn [obind]; auto. destruct (usub (sh0 m) a); cbn [obind]; auto.
    now rewrite H.
Qed.
Print Assumptions C23_zero_dim.

(** The experimental complex convolution does the same with each element of the
    kernel replaced by its conjugate; it has no size check and panics where the
    other one returns an error. *)
Theorem C23_conjugate : forall {T} (O : BasicOps T) (cj : T -> T) (m k : matrix T), wf m -> wf k -> 1 <= sh0 k -> 1 <= sh1 k ->
  (sh0 k <= sh0 m -> sh1 k <= sh1 m ->
     cconvolution O cj m k =
     Ret (Ok (mat (sh0 m - sh0 k + 1) (sh1 m - sh1 k + 1)
               (corr O (sh0 k) (sh1 k) (entry (dflt O) m) (fun u v => cj (entry (dflt O) k u v)))))) /\
  (sh0 m + 1 < sh0 k \/ sh1 m + 1 < sh1 k -> cconvolution O cj m k = Panic).
Proof.
  intros T O cj m k Hm Hk K0 K1. split.
  - intros L0 L1. set (ck := from_body (map cj (body k)) (sh0 k) (sh1 k)).
    assert (LK : length (map cj (body k)) = sh0 k * sh1 k) by (rewrite map_length; exact Hk).
    assert (E : cconvolution O cj m k = convolution O m ck).
    { unfold cconvolution, convolution. cbn [ck from_body sh0 sh1].
      replace (sh0 m <? sh0 k) with false by (symmetry; apply Nat.ltb_ge; auto).
      replace (sh1 m <? sh1 k) with false by (symmetry; apply Nat.ltb_ge; auto). cbn [orb].
      rewrite (usub_ok (sh0 k) 1), (usub_ok (sh1 k) 1) by auto. cbn [obind].
      rewrite !usub_ok by lia. cbn [obind]. unfold to_matrix at 1. rewrite LK, Nat.eqb_refl. reflexivity. }
    rewrite E, (convolution_ok O m ck) by (auto; exact LK). cbn [ck from_body sh0 sh1]. do 2 f_equal.
    apply mat_ext. intros i j Hi Hj. unfold corr, sum_from. apply fold_left_ext. intros s u Hu. apply in_seq in Hu. f_equal.
    apply fold_left_ext. intros t v Hv. apply in_seq in Hv. do 2 f_equal.
    unfold entry. cbn [from_body body sh1].
    rewrite (nth_indep (map cj (body k)) (dflt O) (cj (dflt O))), map_nth; [reflexivity|]. rewrite LK. apply body_length_lt; lia.
  - intros H. unfold cconvolution. rewrite (usub_ok (sh0 k)) by auto. cbn [obind].
    destruct (usub (sh0 m) (sh0 k - 1)) eqn:E; [|reflexivity]. cbn [obind]. rewrite (usub_ok (sh1 k)) by auto. cbn [obind].
    destruct H as [H|H]; [rewrite usub_panic in E by lia; discriminate | now rewrite usub_panic by lia].
Qed.
Print Assumptions C23_conjugate.

Example C23_conjugate_ex : cconvolution Zops Z.opp m23 (mkM [1; 10]%Z 1 2 1 2) = Ret (Ok (mkM [-21; -32; -54; -65]%Z 2 2 2 2)).
Proof. reflexivity. Qed.

Example C23_ex : convolution Zops m23 (mkM [1; 10]%Z 1 2 1 2) = Ret (Ok (mkM [21; 32; 54; 65]%Z 2 2 2 2)).
Proof. reflexivity. Qed.

(** ** C25 *)
Theorem C25_blocks : forall {T} (d : T) (m : matrix T) a b (f : list T -> outcome T),
  wf m -> 1 <= a -> 1 <= b -> sh0 m mod a = 0 -> sh1 m mod b = 0 -> a <= sh0 m -> b <= sh1 m ->
  block_reduce m a b f =
  (rows <- mapM (fun i => mapM (fun j => f (block a b (entry d m) i j)) (seq 0 (sh1 m / b))) (seq 0 (sh0 m / a)) ;;
   Ret (Ok (from_body (concat rows) (sh0 m / a) (sh1 m / b)))).
Proof. intros T. exact (@block_reduce_ok T). Qed.
Print Assumptions C25_blocks.

(** For a reduce function that does not panic: the matrix of reduced blocks. *)
Theorem C25_total : forall {T} (d : T) (m : matrix T) a b (g : list T -> T),
  wf m -> 1 <= a -> 1 <= b -> sh0 m mod a = 0 -> sh1 m mod b = 0 -> a <= sh0 m -> b <= sh1 m ->
  block_reduce m a b (fun l => Ret (g l)) =
  Ret (Ok (mat (sh0 m / a) (sh1 m / b) (fun i j => g (block a b (entry d m) i j)))).
Proof.
  intros T d m a b g H Ha Hb Ma Mb La Lb. rewrite (block_reduce_ok d) by auto.
  rewrite (mapM_ret _ (tab_row (fun i j => g (block a b (entry d m) i j)) (sh1 m / b))); [reflexivity|].
  intros i _. rewrite (mapM_ret _ (fun j => g (block a b (entry d m) i j))) by auto. reflexivity.
Qed.
Print Assumptions C25_total.

Theorem C25_errors : forall {T} (m : matrix T) a b (f : list T -> outcome T),
  (a = 0 \/ (sh0 m mod a = 0 /\ b = 0) -> block_reduce m a b f = Panic) /\
  (1 <= a -> 1 <= b -> sh0 m mod a <> 0 \/ sh1 m mod b <> 0 \/ sh0 m < a \/ sh1 m < b ->
     block_reduce m a b f = Ret (Err Op_InconsistentShape)).
Proof. intros T. exact (@block_reduce_err T). Qed.
Print Assumptions C25_errors.

(** The blocks handed to the reduce function are a partition of the entries. *)
Theorem C25_partition : forall {T} (d : T) (m : matrix T) a b,
  wf m -> 1 <= a -> 1 <= b -> sh0 m mod a = 0 -> sh1 m mod b = 0 ->
  Permutation (concat (map (fun i => concat (map (fun j => block a b (entry d m) i j) (seq 0 (sh1 m / b)))) (seq 0 (sh0 m / a))))
              (body m).
Proof.
  intros T d m a b H Ha Hb Ma Mb. rewrite blocks_partition.
  replace (sh0 m / a * a) with (sh0 m) by (pose proof (Nat.div_mod (sh0 m) a); lia).
  replace (sh1 m / b * b) with (sh1 m) by (pose proof (Nat.div_mod (sh1 m) b); lia).
  rewrite <- (wf_body d m H). apply Permutation_refl.
Qed.
Print Assumptions C25_partition.

Example C25_ex : block_reduce (mkM [1;2;3;4; 5;6;7;8]%Z 2 4 2 4) 2 2 (fun l => Ret (fold_left Z.max l 0%Z))
  = Ret (Ok (mkM [6; 8]%Z 1 2 1 2)).
Proof. reflexivity. Qed.

(** ** C26 *)
Theorem C26_square : forall {T} (O : BasicOps T) (m kernel : matrix T) a k,
  wf m -> wf kernel -> 1 <= a -> 1 <= sh0 m -> 1 <= sh1 m ->
  sh0 kernel = k -> sh1 kernel = k -> k mod 2 = 1 -> 3 <= k ->
  fractional_upsampling O m a a kernel =
  Ret (Ok (mat (sh0 m * a + k - 3) (sh1 m * a + k - 3)
     (corr O k k (framed (dflt O) (sh0 m * a) (sh1 m * a) (k - 2) (k - 2)
        (stuffed (dflt O) a a ((a - 1) / 2) ((a - 1) / 2) (entry (dflt O) m))) (entry (dflt O) kernel)))).
Proof.
  intros T O m kernel a k H Hk Ha H0 H1 K0 K1 Ko K3.
  assert (E : up_off a a = (a - 1) / 2).
  { unfold up_off. destruct (a mod 2 =? 0) eqn:E; [|reflexivity]. apply Nat.eqb_eq in E.
    pose proof (Nat.div_mod a 2) as D. rewrite E in D.
    replace (a - 1) with ((a / 2 - 1) * 2 + 1) by lia. rewrite Nat.div_add_l by lia. simpl. lia. }
  rewrite <- E. apply upsampling_ok; auto.
  rewrite E. assert ((a - 1) / 2 <= a - 1) by (apply Nat.div_le_upper_bound; lia). lia.
Qed.
Print Assumptions C26_square.

(** The shape is the intended (r*a) x (c*a) only for 3 x 3 kernels. *)
Theorem C26_shape_kept_iff : forall {T} (O : BasicOps T) (m kernel out : matrix T) a k,
  wf m -> wf kernel -> 1 <= a -> 1 <= sh0 m -> 1 <= sh1 m ->
  sh0 kernel = k -> sh1 kernel = k -> k mod 2 = 1 -> 3 <= k ->
  fractional_upsampling O m a a kernel = Ret (Ok out) ->
  ((sh0 out = sh0 m * a /\ sh1 out = sh1 m * a) <-> k = 3).
Proof.
  intros T O m kernel out a k H Hk Ha H0 H1 K0 K1 Ko K3 E.
  rewrite (C26_square O m kernel a k) in E by auto. inversion E; subst out. cbn [mat sh0 sh1].
  assert (1 <= sh0 m * a) by nia. assert (1 <= sh1 m * a) by nia. lia.
Qed.
Print Assumptions C26_shape_kept_iff.

(** Non-square blocks: the horizontal offset of an odd width is taken from the
    block height. *)
Theorem C26_general : forall {T} (O : BasicOps T) (m kernel : matrix T) a b k,
  wf m -> wf kernel -> 1 <= a -> 1 <= b -> 1 <= sh0 m -> 1 <= sh1 m -> up_off b a < b ->
  sh0 kernel = k -> sh1 kernel = k -> k mod 2 = 1 -> 3 <= k ->
  fractional_upsampling O m a b kernel =
  Ret (Ok (mat (sh0 m * a + k - 3) (sh1 m * b + k - 3)
     (corr O k k (framed (dflt O) (sh0 m * a) (sh1 m * b) (k - 2) (k - 2)
        (stuffed (dflt O) a b (up_off a a) (up_off b a) (entry (dflt O) m))) (entry (dflt O) kernel)))).
Proof.
  intros T O m kernel a b k H Hk Ha Hb H0 H1 Hq K0 K1 Ko K3. now apply upsampling_ok.
Qed.
Print Assumptions C26_general.

Theorem C26_tall_block_panics : forall {T} (O : BasicOps T) (m kernel : matrix T) a b,
  b mod 2 = 1 -> 2 * b + 1 <= a -> fractional_upsampling O m a b kernel = Panic.
Proof.
  intros T O m kernel a b Hb Hab. unfold fractional_upsampling.
  destruct (rows_as_iter m); cbn [obind]; auto.
  destruct (if a mod 2 =? 0 then _ else _) as [u|]; cbn [obind]; auto.
  destruct (x <- usub a u ;; usub x 1); cbn [obind]; auto.
  rewrite Hb. cbn [Nat.eqb]. rewrite usub_ok by lia. cbn [obind].
  assert (b <= (a - 1) / 2) by (apply Nat.div_le_lower_bound; lia).
  destruct (Nat.eq_dec b ((a - 1) / 2)) as [<-|N].
  - rewrite usub_ok by lia. cbn [obind]. now rewrite usub_panic by lia.
  - now rewrite usub_panic by lia.
Qed.
Print Assumptions C26_tall_block_panics.

Theorem C26_even_kernel : forall {T} (O : BasicOps T) (m kernel : matrix T) a,
  wf m -> 1 <= a -> sh1 m <> 0 -> sh0 kernel mod 2 = 0 \/ sh1 kernel mod 2 = 0 ->
  fractional_upsampling O m a a kernel = Ret (Err Op_InvalidRHS).
Proof.
  intros T O m kernel a H Ha Hc Hk. rewrite upsampling_shape; auto.
  - cbn zeta. replace ((sh0 kernel mod 2 =? 0) || (sh1 kernel mod 2 =? 0)) with true; [reflexivity|].
    symmetry. apply orb_true_iff. rewrite !Nat.eqb_eq. exact Hk.
  - unfold up_off. destruct (a mod 2 =? 0).
    + assert (a / 2 <= a) by (apply Nat.div_le_upper_bound; lia). lia.
    + assert ((a - 1) / 2 <= a - 1) by (apply Nat.div_le_upper_bound; lia). lia.
Qed.
Print Assumptions C26_even_kernel.

Theorem C26_one_kernel_panics : forall {T} (O : BasicOps T) (m kernel : matrix T) a,
  wf m -> 1 <= a -> sh1 m <> 0 -> sh0 kernel = 1 -> sh1 kernel = 1 ->
  fractional_upsampling O m a a kernel = Panic.
Proof.
  intros T O m kernel a H Ha Hc K0 K1. rewrite upsampling_shape; auto.
  - cbn zeta. now rewrite K0, K1.
  - unfold up_off. destruct (a mod 2 =? 0).
    + assert (a / 2 <= a) by (apply Nat.div_le_upper_bound; lia). lia.
    + assert ((a - 1) / 2 <= a - 1) by (apply Nat.div_le_upper_bound; lia). lia.
Qed.
Print Assumptions C26_one_kernel_panics.

Example C26_ex : fractional_upsampling Zops (mkM [5; 7]%Z 1 2 1 2) 2 2 (mkM [1;1;1; 1;2;1; 1;1;1]%Z 3 3 3 3)
  = Ret (Ok (mkM [10; 12; 14; 7; 5; 12; 7; 7]%Z 2 4 2 4)).
Proof. reflexivity. Qed.

(** ** C27 *)
Theorem C27_add_slice_mut : forall {T} (O : BasicOps T) (l r : list T),
  (length l <> length r -> add_slice_mut O l r = Err Op_InconsistentShape) /\
  (length l = length r -> exists res, add_slice_mut O l r = Ok res /\ length res = length l /\
     forall i a b, nth_error l i = Some a -> nth_error r i = Some b -> nth_error res i = Some (add_assign O a b)).
Proof.
  intros T O l r. unfold add_slice_mut. split; intros E.
  - apply Nat.eqb_neq in E. now rewrite E.
  - rewrite E, Nat.eqb_refl. eexists. split; [reflexivity|]. split; [now rewrite zip_assign_length|].
    intros i a b A B. now rewrite nth_error_zip_assign, A, B.
Qed.
Print Assumptions C27_add_slice_mut.

Theorem C27_mul_slice_mut : forall {T} (O : BasicOps T) (l r : list T),
  (length l <> length r -> mul_slice_mut O l r = Err Op_InconsistentShape) /\
  (length l = length r -> exists res, mul_slice_mut O l r = Ok res /\ length res = length l /\
     forall i a b, nth_error l i = Some a -> nth_error r i = Some b -> nth_error res i = Some (mul_assign O a b)).
Proof.
  intros T O l r. unfold mul_slice_mut. split; intros E.
  - apply Nat.eqb_neq in E. now rewrite E.
  - rewrite E, Nat.eqb_refl. eexists. split; [reflexivity|]. split; [now rewrite zip_assign_length|].
    intros i a b A B. now rewrite nth_error_zip_assign, A, B.
Qed.
Print Assumptions C27_mul_slice_mut.

Lemma nth_error_combine : forall {A B} (l : list A) (r : list B) i a b,
  nth_error l i = Some a -> nth_error r i = Some b -> nth_error (combine l r) i = Some (a, b).
Proof.
  intros A B l; induction l as [|x l IH]; intros [|y r] [|i] a b Ha Hb; simpl in *; try discriminate.
  - congruence.
  - now apply IH.
Qed.

Theorem C27_add_slice : forall {T} (O : BasicOps T) (l r : list T),
  add_slice O [] r = Ok r /\
  (l <> [] -> length l <> length r -> add_slice O l r = Err Op_InconsistentShape) /\
  (l <> [] -> length l = length r -> exists res, add_slice O l r = Ok res /\ length res = length l /\
     forall i a b, nth_error l i = Some a -> nth_error r i = Some b -> nth_error res i = Some (add O a b)).
Proof.
  intros T O l r. unfold add_slice. split; [reflexivity|].
  split; intros N E; replace (length l =? 0) with false by (symmetry; apply Nat.eqb_neq; destruct l; simpl; congruence).
  - apply Nat.eqb_neq in E. now rewrite E.
  - rewrite E, Nat.eqb_refl. eexists. split; [reflexivity|].
    split; [rewrite map_length, combine_length, E; lia|].
    intros i a b A B. rewrite (map_nth_error _ _ _ (nth_error_combine l r i a b A B)). reflexivity.
Qed.
Print Assumptions C27_add_slice.

Theorem C27_mul_slices : forall {T} (O : BasicOps T) (l r : list T),
  (length l <> length r -> mul_slices O l r = Err Op_InconsistentShape) /\
  (length l = length r -> exists res, mul_slices O l r = Ok res /\ length res = length l /\
     forall i a b, nth_error l i = Some a -> nth_error r i = Some b -> nth_error res i = Some (mul O a b)).
Proof.
  intros T O l r. unfold mul_slices. split; intros E.
  - apply Nat.eqb_neq in E. now rewrite E.
  - rewrite E, Nat.eqb_refl. eexists. split; [reflexivity|].
    split; [rewrite map_length, combine_length, E; lia|].
    intros i a b A B. rewrite (map_nth_error _ _ _ (nth_error_combine l r i a b A B)). reflexivity.
Qed.
Print Assumptions C27_mul_slices.

Theorem C27_scalars : forall {T} (O : BasicOps T) (l : list T) s,
  (forall i, nth_error (slice_mul_mut_scalar O l s) i = option_map (fun x => mul_assign O x s) (nth_error l i)) /\
  (forall res, slice_div_mut_scalar O l s = Ret res <-> Forall2 (fun x y => div_assign O x s = Ret y) l res).
Proof.
  intros T O l s. split; [intros i; apply nth_error_map|].
  intros res. split; [apply mapM_inv | apply mapM_Forall2].
Qed.
Print Assumptions C27_scalars.

Theorem C27_scalar_prod : forall {T} (O : BasicOps T) (l r : list T),
  scalar_prod O l r =
  sum_from (add O) (dflt O) (fun v => mul O (nth v l (dflt O)) (nth v r (dflt O))) (Nat.min (length l) (length r)).
Proof.
  intros T O l r. unfold scalar_prod, sum_from. generalize (dflt O) at 1 4 as acc. revert r.
  induction l as [|a l IH]; intros r acc; [reflexivity|].
  destruct r as [|b r]; [reflexivity|]. cbn [combine fold_left fst snd length Nat.min seq].
  rewrite IH, <- seq_shift, fold_left_map. reflexivity.
Qed.
Print Assumptions C27_scalar_prod.

Example C27_ex : add_slice_mut Zops [1; 2]%Z [10; 20]%Z = Ok [11; 22]%Z
  /\ mul_slices Zops [1; 2]%Z [10; 20]%Z = Ok [10; 40]%Z /\ scalar_prod Zops [1; 2; 3]%Z [10; 20]%Z = 50%Z.
Proof. repeat split. Qed.

(** ** C28 *)
Definition csv_line {T} (show : T -> string) (r : list T) : string :=
  String.append (String.concat "" (map (fun v => String.append (show v) ","%string) r)) line_feed.

Lemma append_assoc_s : forall a b c, String.append (String.append a b) c = String.append a (String.append b c).
Proof. induction a; intros; simpl; [auto|]. now rewrite IHa. Qed.

Lemma concat_nosep_app : forall l1 l2, String.concat "" (l1 ++ l2) = String.append (String.concat "" l1) (String.concat "" l2).
Proof.
  assert (E : forall s l, String.concat "" (s :: l) = String.append s (String.concat "" l)).
  { intros s [|t l]; simpl; [|reflexivity]. induction s; simpl; [auto|]. now rewrite <- IHs. }
  induction l1 as [|s l1 IH]; intros l2; [reflexivity|].
  change ((s :: l1) ++ l2) with (s :: (l1 ++ l2)). rewrite !E, IH. now rewrite append_assoc_s.
Qed.

Lemma run_writes_all : forall pieces, run_writes pieces None = (String.concat "" pieces, true).
Proof.
  assert (E : forall s l, String.concat "" (s :: l) = String.append s (String.concat "" l)).
  { intros s [|t l]; simpl; [|reflexivity]. induction s; simpl; [auto|]. now rewrite <- IHs. }
  induction pieces as [|s ps IH]; [reflexivity|]. cbn [run_writes]. rewrite IH. now rewrite E.
Qed.

Lemma run_writes_fail : forall pieces n, n < length pieces ->
  run_writes pieces (Some n) = (String.concat "" (firstn n pieces), false).
Proof.
  assert (E : forall s l, String.concat "" (s :: l) = String.append s (String.concat "" l)).
  { intros s [|t l]; simpl; [|reflexivity]. induction s; simpl; [auto|]. now rewrite <- IHs. }
  induction pieces as [|s ps IH]; intros n H; simpl in H; [lia|]. destruct n as [|n]; [reflexivity|].
  cbn [run_writes firstn]. rewrite IH by lia. now rewrite E.
Qed.

Lemma concat_lines : forall {T} (show : T -> string) (rows : list (list T)),
  String.concat "" (flat_map (fun r => map (fun v => String.append (show v) ","%string) r ++ [newline]) rows)
  = String.concat "" (map (csv_line show) rows).
Proof.
  intros T show rows. induction rows as [|r rows IH]; [reflexivity|].
  cbn [flat_map map]. rewrite concat_nosep_app, IH, concat_nosep_app.
  change (csv_line show r :: map (csv_line show) rows) with ([csv_line show r] ++ map (csv_line show) rows).
  rewrite concat_nosep_app. reflexivity.
Qed.

Theorem C28_csv : forall {T} (show : T -> string) (m : matrix T) rows,
  rows_as_iter m = Ret rows ->
  exists pieces, matrix_csv_pieces show m = Ret pieces /\
    run_writes pieces None = (String.concat "" (map (csv_line show) rows), true) /\
    forall n, n < length pieces ->
      run_writes pieces (Some n) = (String.concat "" (firstn n pieces), false).
Proof.
  intros T show m rows H. unfold matrix_csv_pieces. unfold rows_as_iter in H. rewrite H. cbn [obind].
  eexists. split; [reflexivity|]. split; [now rewrite run_writes_all, concat_lines | apply run_writes_fail].
Qed.
Print Assumptions C28_csv.

Theorem C28_display : forall {T} (showd : list T -> string) (show_shape : nat -> nat -> string) (m : matrix T) rows,
  rows_as_iter m = Ret rows ->
  exists pieces, matrix_display showd show_shape m = Ret pieces /\ length pieces = length rows + 1 /\
    (forall i r, nth_error rows i = Some r -> nth_error pieces i = Some (String.append (showd r) line_feed)) /\
    nth_error pieces (length rows) = Some ("shape: " ++ show_shape (sh0 m) (sh1 m) ++
                                           ", capacity: " ++ show_shape (cap0 m) (cap1 m))%string.
Proof.
  intros T showd show_shape m rows H. unfold matrix_display. unfold rows_as_iter in H. rewrite H. cbn [obind].
  eexists. split; [reflexivity|]. split; [rewrite app_length, map_length; reflexivity|]. split.
  - intros i r E. rewrite nth_error_app1.
    + now apply (map_nth_error (fun r => String.append (showd r) newline)).
    + rewrite map_length. apply nth_error_Some. congruence.
  - rewrite nth_error_app2 by now rewrite map_length. now rewrite map_length, Nat.sub_diag.
Qed.
Print Assumptions C28_display.

Theorem C28_panic_iff : forall {T} (show : T -> string) showd show_shape (m : matrix T),
  (matrix_csv_pieces show m = Panic <-> sh1 m = 0) /\
  (matrix_display showd show_shape m = Panic <-> sh1 m = 0).
Proof.
  intros T show showd show_shape m. unfold matrix_csv_pieces, matrix_display, chunks.
  destruct (sh1 m =? 0) eqn:E; cbn [obind].
  - apply Nat.eqb_eq in E. tauto.
  - apply Nat.eqb_neq in E. split; split; intros; try discriminate; contradiction.
Qed.
Print Assumptions C28_panic_iff.

Example C28_ex : rows_as_iter m23 = Ret [[1; 2; 3]; [4; 5; 6]]%Z
  /\ String.concat "" (map (csv_line (fun z => if (z <? 4)%Z then "a" else "b")%string) [[1; 2; 3]; [4; 5; 6]]%Z)
     = ("a,a,a," ++ line_feed ++ "b,b,b," ++ line_feed)%string.
Proof. split; reflexivity. Qed.
