(** * Lemmas about the std-library models of Base.v *)
From Verif Require Import Base.

Lemma obind_ret : forall {A B} (a : A) (k : A -> outcome B), obind (Ret a) k = k a.
Proof. reflexivity. Qed.

Lemma obind_inv : forall {A B} (m : outcome A) (k : A -> outcome B) b,
  obind m k = Ret b -> exists a, m = Ret a /\ k a = Ret b.
Proof. intros A B [a|] k b H; simpl in H; [exists a; auto | discriminate]. Qed.

Lemma unwrap_inv : forall {A E} (r : result A E) a, unwrap r = Ret a -> r = Ok a.
Proof. intros A E [x|e] a H; simpl in H; congruence. Qed.

Lemma usub_ok : forall a b, b <= a -> usub a b = Ret (a - b).
Proof. intros a b H. unfold usub. apply Nat.leb_le in H. now rewrite H. Qed.

Lemma usub_panic : forall a b, a < b -> usub a b = Panic.
Proof. intros a b H. unfold usub. apply Nat.leb_gt in H. now rewrite H. Qed.

Lemma udiv_ok : forall a b, b <> 0 -> udiv a b = Ret (a / b).
Proof. intros a b H. unfold udiv. apply Nat.eqb_neq in H. now rewrite H. Qed.

Lemma umod_ok : forall a b, b <> 0 -> umod a b = Ret (a mod b).
Proof. intros a b H. unfold umod. apply Nat.eqb_neq in H. now rewrite H. Qed.

Lemma mapM_ret : forall {A B} (f : A -> outcome B) (g : A -> B) l,
  (forall a, In a l -> f a = Ret (g a)) -> mapM f l = Ret (map g l).
Proof.
  intros A B f g l; induction l as [|a l IH]; intros H; [reflexivity|].
  simpl. rewrite (H a) by (left; auto). simpl.
  rewrite IH by (intros; apply H; right; auto). reflexivity.
Qed.

Lemma mapM_inv : forall {A B} (f : A -> outcome B) l bs,
  mapM f l = Ret bs -> Forall2 (fun a b => f a = Ret b) l bs.
Proof.
  intros A B f l; induction l as [|a l IH]; intros bs H; simpl in H.
  - inversion H. constructor.
  - apply obind_inv in H as [b [Hb H]]. apply obind_inv in H as [bs' [Hbs H]].
    inversion H. constructor; auto.
Qed.

Lemma mapM_Forall2 : forall {A B} (f : A -> outcome B) l bs,
  Forall2 (fun a b => f a = Ret b) l bs -> mapM f l = Ret bs.
Proof.
  intros A B f l bs H; induction H; [reflexivity|]. simpl. rewrite H, IHForall2. reflexivity.
Qed.

Lemma mapM_panic : forall {A B} (f : A -> outcome B) l a,
  In a l -> f a = Panic -> mapM f l = Panic.
Proof.
  intros A B f l a; induction l as [|x l IH]; intros Hin Hf; [destruct Hin|].
  simpl. destruct Hin as [->|Hin]; [now rewrite Hf|].
  destruct (f x); simpl; [|reflexivity]. now rewrite IH.
Qed.

Lemma mapM_cases : forall {A B} (f : A -> outcome B) l,
  (exists bs, mapM f l = Ret bs) \/ (mapM f l = Panic /\ exists a, In a l /\ f a = Panic).
Proof.
  intros A B f l; induction l as [|a l IH]; [left; exists []; reflexivity|].
  simpl. destruct (f a) eqn:E; simpl.
  - destruct IH as [[bs ->]|[-> [x [Hx Hf]]]]; simpl.
    + left; eexists; reflexivity.
    + right; split; auto. exists x; auto.
  - right; split; auto. exists a; auto.
Qed.

Lemma Forall2_len : forall {A B} (R : A -> B -> Prop) l l', Forall2 R l l' -> length l = length l'.
Proof. intros A B R l l' H; induction H; simpl; auto. Qed.

Lemma mapM_length : forall {A B} (f : A -> outcome B) l bs,
  mapM f l = Ret bs -> length bs = length l.
Proof. intros A B f l bs H. apply mapM_inv in H. symmetry; eapply Forall2_len; eauto. Qed.

Lemma mapM_app : forall {A B} (f : A -> outcome B) l1 l2,
  mapM f (l1 ++ l2) = (x <- mapM f l1 ;; y <- mapM f l2 ;; Ret (x ++ y)).
Proof.
  intros A B f l1 l2; induction l1 as [|a l1 IH]; simpl.
  - destruct (mapM f l2); reflexivity.
  - destruct (f a); simpl; [|reflexivity]. rewrite IH.
    destruct (mapM f l1); simpl; [|reflexivity]. destruct (mapM f l2); reflexivity.
Qed.

Lemma mapM_map : forall {A B D} (f : B -> outcome D) (g : A -> B) l,
  mapM f (map g l) = mapM (fun a => f (g a)) l.
Proof. intros A B D f g l; induction l as [|a l IH]; simpl; [auto|]. now rewrite IH. Qed.

Lemma mapM_ext : forall {A B} (f g : A -> outcome B) l,
  (forall a, In a l -> f a = g a) -> mapM f l = mapM g l.
Proof.
  intros A B f g l; induction l as [|a l IH]; intros H; simpl; [auto|].
  rewrite (H a) by (left; auto). rewrite IH; auto. intros; apply H; right; auto.
Qed.

Lemma foldM_ret : forall {A S} (f : S -> A -> outcome S) (g : S -> A -> S) l s,
  (forall s a, In a l -> f s a = Ret (g s a)) -> foldM f l s = Ret (fold_left g l s).
Proof.
  intros A S f g l; induction l as [|a l IH]; intros s H; [reflexivity|].
  simpl. rewrite (H s a) by (left; auto). simpl. apply IH. intros; apply H; right; auto.
Qed.

Lemma foldM_app : forall {A S} (f : S -> A -> outcome S) l1 l2 s,
  foldM f (l1 ++ l2) s = (s' <- foldM f l1 s ;; foldM f l2 s').
Proof.
  intros A S f l1 l2; induction l1 as [|a l1 IH]; intros s; simpl; [reflexivity|].
  destruct (f s a); simpl; auto.
Qed.

(** Invariant rule for loops whose body may panic. *)
Lemma foldM_inv : forall {A S} (f : S -> A -> outcome S) (P : list A -> S -> Prop) l s s',
  foldM f l s = Ret s' ->
  P [] s ->
  (forall pre a st st', P pre st -> (exists post, l = pre ++ a :: post) -> f st a = Ret st' -> P (pre ++ [a]) st') ->
  P l s'.
Proof.
  intros A S f P l s s' H H0 Hstep.
  assert (G : forall post pre st, l = pre ++ post -> P pre st -> foldM f post st = Ret s' -> P l s').
  { induction post as [|a post IH]; intros pre st Hl Hp Hf; simpl in Hf.
    - inversion Hf; subst. now rewrite app_nil_r in *.
    - apply obind_inv in Hf as [st1 [H1 H2]].
      apply (IH (pre ++ [a]) st1); auto.
      + now rewrite <- app_assoc.
      + eapply Hstep; eauto. }
  eapply (G l [] s); auto.
Qed.

(** Progress rule: a loop with an invariant under which the body never panics. *)
Lemma foldM_total : forall {A S} (f : S -> A -> outcome S) (P : list A -> S -> Prop) l s,
  P [] s ->
  (forall pre a post st, l = pre ++ a :: post -> P pre st -> exists st', f st a = Ret st' /\ P (pre ++ [a]) st') ->
  exists s', foldM f l s = Ret s' /\ P l s'.
Proof.
  intros A S f P l s H0 Hstep.
  assert (G : forall post pre st, l = pre ++ post -> P pre st -> exists s', foldM f post st = Ret s' /\ P l s').
  { induction post as [|a post IH]; intros pre st Hl Hp.
    - rewrite app_nil_r in Hl; subst. exists st; simpl; auto.
    - destruct (Hstep pre a post st Hl Hp) as [st' [Hf Hp']].
      destruct (IH (pre ++ [a]) st') as [s' [H1 H2]]; auto.
      + now rewrite <- app_assoc.
      + exists s'; simpl; rewrite Hf; auto. }
  apply (G l [] s); auto.
Qed.

Lemma foldM_ext : forall {A S} (f g : S -> A -> outcome S) l s,
  (forall s a, In a l -> f s a = g s a) -> foldM f l s = foldM g l s.
Proof.
  intros A S f g l; induction l as [|a l IH]; intros s H; simpl; [auto|].
  rewrite (H s a) by (left; auto). destruct (g s a); simpl; auto.
  apply IH. intros; apply H; right; auto.
Qed.

Lemma fold_left_ext : forall {A S} (f g : S -> A -> S) l s,
  (forall s a, In a l -> f s a = g s a) -> fold_left f l s = fold_left g l s.
Proof.
  intros A S f g l; induction l as [|a l IH]; intros s H; simpl; [auto|].
  rewrite (H s a) by (left; auto). apply IH. intros; apply H; right; auto.
Qed.

Lemma fold_left_map : forall {A B S} (f : S -> B -> S) (g : A -> B) l s,
  fold_left f (map g l) s = fold_left (fun s a => f s (g a)) l s.
Proof. intros A B S f g l; induction l; intros s; simpl; auto. Qed.

Lemma foldM_map : forall {A B S} (f : S -> B -> outcome S) (g : A -> B) l s,
  foldM f (map g l) s = foldM (fun s a => f s (g a)) l s.
Proof.
  intros A B S f g l; induction l as [|a l IH]; intros s; simpl; auto.
  destruct (f s (g a)); simpl; auto.
Qed.

(** ** Lists as functions on indices *)

Lemma map_seq_shift : forall {A} (f : nat -> A) a n,
  map f (seq a n) = map (fun i => f (a + i)) (seq 0 n).
Proof.
  intros A f a n. revert f a; induction n as [|n IH]; intros f a; simpl; [auto|].
  rewrite (IH f (S a)), (IH (fun i => f (a + i)) 1). f_equal; [f_equal; lia|].
  apply map_ext. intros; f_equal; lia.
Qed.

Lemma nth_error_map_seq : forall {A} (f : nat -> A) n i,
  i < n -> nth_error (map f (seq 0 n)) i = Some (f i).
Proof.
  intros A f n i H. rewrite nth_error_map.
  rewrite (nth_error_nth' _ 0) by (rewrite seq_length; auto).
  rewrite seq_nth by auto. reflexivity.
Qed.

Lemma nth_map_seq : forall {A} (f : nat -> A) n i d,
  i < n -> nth i (map f (seq 0 n)) d = f i.
Proof. intros. apply nth_error_nth. now apply nth_error_map_seq. Qed.

Lemma list_eq_map_nth : forall {A} (d : A) l,
  l = map (fun i => nth i l d) (seq 0 (length l)).
Proof.
  intros A d l. apply nth_ext with (d := d) (d' := d).
  - now rewrite map_length, seq_length.
  - intros n Hn. now rewrite nth_map_seq.
Qed.

Lemma nth_error_ext : forall {A} (l1 l2 : list A),
  (forall i, nth_error l1 i = nth_error l2 i) -> l1 = l2.
Proof.
  intros A l1; induction l1 as [|a l1 IH]; intros [|b l2] H; auto.
  - specialize (H 0); discriminate.
  - specialize (H 0); discriminate.
  - f_equal; [specialize (H 0); simpl in H; congruence | apply IH; intros i; apply (H (S i))].
Qed.

Lemma map_seq_ext : forall {A} (f g : nat -> A) n,
  (forall i, i < n -> f i = g i) -> map f (seq 0 n) = map g (seq 0 n).
Proof. intros A f g n H. apply map_ext_in. intros i Hi. apply in_seq in Hi. apply H; lia. Qed.

Lemma repeat_map_seq : forall {A} (x : A) n, repeat x n = map (fun _ => x) (seq 0 n).
Proof.
  intros A x n. rewrite <- (seq_length n 0) at 1. induction (seq 0 n) as [|a l IH]; simpl; auto.
  now rewrite IH.
Qed.

Lemma combine_map_seq : forall {A B} (f : nat -> A) (g : nat -> B) n,
  combine (map f (seq 0 n)) (map g (seq 0 n)) = map (fun i => (f i, g i)) (seq 0 n).
Proof.
  intros A B f g n. generalize 0 as s. induction n as [|n IH]; intros s; simpl; auto. now rewrite IH.
Qed.

Lemma combine_map_same : forall {A B D} (f : A -> B) (g : A -> D) l,
  combine (map f l) (map g l) = map (fun i => (f i, g i)) l.
Proof. intros A B D f g l; induction l; simpl; auto. now rewrite IHl. Qed.

Lemma firstn_map_seq : forall {A} (f : nat -> A) k n,
  k <= n -> firstn k (map f (seq 0 n)) = map f (seq 0 k).
Proof.
  intros A f k n H. rewrite firstn_map. f_equal.
  replace n with (k + (n - k)) by lia. rewrite seq_app, firstn_app.
  rewrite seq_length, Nat.sub_diag, firstn_O, app_nil_r.
  apply firstn_all2. rewrite seq_length; auto.
Qed.

Lemma skipn_map_seq : forall {A} (f : nat -> A) k n,
  skipn k (map f (seq 0 n)) = map (fun i => f (k + i)) (seq 0 (n - k)).
Proof.
  intros A f k n. rewrite skipn_map, <- map_seq_shift. f_equal.
  destruct (Nat.le_gt_cases k n) as [H|H].
  - replace n with (k + (n - k)) at 1 by lia. rewrite seq_app, skipn_app.
    rewrite seq_length, Nat.sub_diag. simpl.
    rewrite skipn_all2 by (rewrite seq_length; auto). reflexivity.
  - rewrite skipn_all2 by (rewrite seq_length; lia). replace (n - k) with 0 by lia. reflexivity.
Qed.

Lemma rev_map_seq : forall {A} (f : nat -> A) n,
  map f (rev (seq 0 n)) = map (fun i => f (n - 1 - i)) (seq 0 n).
Proof.
  intros A f n. rewrite map_rev. apply nth_error_ext. intros i.
  destruct (Nat.lt_ge_cases i n) as [H|H].
  - rewrite nth_error_map_seq by auto.
    rewrite (nth_error_nth' _ (f 0)) by (rewrite rev_length, map_length, seq_length; auto).
    rewrite rev_nth by (rewrite map_length, seq_length; auto).
    rewrite map_length, seq_length, nth_map_seq by lia. do 2 f_equal. lia.
  - rewrite !(proj2 (nth_error_None _ _)); auto;
      rewrite ?rev_length, ?map_length, seq_length; auto.
Qed.

(** ** set_nth *)

Lemma set_nth_length : forall {A} (l : list A) i v, length (set_nth l i v) = length l.
Proof. intros A l; induction l; intros [|i] v; simpl; auto. Qed.

Lemma nth_error_set_nth_eq : forall {A} (l : list A) i v,
  i < length l -> nth_error (set_nth l i v) i = Some v.
Proof.
  intros A l; induction l; intros [|i] v H; simpl in *; auto; try lia. apply IHl; lia.
Qed.

Lemma nth_error_set_nth_neq : forall {A} (l : list A) i j v,
  i <> j -> nth_error (set_nth l i v) j = nth_error l j.
Proof.
  intros A l; induction l; intros [|i] [|j] v H; simpl; auto; try congruence.
Qed.

Lemma set_nth_app_r : forall {A} (l1 l2 : list A) i v,
  length l1 <= i -> set_nth (l1 ++ l2) i v = l1 ++ set_nth l2 (i - length l1) v.
Proof.
  intros A l1; induction l1; intros l2 i v H; simpl in *.
  - now rewrite Nat.sub_0_r.
  - destruct i; [lia|]. simpl. f_equal. apply IHl1. lia.
Qed.

(** ** zip_assign *)

Lemma zip_assign_length : forall {A B} (op : A -> B -> A) l r,
  length (zip_assign op l r) = length l.
Proof. intros A B op l; induction l; intros [|b r]; simpl; auto. Qed.

Lemma zip_assign_combine : forall {A B} (op : A -> B -> A) l r,
  length l = length r -> zip_assign op l r = map (fun ab => op (fst ab) (snd ab)) (combine l r).
Proof.
  intros A B op l; induction l; intros [|b r] H; simpl in *; auto; try discriminate.
  f_equal. apply IHl. lia.
Qed.

Lemma nth_error_zip_assign : forall {A B} (op : A -> B -> A) l r i,
  nth_error (zip_assign op l r) i =
  match nth_error l i, nth_error r i with
  | Some a, Some b => Some (op a b)
  | Some a, None => Some a
  | None, _ => None
  end.
Proof.
  intros A B op l; induction l; intros [|b r] [|i]; simpl; auto.
  now destruct (nth_error l i).
Qed.

Lemma zip_assign_map_seq : forall {A B} (op : A -> B -> A) (f : nat -> A) (g : nat -> B) n,
  zip_assign op (map f (seq 0 n)) (map g (seq 0 n)) = map (fun i => op (f i) (g i)) (seq 0 n).
Proof.
  intros. rewrite zip_assign_combine by now rewrite !map_length.
  rewrite combine_map_seq, map_map. reflexivity.
Qed.

(** ** slice *)

Lemma slice_ok : forall {A} (l : list A) a b,
  a <= b -> b <= length l -> slice l a b = Ret (firstn (b - a) (skipn a l)).
Proof.
  intros A l a b H1 H2. unfold slice.
  apply Nat.leb_le in H1. apply Nat.leb_le in H2. now rewrite H1, H2.
Qed.

Lemma slice_panic : forall {A} (l : list A) a b, length l < b -> slice l a b = Panic.
Proof.
  intros A l a b H. unfold slice. apply Nat.leb_gt in H. rewrite H, andb_false_r. reflexivity.
Qed.

Lemma index_ok : forall {A} (l : list A) i d, i < length l -> index l i = Ret (nth i l d).
Proof.
  intros A l i d H. unfold index. now rewrite (nth_error_nth' l d H).
Qed.

Lemma index_panic : forall {A} (l : list A) i, length l <= i -> index l i = Panic.
Proof. intros A l i H. unfold index. now rewrite (proj2 (nth_error_None l i)). Qed.

(** ** chunks *)

Lemma chunks_fuel_enough : forall {A} n fuel1 fuel2 (l : list A),
  n <> 0 -> length l <= fuel1 -> length l <= fuel2 ->
  chunks_fuel fuel1 n l = chunks_fuel fuel2 n l.
Proof.
  intros A n f1; induction f1 as [|f1 IH]; intros [|f2] l Hn H1 H2; simpl; auto.
  - destruct l; simpl in *; auto; lia.
  - destruct l; simpl in *; auto; lia.
  - destruct l as [|a l]; auto. f_equal. apply IH; auto;
      rewrite skipn_length; cbn [length] in *; lia.
Qed.

Lemma chunks_cons : forall {A} n (l : list A), n <> 0 -> l <> [] ->
  chunks n l = (cs <- chunks n (skipn n l) ;; Ret (firstn n l :: cs)).
Proof.
  intros A n l Hn Hl. unfold chunks. apply Nat.eqb_neq in Hn as Hn'. rewrite Hn'. simpl.
  destruct l as [|a l]; [congruence|]. simpl length. f_equal.
  cbn [chunks_fuel]. f_equal. apply chunks_fuel_enough; auto.
  rewrite skipn_length; cbn [length]; lia.
Qed.

Lemma chunks_nil : forall {A} n, n <> 0 -> chunks n (@nil A) = Ret [].
Proof. intros A n Hn. unfold chunks. apply Nat.eqb_neq in Hn. now rewrite Hn. Qed.

Lemma chunks_zero : forall {A} (l : list A), chunks 0 l = Panic.
Proof. reflexivity. Qed.

(** Cutting a concatenation of equal-length rows gives the rows back. *)
Lemma chunks_concat : forall {A} n (ls : list (list A)),
  n <> 0 -> Forall (fun l => length l = n) ls -> chunks n (concat ls) = Ret ls.
Proof.
  intros A n ls Hn H; induction H as [|l ls Hl H IH]; simpl.
  - now apply chunks_nil.
  - rewrite chunks_cons; auto.
    + rewrite skipn_app, firstn_app, Hl, Nat.sub_diag. simpl.
      rewrite skipn_all2 by lia. rewrite firstn_all2 by lia. rewrite app_nil_r. simpl.
      now rewrite IH.
    + intros E. apply app_eq_nil in E as [E _]. subst l. simpl in Hl. congruence.
Qed.

Lemma chunks_ret : forall {A} n (l : list A), n <> 0 -> exists cs, chunks n l = Ret cs /\ concat cs = l.
Proof.
  intros A n l Hn. unfold chunks. apply Nat.eqb_neq in Hn as E. rewrite E.
  eexists; split; [reflexivity|].
  assert (G : forall fuel (l : list A), length l <= fuel -> concat (chunks_fuel fuel n l) = l).
  { induction fuel as [|f IH]; intros l' Hl; simpl.
    - destruct l'; simpl in *; auto; lia.
    - destruct l' as [|a l']; auto. simpl concat.
      rewrite IH by (rewrite skipn_length; cbn [length] in *; lia). apply firstn_skipn. }
  apply G; auto.
Qed.

Lemma windows_map_seq : forall {A} (f : nat -> A) k n,
  1 <= k -> k <= n ->
  windows k (map f (seq 0 n)) =
  Ret (map (fun j => map (fun b => f (j + b)) (seq 0 k)) (seq 0 (n - k + 1))).
Proof.
  intros A f k n H1 H2. unfold windows. rewrite map_length, seq_length.
  replace (k =? 0) with false by (symmetry; apply Nat.eqb_neq; lia).
  replace (n <? k) with false by (symmetry; apply Nat.ltb_ge; lia).
  f_equal. apply map_seq_ext. intros i Hi.
  rewrite skipn_map_seq, firstn_map_seq by lia. reflexivity.
Qed.

Lemma concat_length_const : forall {A} n (ls : list (list A)),
  Forall (fun l => length l = n) ls -> length (concat ls) = length ls * n.
Proof.
  intros A n ls H; induction H; simpl; auto. rewrite app_length. lia.
Qed.

Lemma nth_error_firstn_lt : forall {A} k (l : list A) i, i < k -> nth_error (firstn k l) i = nth_error l i.
Proof.
  intros A k; induction k as [|k IH]; intros l i H; [lia|].
  destruct l; destruct i; simpl; auto. apply IH; lia.
Qed.

Lemma nth_error_skipn_eq : forall {A} k (l : list A) i, nth_error (skipn k l) i = nth_error l (k + i).
Proof.
  intros A k; induction k as [|k IH]; intros l i; [reflexivity|].
  destruct l; simpl; [destruct i; reflexivity | apply IH].
Qed.
