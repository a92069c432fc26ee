(** * Lemmas about the MNIST readers *)
From Coq Require Import ZArith NArith.
From Verif Require Import Base BaseFacts Matrix Random Input Dataset.
Local Open Scope nat_scope.
Local Open Scope list_scope.

Section Loop.
Context {T : Type} (px : N -> outcome T)
        (pred : nat -> nat -> PredictModel -> outcome (result (list T) PredicionError)).
Context (pixel : N -> T) (zero one : T).
Context (Hpx : forall b, (b < 256)%N -> px b = Ret (pixel b)).
Context (Hpred : forall k, k < 10 -> pred 10 k Sparse = Ret (Ok (set_nth (repeat zero 10) k one))).

(** A record the readers understand. *)
Definition good_rec (r : list N * N) : Prop :=
  length (fst r) = 784 /\ Forall (fun b => (b < 256)%N) (fst r) /\ (snd r < 10)%N.

(** The files holding the records [rs] and nothing else. *)
Definition imgs (rs : list (list N * N)) : file := mkFile (concat (map fst rs)) [].
Definition labs (rs : list (list N * N)) : file := mkFile (map snd rs) [].

Definition pt (r : list N * N) : IOType T * IOType T :=
  (IOMatrix [from_body (map pixel (fst r)) 28 28], IOScalar (set_nth (repeat zero 10) (N.to_nat (snd r)) one)).

Lemma read_full : forall bytes rest buf, length bytes = length buf ->
  read_file (mkFile (bytes ++ rest) []) buf = (mkFile rest [], bytes, length buf).
Proof.
  intros bytes rest buf H. unfold read_file. cbn [f_lens f_bytes tl].
  replace (Nat.min _ _) with (length bytes) by (rewrite app_length; lia).
  rewrite firstn_app, Nat.sub_diag, firstn_all, skipn_app, skipn_all, Nat.sub_diag. cbn [firstn skipn app].
  rewrite app_nil_r. rewrite H at 1. rewrite skipn_all, app_nil_r. now rewrite H.
Qed.

Lemma read_empty : forall buf, read_file (mkFile [] []) buf = (mkFile [] [], buf, 0).
Proof. intros buf. unfold read_file. cbn [f_lens f_bytes tl length]. rewrite Nat.min_0_r. reflexivity. Qed.

Local Notation loop := (mnist_loop px pred).
Local Open Scope rust_scope.

Lemma point_built : forall r, good_rec r ->
  mapM px (fst r) = Ret (map pixel (fst r)) /\
  pred MINIST_DEGREE (N.to_nat (snd r)) Sparse = Ret (Ok (set_nth (repeat zero 10) (N.to_nat (snd r)) one)).
Proof.
  intros r (L & B & H). split.
  - apply mapM_ret. intros b Hb. apply Hpx. now apply (proj1 (Forall_forall _ _) B).
  - apply Hpred. lia.
Qed.

Lemma Forall_firstn : forall {A} (P : A -> Prop) k l, Forall P l -> Forall P (firstn k l).
Proof. intros A P k l H. revert k. induction H; intros [|k]; cbn; constructor; auto. Qed.

Lemma last_len : forall (l : list (list N * N)) d, Forall good_rec l -> length (fst d) = 784 -> length (fst (last l d)) = 784.
Proof.
  induction l as [|x l IHl]; intros d F D; [exact D|]. inversion F as [|? ? H2 ?]; subst.
  cbn [last]. destruct l; [now destruct H2|now apply IHl].
Qed.

Lemma loop_step : forall n r rs img b t acc, length img = 784 -> good_rec r ->
  loop (S n) (imgs (r :: rs)) (labs (r :: rs)) img [b] t acc =
  if (t + 1 =? 60008)%N then Ret (imgs rs, labs rs, (t + 1)%N, ds_add_point acc (pt r))
  else loop n (imgs rs) (labs rs) (fst r) [snd r] (t + 1)%N (ds_add_point acc (pt r)).
Proof.
  intros n r rs img b t acc L G. destruct (point_built r G) as [E1 E2]. cbn [mnist_loop].
  unfold imgs, labs. cbn [map concat].
  rewrite read_full by (destruct G; congruence).
  change (snd r :: map snd rs) with ([snd r] ++ map snd rs). rewrite read_full by reflexivity.
  rewrite E1. cbn [obind]. change (index [snd r] 0) with (Ret (snd r)). cbn [obind]. rewrite E2. reflexivity.
Qed.

Lemma loop_split : forall k m rs img b t acc, length img = 784 -> Forall good_rec (firstn k rs) -> k <= length rs ->
  (forall j, 0 < j <= k -> (t + N.of_nat j <> 60008)%N) ->
  loop (k + m) (imgs rs) (labs rs) img [b] t acc =
  let r := last (firstn k rs) (img, b) in
  loop m (imgs (skipn k rs)) (labs (skipn k rs)) (fst r) [snd r] (t + N.of_nat k)%N
       (fold_left ds_add_point (map pt (firstn k rs)) acc).
Proof.
  induction k as [|k IH]; intros m rs img b t acc L G H J.
  - cbn. now rewrite N.add_0_r.
  - destruct rs as [|r rs]; [cbn in H; lia|]. cbn [length] in H. cbn [firstn] in G. inversion G as [|? ? Gr Grs]; subst.
    cbn [Nat.add]. rewrite loop_step by auto.
    rewrite (proj2 (N.eqb_neq _ _)) by (specialize (J 1); lia).
    rewrite IH; [|now destruct Gr|assumption|lia|intros j Hj; specialize (J (S j)); lia].
    cbn [firstn skipn map fold_left]. replace (t + 1 + N.of_nat k)%N with (t + N.of_nat (S k))%N by lia.
    replace (last (r :: firstn k rs) (img, b)) with (last (firstn k rs) (fst r, snd r)); [reflexivity|].
    destruct r as [ri rl]. cbn [fst snd]. destruct (firstn k rs) as [|q l]; [reflexivity|].
    change (last ((ri, rl) :: q :: l) (img, b)) with (last (q :: l) (img, b)).
    clear. revert q. induction l as [|z l IH]; intros q; [reflexivity|]. exact (IH z).
Qed.

Lemma loop_pad : forall m img b t acc, good_rec (img, b) -> (t <> 60008)%N ->
  loop m (imgs []) (labs []) img [b] t acc = Ret (imgs [], labs [], t, fold_left ds_add_point (repeat (pt (img, b)) m) acc).
Proof.
  induction m as [|m IH]; intros img b t acc G H; [reflexivity|].
  destruct (point_built _ G) as [E1 E2]. cbn [fst snd] in E1, E2.
  cbn [mnist_loop]. unfold imgs, labs. cbn [map concat]. rewrite !read_empty. rewrite E1. cbn [obind].
  change (index [b] 0) with (Ret b). cbn [obind]. rewrite E2. cbn [obind unwrap]. rewrite N.add_0_r.
  change MINIST_TRAIN_LABEL_SIZE with 60008%N. rewrite (proj2 (N.eqb_neq _ _)) by auto.
  cbn [repeat fold_left]. apply (IH img b t _ G H).
Qed.

Lemma loop_pad_end : forall m img b acc, good_rec (img, b) ->
  loop (S m) (imgs []) (labs []) img [b] 60008 acc
  = Ret (imgs [], labs [], 60008%N, ds_add_point acc (pt (img, b))).
Proof.
  intros m img b acc G. destruct (point_built _ G) as [E1 E2]. cbn [fst snd] in E1, E2.
  cbn [mnist_loop]. unfold imgs, labs. cbn [map concat]. rewrite !read_empty. rewrite E1. cbn [obind].
  change (index [b] 0) with (Ret b). cbn [obind]. rewrite E2. reflexivity.
Qed.

(** A call that finds all the records it asks for. *)
Lemma loop_enough : forall n rs img b t acc, length img = 784 -> Forall good_rec rs -> n <= length rs ->
  (forall j, 0 < j < n -> (t + N.of_nat j <> 60008)%N) ->
  loop n (imgs rs) (labs rs) img [b] t acc =
  Ret (imgs (skipn n rs), labs (skipn n rs), (t + N.of_nat n)%N, fold_left ds_add_point (map pt (firstn n rs)) acc).
Proof.
  intros n rs img b t acc L G H J. destruct n as [|n]; [cbn; now rewrite N.add_0_r|].
  replace (S n) with (n + 1) at 1 by lia. rewrite loop_split; [|assumption|now apply Forall_firstn|lia|intros; apply J; lia]. cbv zeta.
  set (q := last _ _).
  assert (Lq : length (fst q) = 784).
  { subst q. apply last_len; [now apply Forall_firstn|exact L]. }
  clearbody q.
  assert (D : exists r rs', skipn n rs = r :: rs').
  { destruct (skipn n rs) as [|r rs'] eqn:E; [|eauto]. apply (f_equal (@length _)) in E. rewrite skipn_length in E. cbn in E. lia. }
  destruct D as (r & rs' & D). rewrite D.
  assert (Gr : good_rec r).
  { apply (proj1 (Forall_forall _ _) G). rewrite <- (firstn_skipn n rs), D. apply in_or_app. right. now left. }
  rewrite loop_step by auto.
  assert (E1 : skipn (S n) rs = rs').
  { clear - D. revert rs D. induction n as [|n IH]; intros [|x rs] D; try discriminate; cbn in D.
    - injection D as <- <-. reflexivity.
    - now apply IH in D. }
  assert (E2 : firstn (S n) rs = firstn n rs ++ [r]).
  { clear - D. revert rs D. induction n as [|n IH]; intros [|x rs] D; try discriminate; cbn [skipn] in D.
    - injection D as <- <-. reflexivity.
    - cbn [firstn app]. f_equal. rewrite <- (IH rs D). reflexivity. }
  rewrite E1, E2, map_app, fold_left_app. cbn [map fold_left].
  replace (t + N.of_nat n + 1)%N with (t + N.of_nat (S n))%N by lia.
  destruct (_ =? _)%N; reflexivity.
Qed.

(** A call during which the files run out. *)
Lemma loop_short : forall m rs img b t acc, good_rec (img, b) -> Forall good_rec rs ->
  (forall j, j <= length rs -> (t + N.of_nat j <> 60008)%N) ->
  loop (length rs + m) (imgs rs) (labs rs) img [b] t acc =
  Ret (imgs [], labs [], (t + N.of_nat (length rs))%N,
       fold_left ds_add_point (map pt (rs ++ repeat (last rs (img, b)) m)) acc).
Proof.
  intros m rs img b t acc G Grs J. rewrite loop_split; [|now destruct G|now apply Forall_firstn|lia|intros; apply J; lia].
  cbv zeta. rewrite firstn_all, skipn_all.
  assert (Gl : good_rec (last rs (img, b))).
  { clear J. induction Grs as [|x l Hx Hl IHl]; [exact G|]. cbn [last]. destruct l; auto. }
  destruct (last rs (img, b)) as [qi ql]. cbn [fst snd].
  rewrite loop_pad by (auto; apply J; lia). rewrite map_app, fold_left_app. do 3 f_equal.
  clear. induction m; [reflexivity|]. cbn [repeat map]. now rewrite <- IHm.
Qed.

(** A label the readers do not understand. *)
Lemma loop_bad : forall n good r rs img b t acc,
  (forall k v, 10 <= k -> pred 10 k Sparse <> Ret (Ok v)) ->
  length img = 784 -> Forall good_rec good -> length (fst r) = 784 -> Forall (fun b => (b < 256)%N) (fst r) ->
  (10 <= snd r)%N -> (forall j, 0 < j <= length good -> (t + N.of_nat j <> 60008)%N) ->
  length good < n ->
  loop n (imgs (good ++ r :: rs)) (labs (good ++ r :: rs)) img [b] t acc = Panic.
Proof.
  intros n good r rs img b t acc Hp L G Lr Br H10 J Hn.
  assert (F : firstn (length good) (good ++ r :: rs) = good).
  { rewrite firstn_app, Nat.sub_diag, firstn_all. cbn. apply app_nil_r. }
  assert (K : skipn (length good) (good ++ r :: rs) = r :: rs).
  { rewrite skipn_app, Nat.sub_diag, skipn_all. reflexivity. }
  replace n with (length good + S (n - length good - 1)) by lia.
  rewrite loop_split; [|assumption|now rewrite F|rewrite app_length; lia|assumption]. cbv zeta. rewrite F, K.
  set (q := last _ _). assert (Lq : length (fst q) = 784) by (now apply last_len). clearbody q.
  cbn [mnist_loop]. unfold imgs, labs. cbn [map concat].
  rewrite read_full by congruence.
  change (snd r :: map snd rs) with ([snd r] ++ map snd rs). rewrite read_full by reflexivity.
  rewrite (mapM_ret px pixel) by (intros x Hx; apply Hpx; now apply (proj1 (Forall_forall _ _) Br)).
  cbn [obind]. change (index [snd r] 0) with (Ret (snd r)). cbn [obind].
  change MINIST_DEGREE with 10. destruct (pred 10 (N.to_nat (snd r)) Sparse) as [[v|e]|] eqn:E; try reflexivity.
  exfalso. apply (Hp (N.to_nat (snd r)) v); [lia|exact E].
Qed.

End Loop.
