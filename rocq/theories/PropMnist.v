(** * Property C59: MNIST batches *)
From Coq Require Import ZArith NArith Reals Lra.
From Flocq Require Import BinarySingleNaN.
From Verif Require Import Base BaseFacts Float Matrix Cplx Random Input Dataset RFloat BFloat SpecMatrix MatrixFacts
  MnistFacts SpecMnist PropData PropRandom.
Local Open Scope nat_scope.
Local Open Scope list_scope.

(** ** What the readers have in common *)
Definition generic {T} (read : reader T) (pixel : N -> T) (zero one : T) : Prop :=
  exists px pred, read = mnist_batch px pred /\
    (forall b, (b < 256)%N -> px b = Ret (pixel b)) /\
    (forall k, k < 10 -> pred 10 k Sparse = Ret (Ok (set_nth (repeat zero 10) k one))) /\
    (forall k v, 10 <= k -> pred 10 k Sparse <> Ret (Ok v)).

Lemma pred_generic : forall {A} (zero one e : A) add, add zero one = e ->
  (forall k, k < 10 -> gen_pred zero one add 10 k Sparse = Ret (Ok (set_nth (repeat zero 10) k e))) /\
  (forall k v, 10 <= k -> gen_pred zero one add 10 k Sparse <> Ret (Ok v)).
Proof.
  intros A zero one e add <-. split.
  - intros k H. do 10 (destruct k as [|k]; [reflexivity|]). lia.
  - intros k v H. destruct (C12_one_hot zero one add 10 k Sparse) as (_ & H1 & H2).
    destruct (Nat.eq_dec k 10) as [E|N]; [rewrite H2 by exact E|rewrite H1 by lia]; discriminate.
Qed.

Lemma all_bytes : forall P : N -> bool, forallb P (map N.of_nat (seq 0 256)) = true -> forall b, (b < 256)%N -> P b = true.
Proof.
  intros P H b Hb. apply (proj1 (forallb_forall _ _) H). apply in_map_iff. exists (N.to_nat b).
  split; [lia|]. apply in_seq. lia.
Qed.

(** 255 * b / (255 * 255), which is what the complex division computes, rounds
    to the same number as b / 255. *)
Definition sf_eqb (x y : SpecFloat.spec_float) : bool :=
  match x, y with
  | SpecFloat.S754_zero s, SpecFloat.S754_zero s' => Bool.eqb s s'
  | SpecFloat.S754_finite s m e, SpecFloat.S754_finite s' m' e' => Bool.eqb s s' && (Pos.eqb m m' && Z.eqb e e')
  | _, _ => false
  end.
Lemma sf_eqb_eq : forall x y, sf_eqb x y = true -> x = y.
Proof.
  intros [s|s| |s m e] [s'|s'| |s' m' e'] H; try discriminate; cbn in H.
  - apply Bool.eqb_prop in H. now subst.
  - apply Bool.andb_true_iff in H as [H1 H]. apply Bool.andb_true_iff in H as [H2 H3].
    apply Bool.eqb_prop in H1. apply Pos.eqb_eq in H2. apply Z.eqb_eq in H3. now subst.
Qed.

Definition cpx_ok (prec emax : Z) (Hp : FLX.Prec_gt_0 prec) (He : Prec_lt_emax prec emax) (b : N) : bool :=
  let z := Bofz prec emax Hp He 0 in
  let x := Bofz prec emax Hp He (Z.of_N b) in
  let y := Bofz prec emax Hp He 255 in
  let mul := Bmult mode_NE in
  let den := Bplus mode_NE (mul y y) (mul z z) in
  negb (Beqb den z) &&
  (sf_eqb (B2SF (Bdiv mode_NE (Bplus mode_NE (mul x y) (mul z z)) den)) (B2SF (Bdiv mode_NE x y)) &&
   sf_eqb (B2SF (Bdiv mode_NE (Bminus mode_NE (mul z y) (mul x z)) den)) (B2SF z)).

Lemma px_cplx_B : forall prec emax Hp He, (forall b, (b < 256)%N -> cpx_ok prec emax Hp He b = true) ->
  forall L b, (b < 256)%N -> px_cplx (BOps prec emax Hp He L) b = Ret (cbyte (BOps prec emax Hp He L) b).
Proof.
  intros prec emax Hp He H L b Hb. specialize (H b Hb). unfold cpx_ok in H.
  apply Bool.andb_true_iff in H as [H1 H]. apply Bool.andb_true_iff in H as [H2 H3].
  apply sf_eqb_eq, B2SF_inj in H2. apply sf_eqb_eq, B2SF_inj in H3. apply Bool.negb_true_iff in H1.
  unfold px_cplx, c_div, cbyte, byte. cbn [re im].
  change (fsq (BOps prec emax Hp He L)) with (fun x : binary_float prec emax => Bmult mode_NE x x).
  cbv beta.
  change (fofN (BOps prec emax Hp He L)) with (fun n => Bofz prec emax Hp He (Z.of_N n)).
  change (fzero (BOps prec emax Hp He L)) with (Bofz prec emax Hp He 0).
  cbv beta. change (Z.of_N 255) with 255%Z.
  cbn [BOps feqb fadd fmul fdiv fsub]. rewrite H1, H2, H3. reflexivity.
Qed.

Lemma readers_generic : forall T read pixel zero one, mnist_reader T read pixel zero one -> generic read pixel zero one.
Proof.
  assert (C32 : forall b, (b < 256)%N -> cpx_ok 24 128 prec24 emax128 b = true)
    by (apply all_bytes; vm_compute; reflexivity).
  assert (C64 : forall b, (b < 256)%N -> cpx_ok 53 1024 prec53 emax1024 b = true)
    by (apply all_bytes; vm_compute; reflexivity).
  assert (E32 : forall L, fadd (B32Ops L) (fzero (B32Ops L)) (fone (B32Ops L)) = fone (B32Ops L)).
  { intros L. apply B2SF_inj. vm_compute. reflexivity. }
  assert (E64 : forall L, fadd (B64Ops L) (fzero (B64Ops L)) (fone (B64Ops L)) = fone (B64Ops L)).
  { intros L. apply B2SF_inj. vm_compute. reflexivity. }
  assert (Z32 : forall L, fadd (B32Ops L) (fzero (B32Ops L)) (fzero (B32Ops L)) = fzero (B32Ops L)) by reflexivity.
  assert (Z64 : forall L, fadd (B64Ops L) (fzero (B64Ops L)) (fzero (B64Ops L)) = fzero (B64Ops L)) by reflexivity.
  assert (C : forall Fl, fadd Fl (fzero Fl) (fone Fl) = fone Fl -> fadd Fl (fzero Fl) (fzero Fl) = fzero Fl ->
     c_add_assign Fl (c_default Fl) (c_unit Fl) = c_unit Fl).
  { intros Fl H1 H2. unfold c_add_assign, c_default, c_unit. cbn [re im]. now rewrite H1, H2. }
  intros T read pixel zero one H. destruct H.
  - exists (px_real (B32Ops L)), (r_gen_pred (B32Ops L)). split; [reflexivity|]. split; [reflexivity|].
    exact (pred_generic _ _ _ _ (E32 L)).
  - exists (px_real (B64Ops L)), (r_gen_pred (B64Ops L)). split; [reflexivity|]. split; [reflexivity|].
    exact (pred_generic _ _ _ _ (E64 L)).
  - exists (px_cplx (B32Ops L)), (c_gen_pred (B32Ops L)). split; [reflexivity|].
    split; [exact (px_cplx_B 24 128 prec24 emax128 C32 L)|]. exact (pred_generic _ _ _ _ (C _ (E32 L) (Z32 L))).
  - exists (px_cplx (B64Ops L)), (c_gen_pred (B64Ops L)). split; [reflexivity|].
    split; [exact (px_cplx_B 53 1024 prec53 emax1024 C64 L)|]. exact (pred_generic _ _ _ _ (C _ (E64 L) (Z64 L))).
  - exists (px_real ROps), (r_gen_pred ROps). split; [reflexivity|]. split; [reflexivity|].
    apply (pred_generic (A := R)). cbn. ring.
  - exists (px_cplx ROps), (c_gen_pred ROps). split; [reflexivity|]. split.
    + intros b Hb. unfold px_cplx, c_div, cbyte, byte. cbn -[IZR]. unfold Reqb.
      destruct (Req_EM_T _ _) as [E|N]; [exfalso; lra|]. f_equal. f_equal; field; lra.
    + apply (pred_generic (A := cplx R)). cbn. unfold c_add_assign. cbn. f_equal; ring.
Qed.

(** ** Histories of calls *)
Section Calls.
Context {T : Type} (px : N -> outcome T)
        (pred : nat -> nat -> PredictModel -> outcome (result (list T) PredicionError)).
Context (pixel : N -> T) (zero one : T).
Context (Hpx : forall b, (b < 256)%N -> px b = Ret (pixel b)).
Context (Hpred : forall k, k < 10 -> pred 10 k Sparse = Ret (Ok (set_nth (repeat zero 10) k one))).
Local Notation read := (mnist_batch px pred).
Local Notation pt := (pt pixel zero one).

Lemma later_call : forall rs n t, (t <> 0)%N ->
  read (imgs rs) (labs rs) n t = mnist_loop px pred n (imgs rs) (labs rs) (repeat 0%N 784) [0%N] t ds_new.
Proof. intros rs n t H. unfold mnist_batch. rewrite (proj2 (N.eqb_neq _ _)) by auto. reflexivity. Qed.

Lemma header_call : forall hd hl rs n, length hd = 16 -> length hl = 8 ->
  read (image_file hd rs) (label_file hl rs) n 0 = read (imgs rs) (labs rs) n 8.
Proof.
  intros hd hl rs n H1 H2. rewrite later_call by discriminate. unfold mnist_batch. change (0 =? 0)%N with true. cbv iota.
  unfold image_file, label_file.
  rewrite (read_full hd) by (now rewrite repeat_length). rewrite (read_full hl) by (now rewrite repeat_length).
  reflexivity.
Qed.

Lemma header_calls : forall hd hl rs sizes, length hd = 16 -> length hl = 8 -> sizes <> [] ->
  calls read sizes (image_file hd rs) (label_file hl rs) 0 = calls read sizes (imgs rs) (labs rs) 8.
Proof. intros hd hl rs [|n sizes] H1 H2 N; [congruence|]. cbn [calls]. now rewrite header_call. Qed.

Lemma calls_app : forall {U} (rd : reader U) s1 s2 df lf t,
  calls rd (s1 ++ s2) df lf t =
  ('(df1, lf1, t1, d1) <- calls rd s1 df lf t ;;
   '(df2, lf2, t2, d2) <- calls rd s2 df1 lf1 t1 ;; Ret (df2, lf2, t2, d1 ++ d2))%rust.
Proof.
  intros U rd. induction s1 as [|n s1 IH]; intros s2 df lf t; cbn [calls app obind].
  - destruct (calls rd s2 df lf t) as [[[[? ?] ?] ?]|]; reflexivity.
  - destruct (rd df lf n t) as [[[[df1 lf1] t1] d]|]; [|reflexivity]. cbn [obind]. rewrite IH.
    destruct (calls rd s1 df1 lf1 t1) as [[[[df2 lf2] t2] d2]|]; [|reflexivity]. cbn [obind].
    destruct (calls rd s2 df2 lf2 t2) as [[[[df3 lf3] t3] d3]|]; reflexivity.
Qed.

Lemma points_of : forall pts : list (IOType T * IOType T), points (fold_left ds_add_point pts ds_new) = pts.
Proof. intros pts. destruct (C58_history pts) as (_ & _ & _ & H & _). exact H. Qed.

Lemma black_good : good_rec black.
Proof. split; [reflexivity|]. split; [|reflexivity]. apply Forall_forall. intros b H. apply repeat_spec in H. now subst. Qed.

Lemma Forall_skipn : forall {A} (P : A -> Prop) k l, Forall P l -> Forall P (skipn k l).
Proof. intros A P k l H. revert k. induction H; intros [|k]; cbn; auto. Qed.

Lemma skipn_add : forall {A} a b (l : list A), skipn a (skipn b l) = skipn (b + a) l.
Proof.
  intros A a b. revert a. induction b as [|b IH]; intros a l; [reflexivity|]. destruct l; [now rewrite !skipn_nil|]. apply IH.
Qed.

Lemma firstn_add : forall {A} a b (l : list A), firstn (a + b) l = firstn a l ++ firstn b (skipn a l).
Proof.
  intros A a b. induction a as [|a IH]; intros l; [reflexivity|]. destruct l; [now rewrite !firstn_nil|].
  cbn. now rewrite IH.
Qed.

Lemma calls_in_order : forall sizes rs t, Forall good_rec rs -> total sizes <= length rs ->
  (8 <= t)%N -> (t + N.of_nat (total sizes) <= 60008)%N ->
  exists ds, calls read sizes (imgs rs) (labs rs) t
    = Ret (imgs (skipn (total sizes) rs), labs (skipn (total sizes) rs), (t + N.of_nat (total sizes))%N, ds) /\
    map ds_n_points ds = sizes /\ concat (map points ds) = map pt (firstn (total sizes) rs).
Proof.
  induction sizes as [|n sizes IH]; intros rs t G H T8 J.
  - exists []. cbn. rewrite N.add_0_r. auto.
  - change (total (n :: sizes)) with (n + total sizes) in *. cbn [calls].
    rewrite later_call by lia.
    rewrite (loop_enough px pred pixel zero one Hpx Hpred); [|reflexivity|assumption|lia|intros; lia]. cbn [obind].
    destruct (IH (skipn n rs) (t + N.of_nat n)%N) as (ds & E & E1 & E2);
      [now apply Forall_skipn|rewrite skipn_length; lia|lia|lia|].
    rewrite E. cbn [obind]. eexists. split; [|split].
    + rewrite skipn_add. do 3 f_equal. lia.
    + cbn [map]. rewrite E1. f_equal. fold (@ds_of T T (map pt (firstn n rs))).
      rewrite (proj1 (C58_history _)), map_length, firstn_length. lia.
    + cbn [map concat]. rewrite points_of, E2. now rewrite firstn_add, map_app.
Qed.

Lemma pt_shows : forall r, good_rec r -> shows pixel zero one r (pt r).
Proof.
  intros r (L & B & H). exists (from_body (map pixel (fst r)) 28 28), (set_nth (repeat zero 10) (N.to_nat (snd r)) one).
  split; [reflexivity|]. split; [reflexivity|]. split; [reflexivity|].
  split; [cbn; now rewrite map_length|]. split; [|split; [reflexivity || now rewrite set_nth_length, repeat_length|]].
  - intros i j Hi Hj. rewrite (elm_ok (pixel 0%N)).
    + unfold entry. cbn [sh1 body from_body]. rewrite map_nth. now rewrite (Nat.mul_comm i 28).
    + unfold wf. cbn [body from_body sh0 sh1]. rewrite map_length, L. reflexivity.
    + exact Hi.
    + exact Hj.
  - intros i Hi. destruct (N.eqb_spec (N.of_nat i) (snd r)) as [<-|N].
    + rewrite Nat2N.id. apply nth_error_set_nth_eq. now rewrite repeat_length.
    + rewrite nth_error_set_nth_neq by lia. now apply nth_error_repeat.
Qed.

Lemma pts_show : forall rs, Forall good_rec rs -> Forall2 (shows pixel zero one) rs (map pt rs).
Proof. induction 1; constructor; auto. now apply pt_shows. Qed.

End Calls.

Lemma rec_good : forall rs, Forall record_ok rs -> Forall good_rec rs.
Proof. apply Forall_impl. intros r [[L B] H]. now repeat split. Qed.

(** ** C59 *)

(** While records remain, successive calls hand them out in file order, each
    exactly once, whatever the batch sizes. *)
Theorem C59_in_order : forall T read pixel zero one, mnist_reader T read pixel zero one ->
  forall hd hl rs sizes, length hd = 16 -> length hl = 8 -> Forall record_ok rs ->
  total sizes <= length rs -> (N.of_nat (total sizes) <= 60000)%N ->
  exists df lf t ds, calls read sizes (image_file hd rs) (label_file hl rs) 0 = Ret (df, lf, t, ds) /\
    map ds_n_points ds = sizes /\
    Forall2 (shows pixel zero one) (firstn (total sizes) rs) (concat (map points ds)).
Proof.
  intros T read pixel zero one H hd hl rs sizes H1 H2 G B1 B2.
  destruct (readers_generic _ _ _ _ _ H) as (px & pred & -> & Hpx & Hpred & _). apply rec_good in G.
  destruct sizes as [|n sizes]; [repeat eexists; constructor|].
  rewrite header_calls by (auto; discriminate).
  destruct (calls_in_order px pred pixel zero one Hpx Hpred (n :: sizes) rs 8%N G B1) as (ds & E & E1 & E2); [lia|lia|].
  do 4 eexists. split; [exact E|]. split; [exact E1|]. rewrite E2. apply pts_show. now apply Forall_firstn.
Qed.
Print Assumptions C59_in_order.

(** A file with fewer than 60000 records that runs out during a call: the
    call still returns as many points as it was asked for, by repeating the
    last record it read, or the black image labelled 0 if it read none. *)
Theorem C59_runs_out : forall T read pixel zero one, mnist_reader T read pixel zero one ->
  forall hd hl rs sizes n, length hd = 16 -> length hl = 8 -> Forall record_ok rs -> (N.of_nat (length rs) < 60000)%N ->
  total sizes <= length rs -> length rs <= total sizes + n ->
  let left := skipn (total sizes) rs in
  exists df lf t ds d,
    calls read (sizes ++ [n]) (image_file hd rs) (label_file hl rs) 0 = Ret (df, lf, t, ds ++ [d]) /\
    length ds = length sizes /\ ds_n_points d = n /\
    Forall2 (shows pixel zero one) (left ++ repeat (last left black) (n - length left)) (points d).
Proof.
  intros T read pixel zero one H hd hl rs sizes n H1 H2 G B0 B1 B2 left.
  destruct (readers_generic _ _ _ _ _ H) as (px & pred & -> & Hpx & Hpred & _). apply rec_good in G.
  rewrite header_calls by (auto; now destruct sizes). rewrite calls_app.
  destruct (calls_in_order px pred pixel zero one Hpx Hpred sizes rs 8%N G B1) as (ds & E & E1 & E2); [lia|lia|].
  rewrite E. cbn [obind calls].
  assert (EL : left = @skipn (list N * N) (total sizes) rs) by reflexivity. rewrite <- EL.
  assert (Gl : Forall good_rec left) by (now apply Forall_skipn).
  assert (Ll : length left = length rs - total sizes) by apply skipn_length.
  clearbody left. clear EL. rewrite later_call by lia. replace (mnist_loop px pred n) with (mnist_loop px pred (length left + (n - length left))) by (f_equal; lia).
  change (repeat 0%N 784) with (fst black).
  rewrite (loop_short px pred pixel zero one Hpx Hpred); [|exact black_good|exact Gl|intros j Hj; lia].
  cbn [obind]. do 5 eexists. split; [reflexivity|]. split; [rewrite <- E1; now rewrite map_length|].
  change (fst black, 0%N) with black.
  set (all := left ++ _). assert (La : length all = n).
  { subst all. rewrite app_length, repeat_length. lia. }
  split.
  - change (fold_left ds_add_point (map (pt pixel zero one) all) ds_new) with (ds_of (map (pt pixel zero one) all)).
    now rewrite (proj1 (C58_history _)), map_length.
  - rewrite points_of. apply pts_show. subst all. apply Forall_app. split; [exact Gl|].
    apply Forall_forall. intros x Hx. apply repeat_spec in Hx. subst x.
    clear - Gl. induction Gl as [|x l Hx Hl IHl]; [apply black_good|]. cbn [last]. destruct l; auto.
Qed.
Print Assumptions C59_runs_out.

(** With exactly 60000 records (the training set) a call never goes past the
    last one, but a further non-empty call invents one black image labelled 0. *)
Theorem C59_stops : forall T read pixel zero one, mnist_reader T read pixel zero one ->
  forall hd hl rs sizes n, length hd = 16 -> length hl = 8 -> Forall record_ok rs -> N.of_nat (length rs) = 60000%N ->
  total sizes <= length rs -> length rs <= total sizes + n -> n <> 0 ->
  let left := skipn (total sizes) rs in
  exists df lf t ds d,
    calls read (sizes ++ [n]) (image_file hd rs) (label_file hl rs) 0 = Ret (df, lf, t, ds ++ [d]) /\
    length ds = length sizes /\
    Forall2 (shows pixel zero one) (match left with [] => [black] | _ => left end) (points d).
Proof.
  intros T read pixel zero one H hd hl rs sizes n H1 H2 G B0 B1 B2 N0 left.
  destruct (readers_generic _ _ _ _ _ H) as (px & pred & -> & Hpx & Hpred & _). apply rec_good in G.
  rewrite header_calls by (auto; now destruct sizes). rewrite calls_app.
  destruct (calls_in_order px pred pixel zero one Hpx Hpred sizes rs 8%N G) as (ds & E & E1 & E2); [lia|lia|lia|].
  rewrite E. cbn [obind calls].
  assert (EL : left = @skipn (list N * N) (total sizes) rs) by reflexivity. rewrite <- EL.
  assert (Gl : Forall good_rec left) by (now apply Forall_skipn).
  assert (Ll : length left = length rs - total sizes) by (unfold left; rewrite skipn_length; lia).
  assert (Lds : length ds = length sizes) by (rewrite <- E1; now rewrite map_length).
  clearbody left. clear EL. rewrite later_call by lia. change (repeat 0%N 784) with (fst black).
  destruct (Nat.eq_dec (length left) 0) as [Z|NZ].
  - apply length_zero_iff_nil in Z. rewrite Z in *. cbn [length] in Ll.
    destruct n as [|n]; [congruence|]. replace (8 + N.of_nat (total sizes))%N with 60008%N by lia.
    rewrite (loop_pad_end px pred pixel zero one Hpx Hpred) by apply black_good. cbn [obind].
    do 5 eexists. split; [reflexivity|]. split; [exact Lds|].
    change (Forall2 (shows pixel zero one) [black] (points (fold_left ds_add_point (map (pt pixel zero one) [black]) ds_new))).
    rewrite points_of. apply pts_show. constructor; [apply black_good|constructor].
  - set (k := length left - 1). replace (mnist_loop px pred n) with (mnist_loop px pred (k + S (n - k - 1))) by (f_equal; lia).
    rewrite (loop_split px pred pixel zero one Hpx Hpred); [|reflexivity|now apply Forall_firstn|lia|intros; lia].
    cbv zeta. set (q := last _ _).
    assert (Lq : length (fst q) = 784) by (apply last_len; [now apply Forall_firstn|reflexivity]). clearbody q.
    assert (D : exists r, skipn k left = [r]).
    { destruct (skipn k left) as [|r [|r' l']] eqn:X; [| eauto |];
        apply (f_equal (@length _)) in X; rewrite skipn_length in X; cbn [length] in X; lia. }
    destruct D as (r & D). rewrite D.
    assert (Gr : good_rec r).
    { apply (proj1 (Forall_forall _ _) Gl). rewrite <- (firstn_skipn k left), D. apply in_or_app. right. now left. }
    rewrite (loop_step px pred pixel zero one Hpx Hpred) by auto.
    rewrite (proj2 (N.eqb_eq _ _)) by lia. cbn [obind].
    do 5 eexists. split; [reflexivity|]. split; [exact Lds|].
    replace (match left with [] => [black] | _ => left end) with left by (destruct left; [cbn in NZ; lia|reflexivity]).
    assert (X : ds_add_point (fold_left ds_add_point (map (pt pixel zero one) (firstn k left)) ds_new) (pt pixel zero one r)
              = fold_left ds_add_point (map (pt pixel zero one) left) ds_new).
    { rewrite <- (firstn_skipn k left) at 2. rewrite D, map_app, fold_left_app. reflexivity. }
    rewrite X, points_of. now apply pts_show.
Qed.
Print Assumptions C59_stops.

(** A call that reaches a label of 10 or more panics. *)
Theorem C59_bad_label : forall T read pixel zero one, mnist_reader T read pixel zero one ->
  forall hd hl good bad rest sizes, length hd = 16 -> length hl = 8 -> Forall record_ok good ->
  image_ok bad -> (10 <= snd bad)%N -> (N.of_nat (length good) < 60000)%N -> length good < total sizes ->
  calls read sizes (image_file hd (good ++ bad :: rest)) (label_file hl (good ++ bad :: rest)) 0 = Panic.
Proof.
  intros T read pixel zero one H hd hl good bad rest sizes H1 H2 G [Lb Bb] B10 B0 B1.
  destruct (readers_generic _ _ _ _ _ H) as (px & pred & -> & Hpx & Hpred & Hno). apply rec_good in G.
  rewrite header_calls; [|exact H1|exact H2|destruct sizes; [cbn in B1; lia|discriminate]].
  assert (X : forall sizes good t, Forall good_rec good -> (8 <= t)%N -> (t + N.of_nat (length good) < 60008)%N ->
    length good < total sizes ->
    calls (mnist_batch px pred) sizes (imgs (good ++ bad :: rest)) (labs (good ++ bad :: rest)) t = Panic).
  { clear - Hpx Hpred Hno Lb Bb B10. induction sizes as [|n sizes IH]; intros good t G T8 J S; [cbn in S; lia|].
    change (total (n :: sizes)) with (n + total sizes) in S. cbn [calls]. rewrite later_call by lia.
    destruct (Nat.le_gt_cases n (length good)) as [Hn|Hn].
    - assert (Kn : n + 0 = n) by lia. rewrite <- Kn at 1.
      rewrite (loop_split px pred pixel zero one Hpx Hpred).
      + cbn [mnist_loop obind].
        replace (skipn n (good ++ bad :: rest)) with (skipn n good ++ bad :: rest)
          by (rewrite skipn_app; now replace (n - length good) with 0 by lia).
        rewrite IH; [reflexivity|now apply Forall_skipn|lia|rewrite skipn_length; lia|rewrite skipn_length; lia].
      + reflexivity.
      + rewrite firstn_app. replace (n - length good) with 0 by lia. cbn [firstn]. rewrite app_nil_r. now apply Forall_firstn.
      + rewrite app_length. lia.
      + intros; lia.
    - rewrite (loop_bad px pred pixel zero one Hpx Hpred); auto; intros; lia. }
  apply X; [exact G|lia|lia|exact B1].
Qed.
Print Assumptions C59_bad_label.

(** The operating system may return fewer bytes than asked for: if the image
    header is read in two pieces, every later image is shifted. *)
Theorem C59_short_read_refuted : exists hd hl rs df lf t d,
  length hd = 16 /\ length hl = 8 /\ Forall record_ok rs /\ 1 <= length rs /\
  minist_as_batch ROps (mkFile (f_bytes (image_file hd rs)) [8]) (label_file hl rs) 1 0 = Ret (df, lf, t, d) /\
  ~ Forall2 (shows (byte ROps) 0%R 1%R) (firstn 1 rs) (points d).
Proof.
  destruct (readers_generic _ _ _ _ _ Rd_real) as (px & pred & E & Hpx & Hpred & _). rewrite E.
  set (r' := (repeat 1%N 8 ++ repeat 0%N 776, 0%N)).
  assert (G : good_rec r').
  { split; [reflexivity|]. split; [|reflexivity]. apply Forall_app. split; apply Forall_forall; intros b H;
      apply repeat_spec in H; subst; reflexivity. }
  set (rs' := [(repeat 0%N 792, 0%N)] : list (list N * N)).
  exists (repeat 1%N 16), (repeat 1%N 8), [black; black], (imgs rs'), (labs rs'), 9%N,
    (ds_add_point ds_new (pt (byte ROps) 0%R 1%R r')).
  split; [reflexivity|]. split; [reflexivity|].
  split; [destruct black_good as (A & B & C); repeat constructor; assumption|]. split; [cbn; lia|]. split.
  - unfold mnist_batch. change (0 =? 0)%N with true. cbv iota.
    assert (R1 : read_file (mkFile (f_bytes (image_file (repeat 1%N 16) [black; black])) [8]) (repeat 0%N 16)
      = (imgs (r' :: rs'), repeat 1%N 8 ++ repeat 0%N 8, 8)) by (vm_compute; reflexivity).
    assert (R2 : read_file (label_file (repeat 1%N 8) [black; black]) (repeat 0%N 8)
      = (labs (r' :: rs'), repeat 1%N 8, 8)) by (vm_compute; reflexivity).
    rewrite R1, R2. change (repeat 0%N 1) with [0%N].
    rewrite (loop_step px pred (byte ROps) 0%R 1%R Hpx Hpred) by (auto; reflexivity).
    reflexivity.
  - intros H. inversion H as [|? ? ? ? S _]; subst. destruct S as (m & v & X & _ & _ & _ & P & _).
    specialize (P 0 0 ltac:(lia) ltac:(lia)).
    assert (M : m = from_body (map (byte ROps) (fst r')) 28 28).
    { change (pt (byte ROps) 0%R 1%R r' = (IOMatrix [m], IOScalar v)) in X. unfold pt in X.
      apply (f_equal (fun p => match fst p with IOMatrix (x :: _) => x | _ => m end)) in X. symmetry. exact X. }
    subst m.
    change (elm (from_body (map (byte ROps) (fst r')) 28 28) 0 0) with (@Ret (result (F ROps) AccessError) (Ok (byte ROps 1))) in P.
    change (nth (28 * 0 + 0) (fst black) 0%N) with 0%N in P. injection P as P. unfold byte in P. cbn in P. lra.
Qed.
Print Assumptions C59_short_read_refuted.

(** Two records, batches of 1, 0 and 1 points, then one batch too many. *)
Definition ex_recs : list mrec := [black; (repeat 255%N 784, 7%N)].
Example C59_ex : Forall record_ok ex_recs /\ total [1; 0; 1] <= length ex_recs /\
  (N.of_nat (length ex_recs) < 60000)%N /\ length ex_recs <= total [1] + 3 /\
  image_ok (repeat 0%N 784, 10%N) /\ exists rs, Forall record_ok rs /\ N.of_nat (length rs) = 60000%N.
Proof.
  assert (G : Forall record_ok ex_recs).
  { assert (X : forall c l, (c < 256)%N -> (l < 10)%N -> record_ok (repeat c 784, l)).
    { intros c l H1 H2. split; [|exact H2]. split; [reflexivity|]. apply Forall_forall. intros b H.
      apply repeat_spec in H. now subst. }
    constructor; [now apply X|]. constructor; [now apply X|]. constructor. }
  split; [exact G|]. split; [cbn; lia|]. split; [reflexivity|]. split; [cbn; lia|].
  inversion G as [|? ? [G1 G2] _]; subst. split; [exact G1|].
  exists (repeat black (N.to_nat 60000)). split.
  - apply Forall_forall. intros r H. apply repeat_spec in H. subst. split; assumption.
  - rewrite repeat_length. apply N2Nat.id.
Qed.
