(** * Lemmas about the release profile *)
From Verif Require Import Base BaseFacts Float Matrix Cplx Act Input Dense Conv Layer Network SpecMatrix MatrixFacts MatrixFacts2 SpecConv LayerFacts ConvFacts PropMatrix Release.

Section Facts.
Context (U : nat).

Lemma wsub_dev : forall a b x, usub a b = Ret x -> wsub U a b = x.
Proof. intros a b x H. unfold usub in H. unfold wsub. destruct (b <=? a); [now injection H|discriminate]. Qed.
Lemma wsub_ok : forall a b, b <= a -> wsub U a b = a - b.
Proof. intros a b H. unfold wsub. now replace (b <=? a) with true by (symmetry; apply Nat.leb_le; exact H). Qed.
Lemma wsub_wrap : forall a b, a < b -> wsub U a b = U + a - b.
Proof. intros a b H. unfold wsub. now replace (b <=? a) with false by (symmetry; apply Nat.leb_gt; exact H). Qed.
Lemma wpad_ok : forall a b, a + 2 * b < U -> wpad U a b = a + 2 * b.
Proof. intros a b H. unfold wpad. now apply Nat.mod_small. Qed.

Section Numeric.
Context {T : Type} (O : BasicOps T).
Local Notation z := (dflt O).

Lemma pad_dev : forall (m : matrix T) p q, sh0 m + 2 * p < U -> sh1 m + 2 * q < U -> pad_rel U O m p q = pad O m p q.
Proof.
  intros m p q A B. unfold pad_rel, pad. rewrite !wpad_ok by auto. rewrite (foldM_ext _ (pad_row O m p q)); [reflexivity|].
  intros (out, rest) i _. unfold pad_row_rel, pad_row. rewrite !wpad_ok by auto. rewrite wsub_ok by lia. reflexivity.
Qed.

Lemma convolution_dev : forall (m k : matrix T) r, convolution O m k = Ret r -> convolution_rel U O m k = Ret r.
Proof.
  intros m k r H. unfold convolution in H. unfold convolution_rel.
  destruct ((sh0 m <? sh0 k) || (sh1 m <? sh1 k)); [exact H|].
  apply obind_inv in H as (a & E1 & H). apply obind_inv in H as (f0 & E2 & H).
  apply obind_inv in H as (b & E3 & H). apply obind_inv in H as (f1 & E4 & H).
  cbn zeta. rewrite (wsub_dev _ _ _ E1), (wsub_dev _ _ _ E2), (wsub_dev _ _ _ E3), (wsub_dev _ _ _ E4). exact H.
Qed.

Lemma cconvolution_dev : forall cj (m k : matrix T) r, cconvolution O cj m k = Ret r -> cconvolution_rel U O cj m k = Ret r.
Proof.
  intros cj m k r H. unfold cconvolution in H. unfold cconvolution_rel.
  apply obind_inv in H as (a & E1 & H). apply obind_inv in H as (f0 & E2 & H).
  apply obind_inv in H as (b & E3 & H). apply obind_inv in H as (f1 & E4 & H).
  cbn zeta. rewrite (wsub_dev _ _ _ E1), (wsub_dev _ _ _ E2), (wsub_dev _ _ _ E3), (wsub_dev _ _ _ E4). exact H.
Qed.

Lemma upsampling_dev : forall (m : matrix T) a b kernel r,
  sh0 m * a + 2 * sh0 kernel < U + 4 -> sh1 m * b + 2 * sh0 kernel < U + 4 ->
  fractional_upsampling O m a b kernel = Ret r -> fractional_upsampling_rel U O m a b kernel = Ret r.
Proof.
  intros m a b kernel r A B H. unfold fractional_upsampling in H. unfold fractional_upsampling_rel.
  destruct (rows_as_iter m) as [rows|]; [|exact H]. cbn [obind] in H |- *. cbn zeta.
  apply obind_inv in H as (upper & E1 & H). apply obind_inv in H as (bottom & E2 & H).
  apply obind_inv in H as (left & E3 & H). apply obind_inv in H as (right & E4 & H).
  assert (F1 : (if a mod 2 =? 0 then wsub U (a / 2) 1 else wsub U a 1 / 2) = upper).
  { destruct (a mod 2 =? 0); [now apply wsub_dev|]. apply obind_inv in E1 as (x & E1 & E1'). rewrite (wsub_dev _ _ _ E1). now injection E1'. }
  assert (F3 : (if b mod 2 =? 0 then wsub U (b / 2) 1 else wsub U a 1 / 2) = left).
  { destruct (b mod 2 =? 0); [now apply wsub_dev|]. apply obind_inv in E3 as (x & E3 & E3'). rewrite (wsub_dev _ _ _ E3). now injection E3'. }
  apply obind_inv in E2 as (x2 & E2 & E2'). apply obind_inv in E4 as (x4 & E4 & E4').
  rewrite F1, F3, (wsub_dev _ _ _ E2), (wsub_dev _ _ _ E2'), (wsub_dev _ _ _ E4), (wsub_dev _ _ _ E4').
  apply obind_inv in H as (st & ES & H). rewrite ES. cbn [obind].
  destruct (negb _); [exact H|]. destruct (_ || _); [exact H|].
  apply obind_inv in H as (p & EP & H). rewrite (wsub_dev _ _ _ EP).
  assert (p = sh0 kernel - 2 /\ 2 <= sh0 kernel) as (-> & L).
  { unfold usub in EP. destruct (2 <=? sh0 kernel) eqn:E; [|discriminate]. apply Nat.leb_le in E. injection EP as <-. auto. }
  rewrite pad_dev by (cbn [from_body sh0 sh1]; lia).
  destruct (pad _ _ _ _) as [padded|]; [|exact H]. cbn [obind] in H |- *.
  apply obind_inv in H as (o & EC & H). apply obind_inv in H as (out & EU & H).
  rewrite (convolution_dev _ _ _ EC). cbn [obind]. rewrite EU. exact H.
Qed.

(** A padding of -1: a smaller matrix of zeros. *)
Lemma pad_wrapped : forall (m : matrix T), 3 <= sh0 m -> sh0 m < U -> 3 <= sh1 m -> sh1 m < U ->
  pad_rel U O m (U - 1) (U - 1) = Ret (mat (sh0 m - 2) (sh1 m - 2) (fun _ _ => z)).
Proof.
  intros m A B C D. unfold pad_rel.
  assert (W : forall x, 3 <= x -> x < U -> wpad U x (U - 1) = x - 2).
  { intros x X1 X2. unfold wpad. replace (x + 2 * (U - 1)) with (x - 2 + 2 * U) by lia.
    rewrite Nat.mod_add by lia. apply Nat.mod_small. lia. }
  rewrite !W by auto.
  assert (G : forall n s out rest, s + n < U ->
    foldM (pad_row_rel U O m (U - 1) (U - 1)) (seq s n) (out, rest) = Ret (out ++ concat (tab_rows n (sh1 m - 2) (fun _ _ => z)), rest)).
  { induction n as [|n IH]; intros s out rest H; [cbn; now rewrite app_nil_r|]. cbn [seq foldM]. unfold pad_row_rel at 1.
    rewrite !W by auto. replace (s <? U - 1) with true by (symmetry; apply Nat.ltb_lt; lia). cbn [obind].
    rewrite IH by lia. rewrite tab_rows_S. cbn [concat]. rewrite app_assoc. unfold tab_row.
    rewrite repeat_map_seq. reflexivity. }
  rewrite G by lia. cbn [obind fst app]. reflexivity.
Qed.

Lemma stuffing_ok : forall (m : matrix T) a b p q, p < a -> q < b -> 
     foldM (fun st (_ : nat) =>
          match snd st with
          | [] => Panic
          | r :: rest =>
              Ret (fst st
                   ++ concat (repeat (repeat z (sh1 m * b)) p)
                   ++ flat_map (fun e => repeat z q ++ [e] ++ repeat z (b - q - 1)) r
                   ++ concat (repeat (repeat z (sh1 m * b)) (a - p - 1)), rest)
          end) (seq 0 (sh0 m)) ([], tab_rows (sh0 m) (sh1 m) (entry z m))
     = Ret (concat (tab_rows (sh0 m * a) (sh1 m * b) (stuffed z a b p q (entry z m))), []).
Proof.
  intros m a b p q Hp Hq.
  assert (K : forall n s i0 acc,
     foldM (fun st (_ : nat) =>
          match snd st with
          | [] => Panic
          | r :: rest =>
              Ret (fst st
                   ++ concat (repeat (repeat z (sh1 m * b)) p)
                   ++ flat_map (fun e => repeat z q ++ [e] ++ repeat z (b - q - 1)) r
                   ++ concat (repeat (repeat z (sh1 m * b)) (a - p - 1)), rest)
          end) (seq s n) (acc, tab_rows n (sh1 m) (fun i => entry z m (i0 + i)))
     = Ret (acc ++ concat (tab_rows (n * a) (sh1 m * b) (fun i => stuffed z a b p q (entry z m) (i0 * a + i))), [])).
  { induction n as [|n IH]; intros s i0 acc; [simpl; now rewrite app_nil_r|].
    cbn [seq foldM]. rewrite tab_rows_S. cbn [snd fst].
    rewrite stuff_rows by auto. cbn [obind].
    rewrite (tab_rows_ext n (sh1 m) _ (fun i => entry z m (S i0 + i))) by (intros; f_equal; lia).
    rewrite IH. replace (S n * a) with (a + n * a) by (simpl; lia).
    rewrite (tab_rows_app a (n * a)), concat_app, <- app_assoc. do 4 f_equal.
    - f_equal. apply tab_rows_ext. intros u j Hu _. unfold stuffed.
      rewrite !(mod_block a), !(div_block a) by lia. now rewrite !Nat.add_0_r.
    - f_equal. apply tab_rows_ext. intros u j _ _. f_equal. simpl. lia. }
  rewrite (tab_rows_ext _ _ (entry z m) (fun i => entry z m (0 + i))) by auto.
  rewrite K. reflexivity.
Qed.

Lemma upsampling_one : forall (m kernel : matrix T) a q,
  wf m -> wf kernel -> 1 <= a -> 1 <= sh0 m -> 1 <= sh1 m ->
  sh0 kernel = 1 -> sh1 kernel = q -> q mod 2 = 1 ->
  3 <= sh0 m * a -> sh0 m * a < U -> q + 2 <= sh1 m * a -> sh1 m * a < U ->
  fractional_upsampling_rel U O m a a kernel =
  Ret (Ok (mat (sh0 m * a - 2) (sh1 m * a - 1 - q) (fun _ _ => corr O 1 q (fun _ _ => z) (entry z kernel) 0 0))).
Proof.
  intros m kernel a q H Hk A1 H0 H1 K0 K1 Q S0 S0' S1 S1'.
  assert (Hq : 1 <= q) by (destruct q; [discriminate|lia]).
  assert (P : up_off a a < a).
  { unfold up_off. destruct (a mod 2 =? 0).
    - assert (a / 2 <= a) by (apply Nat.div_le_upper_bound; lia). lia.
    - assert ((a - 1) / 2 <= a - 1) by (apply Nat.div_le_upper_bound; lia). lia. }
  (* everything before the padding is as in the dev profile *)
  assert (D : fractional_upsampling_rel U O m a a kernel =
     (padded <- pad_rel U O (mat (sh0 m * a) (sh1 m * a) (stuffed z a a (up_off a a) (up_off a a) (entry z m))) (U - 1) (U - 1) ;;
      out <-! convolution_rel U O padded kernel ;; Ret (Ok out))).
  { unfold fractional_upsampling_rel. rewrite (rows_as_iter_ok z m H) by lia. cbn [obind].
    assert (F1 : (if a mod 2 =? 0 then wsub U (a / 2) 1 else wsub U a 1 / 2) = up_off a a).
    { unfold up_off. destruct (a mod 2 =? 0) eqn:E.
      - apply Nat.eqb_eq in E. apply wsub_ok. destruct a as [|[|a']]; [lia|discriminate|]. apply Nat.div_le_lower_bound; lia.
      - now rewrite wsub_ok by lia. }
    cbn zeta. rewrite !F1. rewrite (wsub_ok a) by lia. rewrite (wsub_ok (a - up_off a a)) by lia. rewrite (stuffing_ok m a a) by (auto; lia).
    cbn [obind fst]. rewrite concat_tab_length, Nat.eqb_refl. cbn [negb]. rewrite K0, K1, Q. cbn [Nat.eqb orb].
    change (1 mod 2 =? 0) with false. cbn [orb]. rewrite wsub_wrap by lia. replace (U + 1 - 2) with (U - 1) by lia. reflexivity. }
  rewrite D, pad_wrapped by (cbn [mat sh0 sh1]; lia). cbn [obind mat sh0 sh1].
  assert (CO : convolution O (mat (sh0 m * a - 2) (sh1 m * a - 2) (fun _ _ => z)) kernel =
     Ret (Ok (mat (sh0 m * a - 2) (sh1 m * a - 1 - q) (fun _ _ => corr O 1 q (fun _ _ => z) (entry z kernel) 0 0)))).
  { rewrite convolution_ok by (auto using wf_mat; cbn [mat sh0 sh1]; lia). cbn [mat sh0 sh1]. rewrite K0, K1.
    replace (sh0 m * a - 2 - 1 + 1) with (sh0 m * a - 2) by lia. replace (sh1 m * a - 2 - q + 1) with (sh1 m * a - 1 - q) by lia.
    do 2 f_equal. apply mat_ext. intros i j Hi Hj. unfold corr. apply sum_from_ext. intros u Hu. apply sum_from_ext. intros v Hv.
    now rewrite entry_mat by lia. }
  rewrite (convolution_dev _ _ _ CO). reflexivity.
Qed.

(** A kernel without rows: one row too many, all zeros. *)
Lemma convolution_rowless : forall (m k : matrix T),
  wf m -> wf k -> sh0 k = 0 -> 1 <= sh1 k -> sh1 k <= sh1 m -> sh0 m + 1 < U ->
  convolution_rel U O m k = Ret (Ok (mat (sh0 m + 1) (sh1 m - sh1 k + 1) (fun _ _ => z))).
Proof.
  intros m k Hm Hk K0 K1 K2 HU. unfold convolution_rel. rewrite K0.
  replace (sh1 m <? sh1 k) with false by (symmetry; apply Nat.ltb_ge; auto). cbn [Nat.ltb Nat.leb orb].
  rewrite (wsub_wrap 0 1) by lia. rewrite (wsub_wrap (sh0 m)) by lia. rewrite (wsub_ok (sh1 k)) by lia. rewrite (wsub_ok (sh1 m)) by lia.
  replace (U + sh0 m - (U + 0 - 1)) with (sh0 m + 1) by lia. replace (sh1 m - (sh1 k - 1)) with (sh1 m - sh1 k + 1) by lia. cbn zeta.
  replace (sh0 m <? 0) with false by (symmetry; apply Nat.ltb_ge; lia). cbn [orb].
  unfold flat_mapM. rewrite (mapM_ret _ (tab_row (fun _ _ => z) (sh1 m - sh1 k + 1))).
  - cbn [obind]. fold (@tab_rows T (sh0 m + 1) (sh1 m - sh1 k + 1) (fun _ _ => z)). rewrite to_matrix_ok. reflexivity.
  - intros i Hi. apply in_seq in Hi. unfold conv_row, get_slider. rewrite K0.
    assert (S : slice (body m) (i * sh1 m) (i * sh1 m + 0 * sh1 m) = Ret []).
    { unfold slice. rewrite Nat.mul_0_l, Nat.add_0_r, Nat.leb_refl.
      replace (i * sh1 m <=? length (body m)) with true by (symmetry; apply Nat.leb_le; unfold wf in Hm; rewrite Hm; nia).
      cbn [andb]. now rewrite Nat.sub_diag. }
    rewrite S. cbn [obind].
    assert (N : forall n, 1 <= n -> chunks n (@nil T) = Ret []) by (intros [|n] L; [lia|reflexivity]).
    rewrite N by lia. cbn [obind]. unfold rows_as_iter.
    assert (B : body k = []) by (apply length_zero_iff_nil; unfold wf in Hk; rewrite Hk, K0; reflexivity).
    rewrite B, N by lia. cbn [obind combine foldM]. rewrite repeat_map_seq. reflexivity.
Qed.

(** A kernel without columns panics in both profiles. *)
Lemma convolution_colless : forall (m k : matrix T), sh1 k = 0 -> sh0 k <= sh0 m -> sh0 m + 1 < U ->
  convolution_rel U O m k = Panic.
Proof.
  intros m k K1 K0 HU. unfold convolution_rel. rewrite K1.
  replace (sh0 m <? sh0 k) with false by (symmetry; apply Nat.ltb_ge; auto).
  replace (sh1 m <? 0) with false by (symmetry; apply Nat.ltb_ge; lia). cbn [orb]. cbn zeta.
  assert (E : exists n, wsub U (sh0 m) (wsub U (sh0 k) 1) = S n).
  { exists (wsub U (sh0 m) (wsub U (sh0 k) 1) - 1). destruct (sh0 k) as [|k0].
    - rewrite (wsub_wrap 0 1) by lia. rewrite wsub_wrap by lia. lia.
    - rewrite (wsub_ok (S k0)) by lia. rewrite wsub_ok by lia. lia. }
  destruct E as (n & ->). unfold flat_mapM. cbn [seq mapM]. unfold conv_row at 1. unfold rows_as_iter. rewrite K1.
  destruct (get_slider m 0 (sh0 k)); cbn [obind]; reflexivity.
Qed.

Lemma cconvolution_large : forall cj (m k : matrix T), wf m -> wf k -> 1 <= sh0 k -> 1 <= sh1 k -> 1 <= sh0 m -> 1 <= sh1 m ->
  sh0 k < U -> sh1 k < U -> sh0 m + 1 < sh0 k \/ sh1 m + 1 < sh1 k -> sh0 k <> sh0 m + 1 ->
  cconvolution_rel U O cj m k = Panic.
Proof.
  intros cj m k Hm Hk K0 K1 M0 M1 L0 L1 H NE. unfold cconvolution_rel.
  rewrite (wsub_ok (sh0 k)) by lia. rewrite (wsub_ok (sh1 k)) by lia. cbn zeta.
  assert (E : exists n, wsub U (sh0 m) (sh0 k - 1) = S n).
  { unfold wsub. destruct (_ <=? _) eqn:E; [apply Nat.leb_le in E; exists (sh0 m - (sh0 k - 1) - 1); lia|].
    apply Nat.leb_gt in E. exists (U + sh0 m - (sh0 k - 1) - 1). lia. }
  destruct E as (n & ->).
  assert (LK : length (map cj (body k)) = sh0 k * sh1 k) by (rewrite map_length; exact Hk).
  unfold to_matrix at 1. rewrite LK, Nat.eqb_refl. cbn [negb unwrap obind].
  unfold flat_mapM. cbn [seq mapM]. unfold get_slider at 1.
  destruct (Nat.le_gt_cases (sh0 k) (sh0 m)) as [F|F].
  - assert (C : sh1 m + 1 < sh1 k) by lia.
    rewrite (wf_body z m Hm). rewrite (slice_tab 0 (sh0 k)) by lia. cbn [obind].
    rewrite chunks_tab by lia. cbn [obind].
    rewrite (rows_as_iter_ok z (from_body (map cj (body k)) (sh0 k) (sh1 k))) by (try exact LK; cbn [from_body sh1]; lia).
    cbn [obind from_body sh0 sh1]. unfold tab_rows. destruct (sh0 k) as [|k0]; [lia|]. cbn [seq map combine foldM fst snd].
    assert (W : windows (sh1 k) (tab_row (fun u => entry z m (0 + u)) (sh1 m) 0) = Ret []).
    { unfold windows. replace (sh1 k =? 0) with false by (symmetry; apply Nat.eqb_neq; lia). unfold tab_row. rewrite map_length, seq_length.
      now replace (sh1 m <? sh1 k) with true by (symmetry; apply Nat.ltb_lt; lia). }
    rewrite W. cbn [obind map]. unfold add_slice_mut. rewrite repeat_length. cbn [length].
    rewrite wsub_wrap by lia. replace (U + sh1 m - (sh1 k - 1) =? 0) with false by (symmetry; apply Nat.eqb_neq; lia). reflexivity.
  - cbn [Nat.mul Nat.add]. unfold slice. replace (sh0 k * sh1 m <=? length (body m)) with false; [now rewrite andb_false_r|].
    symmetry. apply Nat.leb_gt. unfold wf in Hm. rewrite Hm. nia.
Qed.

(** Blocks more than twice as tall as wide (odd width). *)
Lemma upsampling_tall : forall (m kernel : matrix T) a b, wf m -> 1 <= sh0 m -> 1 <= sh1 m ->
  b mod 2 = 1 -> 2 * b + 1 <= a -> a < U ->
  fractional_upsampling_rel U O m a b kernel = Panic.
Proof.
  intros m kernel a b Hm M0 M1 Hb Hab HU. assert (B1 : 1 <= b) by (destruct b; [discriminate|lia]). unfold fractional_upsampling_rel.
  rewrite (rows_as_iter_ok z m Hm) by lia. cbn [obind]. cbn zeta. rewrite Hb. cbn [Nat.eqb].
  rewrite (wsub_ok a 1) by lia.
  assert (UP : (if a mod 2 =? 0 then wsub U (a / 2) 1 else (a - 1) / 2) = up_off a a).
  { unfold up_off. destruct (a mod 2 =? 0) eqn:E; [|reflexivity].
    apply Nat.eqb_eq in E. apply wsub_ok. apply Nat.div_le_lower_bound; lia. }
  assert (P : up_off a a < a).
  { unfold up_off. destruct (a mod 2 =? 0).
    - assert (a / 2 <= a) by (apply Nat.div_le_upper_bound; lia). lia.
    - assert ((a - 1) / 2 <= a - 1) by (apply Nat.div_le_upper_bound; lia). lia. }
  rewrite UP. rewrite (wsub_ok a) by lia. rewrite (wsub_ok (a - up_off a a)) by lia.
  assert (L1 : b <= (a - 1) / 2) by (apply Nat.div_le_lower_bound; lia).
  assert (L2 : (a - 1) / 2 <= a - 1) by (apply Nat.div_le_upper_bound; lia).
  set (q := (a - 1) / 2) in *.
  assert (R : q + 1 + wsub U (wsub U b q) 1 = U + b).
  { unfold wsub. destruct (q <=? b) eqn:E.
    - apply Nat.leb_le in E. replace (b - q) with 0 by lia. cbn [Nat.leb]. lia.
    - apply Nat.leb_gt in E. replace (1 <=? U + b - q) with true by (symmetry; apply Nat.leb_le; lia). lia. }
  set (w := wsub U (wsub U b q) 1) in *. set (p := up_off a a) in *.
  assert (G : forall n s acc rows st, length rows = n -> (forall r, In r rows -> length r = sh1 m) ->
     foldM (fun st (_ : nat) =>
          match snd st with
          | [] => Panic
          | r :: rest =>
              Ret (fst st
                   ++ concat (repeat (repeat z (sh1 m * b)) p)
                   ++ flat_map (fun e => repeat z q ++ [e] ++ repeat z w) r
                   ++ concat (repeat (repeat z (sh1 m * b)) (a - p - 1)), rest)
          end) (seq s n) (acc, rows) = Ret st ->
     length (fst st) = length acc + n * (sh1 m * (b * a + U))).
  { induction n as [|n IH]; intros s acc rows st LR LE E; [cbn in E; injection E as <-; cbn; lia|].
    destruct rows as [|r rows]; [discriminate|]. cbn [seq foldM snd fst obind] in E. apply IH in E; [|cbn in LR; lia|intros; apply LE; now right].
    rewrite E, !app_length.
    assert (CR : forall k, length (concat (repeat (repeat z (sh1 m * b)) k)) = k * (sh1 m * b)).
    { induction k; cbn; [reflexivity|]. rewrite app_length, repeat_length, IHk. reflexivity. }
    assert (FL : forall l : list T, length (flat_map (fun e => repeat z q ++ [e] ++ repeat z w) l) = length l * (U + b)).
    { induction l as [|e l IHl]; [reflexivity|]. cbn [flat_map length]. rewrite !app_length, !repeat_length, IHl. cbn [length]. rewrite <- R. lia. }
    rewrite !CR, FL, (LE r) by now left. nia. }
  destruct (foldM _ _ _) as [st|] eqn:E; [|reflexivity]. cbn [obind].
  apply G in E; [|apply tab_rows_length|intros r Hr; unfold tab_rows in Hr; apply in_map_iff in Hr as (i & <- & _); unfold tab_row; now rewrite map_length, seq_length].
  replace (length (fst st) =? sh0 m * a * (sh1 m * b)) with false; [reflexivity|].
  symmetry. apply Nat.eqb_neq. rewrite E. cbn [length]. nia.
Qed.
End Numeric.

Section Net.
Context (Fl : FloatOps).
Local Notation C := (cplx (F Fl)).

Lemma red_derivatives_dev : forall (l : red Fl) x (g gc : list C) r,
  (forall ms, x = IOMatrix ms -> forall m, In m ms -> sh0 m + 2 * sh0 (r_kernel l) < U + 4 /\ sh1 m + 2 * sh0 (r_kernel l) < U + 4) ->
  red_derivatives Fl l x g gc = Ret r -> red_derivatives_rel U Fl l x g gc = Ret r.
Proof.
  intros l x g gc r S H. unfold red_derivatives in H. unfold red_derivatives_rel. destruct x as [v|ms]; [exact H|].
  apply obind_inv in H as (ch & -> & H). cbn [obind]. apply obind_inv in H as (ca & -> & H). cbn [obind].
  apply obind_inv in H as (cb & -> & H). cbn [obind].
  apply obind_inv in H as (st & E & H).
  assert (E' : foldM (red_step_rel U Fl l) ms (ca, cb, [], []) = Ret st); [|rewrite E'; exact H].
  clear H. specialize (S ms eq_refl). revert E. generalize (ca, cb, @nil C, @nil C). induction ms as [|m ms IH]; intros s0 E; [exact E|].
  cbn [foldM] in E |- *. apply obind_inv in E as (s1 & E1 & E2).
  assert (R : red_step_rel U Fl l s0 m = Ret s1).
  { destruct (S m (or_introl eq_refl)) as (B0 & B1). destruct s0 as (((ca0, cb0), na), nb). unfold red_step in E1. unfold red_step_rel.
    apply obind_inv in E1 as (f0 & F0 & E1). apply obind_inv in E1 as (f1 & F1 & E1). rewrite F0, F1. cbn [obind].
    assert (D : forall a b f, udiv a b = Ret f -> f * b <= a).
    { intros a b f Q. unfold udiv in Q. destruct (b =? 0) eqn:EB; [discriminate|]. apply Nat.eqb_neq in EB. injection Q as <-. rewrite Nat.mul_comm. now apply Nat.mul_div_le. }
    apply D in F0, F1.
    destruct ca0 as [|a ca0]; [discriminate|]. apply obind_inv in E1 as (ma & EM & E1). rewrite EM. cbn [obind].
    apply obind_inv in E1 as (ua & EU & E1). 
    assert (SM : forall l0 m0, unwrap (to_matrix l0 f0 f1 : result (matrix C) OperationError) = Ret m0 -> sh0 m0 = f0 /\ sh1 m0 = f1).
    { intros l0 m0 Q. unfold to_matrix in Q. destruct (negb _); [discriminate|]. injection Q as <-. auto. }
    destruct (SM _ _ EM) as (A0 & A1). rewrite (upsampling_dev (cops Fl) ma (r_b0 l) (r_b1 l) (r_kernel l) ua) by (auto; rewrite ?A0, ?A1; lia). cbn [obind].
    apply obind_inv in E1 as (va & EV & E1). rewrite EV. cbn [obind].
    destruct cb0 as [|b cb0]; [discriminate|]. apply obind_inv in E1 as (mb & EMb & E1). rewrite EMb. cbn [obind].
    apply obind_inv in E1 as (ub & EUb & E1).
    destruct (SM _ _ EMb) as (A0b & A1b). rewrite (upsampling_dev (cops Fl) mb (r_b0 l) (r_b1 l) (r_kernel l) ub) by (auto; rewrite ?A0b, ?A1b; lia). cbn [obind].
    exact E1. }
  rewrite R. cbn [obind]. apply IH; [intros m' Hm'; apply S; now right|exact E2].
Qed.

Lemma intercept_dev : forall p (n : network Fl) x i r, net_intercept Fl p n x i = Ret r -> net_intercept_rel U Fl p n x i = Ret r.
Proof.
  intros p n x i r H. unfold net_intercept in H. unfold net_intercept_rel. apply obind_inv in H as (a & E & H).
  rewrite (wsub_dev _ _ _ E). exact H.
Qed.

Lemma red_one : forall (l : red Fl) a n r c x (g gc : list C),
  r_b0 l = a -> r_b1 l = a -> wf (r_kernel l) -> sh0 (r_kernel l) = 1 -> sh1 (r_kernel l) = 1 ->
  1 <= a -> a <= r -> a <= c -> r mod a = 0 -> c mod a = 0 -> 3 <= r -> 3 <= c -> r < U -> c < U -> 1 <= n -> maps_wf n r c x ->
  length g = n * (r / a * (c / a)) -> length gc = n * (r / a * (c / a)) ->
  let v := corr (cops Fl) 1 1 (fun _ _ => c_default Fl) (entry (c_default Fl) (r_kernel l)) 0 0 in
  red_derivatives_rel U Fl l (IOMatrix x) g gc = Ret (Ok ([], [], repeat v (n * ((r - 2) * (c - 2))), repeat v (n * ((r - 2) * (c - 2))))).
Proof.
  intros l a n r c x g gc B0 B1 WK K0 K1 A1 AR AC MR MC R3 C3 RU CU N1 (LX & Sh) Lg Lgc v.
  assert (DR : r / a * a = r) by (pose proof (Nat.div_mod r a); lia).
  assert (DC : c / a * a = c) by (pose proof (Nat.div_mod c a); lia).
  assert (R1 : 1 <= r / a) by (apply Nat.div_le_lower_bound; lia).
  assert (C1 : 1 <= c / a) by (apply Nat.div_le_lower_bound; lia).
  set (z := c_default Fl) in *.
  unfold red_derivatives_rel. rewrite LX, udiv_ok by lia. cbn [obind].
  replace (length g / n) with (r / a * (c / a)) by (symmetry; rewrite Lg, (Nat.mul_comm n); apply Nat.div_mul; lia).
  assert (CH : forall g : list C, length g = n * (r / a * (c / a)) ->
     chunks (r / a * (c / a)) g = Ret (map (fun ch => concat (tab_rows (r / a) (c / a) (at3 z (r / a) (c / a) g ch))) (seq 0 n))).
  { intros h Lh. rewrite (list_tab3 z n (r / a) (c / a) h Lh) at 1. unfold tab3. apply chunks_concat; [nia|].
    apply Forall_forall. intros q Hq. apply in_map_iff in Hq as (o & <- & _). apply concat_tab_length. }
  rewrite !CH by auto. cbn [obind]. set (ga := at3 z (r / a) (c / a) g). set (gb := at3 z (r / a) (c / a) gc).
  assert (UP : forall h, fractional_upsampling_rel U (cops Fl) (mat (r / a) (c / a) h) a a (r_kernel l) = Ret (Ok (mat (r - 2) (c - 2) (fun _ _ => v)))).
  { intros h. rewrite (upsampling_one _ _ _ a 1); auto using wf_mat; cbn [mat sh0 sh1]; rewrite ?DR, ?DC; try lia.
    replace (c - 1 - 1) with (c - 2) by lia. reflexivity. }
  assert (CV : forall k, concat (tab_rows k (c - 2) (fun _ _ => v)) = repeat v (k * (c - 2))).
  { induction k; [reflexivity|]. rewrite tab_rows_S. cbn [concat Nat.mul]. rewrite IHk, repeat_app. f_equal. unfold tab_row. now rewrite repeat_map_seq. }
  assert (G : forall (fs : list (matrix C)) s na nb, (forall m, In m fs -> sh0 m = r /\ sh1 m = c) ->
     let tabs (g : nat -> nat -> nat -> C) := map (fun ch => concat (tab_rows (r / a) (c / a) (g ch))) (seq s (length fs)) in
     foldM (red_step_rel U Fl l) fs (tabs ga, tabs gb, na, nb) =
     Ret ([], [], na ++ repeat v (length fs * ((r - 2) * (c - 2))), nb ++ repeat v (length fs * ((r - 2) * (c - 2))))).
  { induction fs as [|m fs IH]; intros s na nb Shf tabs; [cbn; now rewrite !app_nil_r|].
    subst tabs. cbn [length seq map foldM]. unfold red_step_rel at 1.
    destruct (Shf m) as (E0 & E1); [now left|]. rewrite E0, E1, B0, B1, !udiv_ok by lia. cbn [obind].
    rewrite !to_matrix_ok. cbn [unwrap obind]. rewrite !UP. cbn [unwrap obind mat body].
    rewrite IH by (intros; apply Shf; now right). rewrite !CV. cbn [Nat.mul]. now rewrite !repeat_app, !app_assoc. }
  rewrite <- LX. rewrite G by (intros m Hm; split; apply Sh, Hm). reflexivity.
Qed.
End Net.
End Facts.
