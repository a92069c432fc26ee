(** * Lemmas about reduce layers *)
From Verif Require Import Base BaseFacts Float Matrix Cplx Act Input Dense Conv Layer SpecMatrix MatrixFacts MatrixFacts2 SpecConv ConvFacts LayerFacts PropMatrix.

Section Pool.
Context (Fl : FloatOps).
Local Notation C := (cplx (F Fl)).
Local Notation O := (cops Fl).
Local Notation z := (c_default Fl).

(** Map (r x c) obtained from an (r/a x c/a) table by zero stuffing and filtering. *)
Definition ups (a r c : nat) (kern : matrix C) (f : nat -> nat -> C) : nat -> nat -> C :=
  corr O 3 3 (framed z r c 1 1 (stuffed z a a ((a - 1) / 2) ((a - 1) / 2) f)) (entry z kern).

Lemma red_fold : forall (l : red Fl) a r c (ga gb : nat -> nat -> nat -> C) (feats : list (matrix C)) s na nb,
  r_b0 l = a -> r_b1 l = a -> wf (r_kernel l) -> sh0 (r_kernel l) = 3 -> sh1 (r_kernel l) = 3 ->
  1 <= a -> a <= r -> a <= c -> r mod a = 0 -> c mod a = 0 ->
  (forall m, In m feats -> sh0 m = r /\ sh1 m = c) ->
  let tabs g := map (fun ch => concat (tab_rows (r / a) (c / a) (g ch))) (seq s (length feats)) in
  let out g := concat (map (fun ch => concat (tab_rows r c (ups a r c (r_kernel l) (g ch)))) (seq s (length feats))) in
  foldM (red_step Fl l) feats (tabs ga, tabs gb, na, nb) = Ret ([], [], na ++ out ga, nb ++ out gb).
Proof.
  intros l a r c ga gb feats s na nb B0 B1 WK K0 K1 A1 AR AC MR MC.
  assert (DR : r / a * a = r) by (pose proof (Nat.div_mod r a); lia).
  assert (DC : c / a * a = c) by (pose proof (Nat.div_mod c a); lia).
  assert (R1 : 1 <= r / a) by (apply Nat.div_le_lower_bound; lia).
  assert (C1 : 1 <= c / a) by (apply Nat.div_le_lower_bound; lia).
  revert s na nb. induction feats as [|m feats IH]; intros s na nb Sh tabs out.
  - subst tabs out. cbn. now rewrite !app_nil_r.
  - subst tabs out. cbn [length seq map foldM]. unfold red_step at 1.
    destruct (Sh m) as (E0 & E1); [now left|]. rewrite E0, E1, B0, B1, !udiv_ok by lia. cbn [obind].
    assert (U : forall g, fractional_upsampling O (mat (r / a) (c / a) g) a a (r_kernel l) = Ret (Ok (mat r c (ups a r c (r_kernel l) g)))).
    { intros g. rewrite (C26_square O _ _ a 3); auto using wf_mat. cbn [mat sh0 sh1]. rewrite DR, DC.
      rewrite !Nat.add_sub. do 2 f_equal. apply mat_ext. intros i j Hi Hj. unfold ups, corr.
      change (dflt O) with z. apply sum_from_ext. intros u Hu. apply sum_from_ext. intros v Hv. f_equal.
      unfold framed. cbn [Nat.sub]. destruct (_ && _)%bool eqn:EQ; [|reflexivity].
      apply andb_true_iff in EQ as (EQ & Q4). apply andb_true_iff in EQ as (EQ & Q3). apply andb_true_iff in EQ as (Q1 & Q2).
      apply Nat.leb_le in Q1, Q3. apply Nat.ltb_lt in Q2, Q4.
      unfold stuffed. destruct (_ && _)%bool; [|reflexivity]. apply entry_mat; apply Nat.div_lt_upper_bound; lia. }
    rewrite !to_matrix_ok. cbn [unwrap obind]. rewrite !U. cbn [unwrap obind].
    rewrite IH by (intros; apply Sh; now right). cbn [mat body]. cbn [concat]. now rewrite !app_assoc.
Qed.

Lemma red_derivatives_ok : forall (l : red Fl) a n r c x (g gc : list C),
  r_b0 l = a -> r_b1 l = a -> wf (r_kernel l) -> sh0 (r_kernel l) = 3 -> sh1 (r_kernel l) = 3 ->
  1 <= a -> a <= r -> a <= c -> r mod a = 0 -> c mod a = 0 -> 1 <= n -> maps_wf n r c x ->
  length g = n * (r / a * (c / a)) -> length gc = n * (r / a * (c / a)) ->
  let up g := tab3 n r c (fun ch => ups a r c (r_kernel l) (at3 z (r / a) (c / a) g ch)) in
  red_derivatives Fl l (IOMatrix x) g gc = Ret (Ok ([], [], up g, up gc)).
Proof.
  intros l a n r c x g gc B0 B1 WK K0 K1 A1 AR AC MR MC N1 (LX & Sh) Lg Lgc up.
  assert (R1 : 1 <= r / a) by (apply Nat.div_le_lower_bound; lia).
  assert (C1 : 1 <= c / a) by (apply Nat.div_le_lower_bound; lia).
  unfold red_derivatives. rewrite LX, udiv_ok by lia. cbn [obind].
  replace (length g / n) with (r / a * (c / a)) by (symmetry; rewrite Lg, (Nat.mul_comm n); apply Nat.div_mul; lia).
  assert (CH : forall g : list C, length g = n * (r / a * (c / a)) ->
     chunks (r / a * (c / a)) g = Ret (map (fun ch => concat (tab_rows (r / a) (c / a) (at3 z (r / a) (c / a) g ch))) (seq 0 n))).
  { intros h Lh. rewrite (list_tab3 z n (r / a) (c / a) h Lh) at 1. unfold tab3. apply chunks_concat; [nia|].
    apply Forall_forall. intros q Hq. apply in_map_iff in Hq as (o & <- & _). apply concat_tab_length. }
  rewrite !CH by auto. cbn [obind]. rewrite <- LX.
  rewrite (red_fold l a r c) by (auto; intros m Hm; split; apply Sh, Hm). cbn [obind app]. subst up. unfold tab3. now rewrite LX.
Qed.
End Pool.
