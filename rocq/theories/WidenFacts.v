(** * Lemmas about moving a network from single to double precision *)
From Coq Require Import ZArith Reals Lra Lia FunctionalExtensionality.
From Flocq Require Import Core BinarySingleNaN.
From Verif Require Import Base BaseFacts Float Matrix Cplx Act Input Loss Dense Conv Layer Dataset Network Examples RFloat BFloat BFacts CFacts
  SpecMatrix SpecLayer SpecConv SpecNet SpecGeom SpecEval SpecRound RoundFacts RoundAct RoundNet SpecLip LipFacts LipNum NetFacts SpecClass ClassFacts SpecWiden PropRound PropClass PropGeom.
Local Notation re := Cplx.re. Local Notation im := Cplx.im.
Local Notation P32 := Float.P32. Local Notation P64 := Float.P64.
Local Open Scope nat_scope.

(** ** Numbers *)
Lemma wide_value : forall x, B2R (wide x) = B2R x /\ is_finite (wide x) = is_finite x.
Proof.
  intros [s|s| |s m e H]; try (split; reflexivity). cbn [wide].
  pose proof (binary_normalize_correct 53 1024 prec53 emax1024 mode_NE (cond_Zopp s (Zpos m)) e s) as P. cbv zeta in P.
  set (x := B754_finite s m e H) in *. change (F2R (Float radix2 (cond_Zopp s (Zpos m)) e)) with (B2R x) in P.
  rewrite round_generic in P; [|apply valid_rnd_round_mode|].
  - rewrite Rlt_bool_true in P.
    + destruct P as (P1 & P2 & _). split; [exact P1 | exact P2].
    + eapply Rlt_le_trans; [apply (abs_B2R_lt_emax 24 128)|]. apply bpow_le. lia.
  - apply (generic_inclusion_mag radix2 (SpecFloat.fexp 24 128)); [|apply generic_format_B2R].
    intros _. unfold SpecFloat.fexp, SpecFloat.emin. lia.
Qed.

Lemma cwide_value : forall c, cval (cwide c) = cval c.
Proof. intros [a b]. unfold cval, cwide. cbn [re im]. now rewrite (proj1 (wide_value a)), (proj1 (wide_value b)). Qed.
Lemma cwide_finite : forall c, cfinite c -> cfinite (cwide c).
Proof. intros [a b] [A B]. unfold cfinite, cwide in *. cbn [re im] in *. now rewrite (proj2 (wide_value a)), (proj2 (wide_value b)). Qed.

Lemma mval_wide : forall m, mval (mwide m) = mval m.
Proof. intros m. unfold mval, mwide. cbn. f_equal. rewrite map_map. apply map_ext, cwide_value. Qed.
Lemma ioval_wide : forall x, ioval (iowide x) = ioval x.
Proof.
  intros [v|ms]; cbn [iowide ioval]; f_equal; rewrite map_map; apply map_ext; [apply cwide_value | apply mval_wide].
Qed.
Lemma vals_wide : forall x, vals (iowide x) = map cwide (vals x).
Proof. intros [v|ms]; [reflexivity|]. cbn [vals iowide]. unfold map_values. rewrite concat_map, !map_map. reflexivity. Qed.
Lemma geom_wide : forall g x, has_geom g x -> has_geom g (iowide x).
Proof.
  intros [n|n r c] [v|ms] H; try contradiction; cbn [has_geom iowide] in *; [now rewrite map_length|].
  destruct H as (L1 & W). split; [now rewrite map_length|]. intros m M. apply in_map_iff in M as (m0 & <- & M0).
  destruct (W m0 M0) as (W1 & W2 & W3). split; [unfold wf in *; cbn; now rewrite map_length | now split].
Qed.

(** ** Layers *)
Section Layers.
Context (L : libm (binary_float 24 128)) (L' : libm (binary_float 53 1024)).
Local Notation Fl := (B32Ops L). Local Notation Fl' := (B64Ops L').
Local Notation z := (c_default Fl). Local Notation z' := (c_default Fl').
Local Notation wl := (wide_layer L L').
Local Notation covered32 := (covered 24 128 prec24 emax128 L). Local Notation covered64 := (covered 53 1024 prec53 emax1024 L').
Local Notation exact32 := (exact_layer 24 128 prec24 emax128 L). Local Notation exact64 := (exact_layer 53 1024 prec53 emax1024 L').

Lemma exact_wide : forall l, exact64 (wl l) = exact32 l.
Proof.
  intros [l|l|l|l]; cbn [wide_layer exact_layer d_weights d_biases d_func k_in k_kernels k_biases k_func r_in r_b0 r_b1 r_kernel body sh0 sh1 cap0 cap1]; try reflexivity.
  - rewrite mval_wide, map_map. do 2 f_equal. apply map_ext, cwide_value.
  - rewrite !map_map. do 2 f_equal; [f_equal; apply map_ext, mval_wide | apply map_ext, cwide_value].
  - now rewrite mval_wide.
Qed.

Lemma exact_wide_all : forall n, map exact64 (map wl n) = map exact32 n.
Proof. intros n. rewrite map_map. apply map_ext, exact_wide. Qed.

Lemma finite_wide : forall v, Forall cfinite v -> Forall cfinite (map cwide v).
Proof. intros v H. apply Forall_map. eapply Forall_impl; [|exact H]. apply cwide_finite. Qed.

Lemma func_wide : forall l, layer_func 53 1024 prec53 emax1024 L' (wl l) = layer_func 24 128 prec24 emax128 L l.
Proof. intros [l|l|l|l]; reflexivity. Qed.

Lemma covered_wide : forall l, covered32 l -> covered64 (wl l).
Proof.
  intros [l|l|l|l]; cbn [wide_layer covered d_weights d_biases d_func k_kernels k_biases k_func r_func r_b0 r_b1 body mwide]; auto.
  - intros (A & B & C). repeat split; auto; now apply finite_wide.
  - intros (A & B & C). split; [auto|]. split; [|now apply finite_wide]. apply Forall_map. eapply Forall_impl; [|exact B]. intros m M. cbn [mwide body]. now apply finite_wide.
  - intros (_ & B). split; [reflexivity|]. eapply Z.le_trans; [exact B|]. apply Z.pow_le_mono_r; lia.
Qed.

Lemma wf_wide : forall m, wf m -> wf (mwide m).
Proof. intros m. unfold wf, mwide. cbn. now rewrite map_length. Qed.

Lemma fits_wide : forall l g g', covered32 l -> fits Fl l g g' -> fits Fl' (wl l) g g'.
Proof.
  intros l g g' CV [l0 W N | l0 a b r c W N A B | l0 n r c N B0 B1 M0 M1 RF | l0 n r c].
  - destruct W as (W1 & W2 & W3). apply (fits_dense Fl' (mkDense Fl' (mwide (d_weights l0)) (map cwide (d_biases l0)) (d_func l0))); [|exact N].
    split; [now apply wf_wide|]. split; [cbn; now rewrite map_length | exact W3].
  - destruct W as (W1 & W2 & W3 & W4 & W5 & W6 & W7 & W8).
    apply (fits_conv Fl' (mkConv Fl' (k_in l0) (mkM (map mwide (body (k_kernels l0))) (sh0 (k_kernels l0)) (sh1 (k_kernels l0)) (cap0 (k_kernels l0)) (cap1 (k_kernels l0))) (map cwide (k_biases l0)) (k_func l0)) a b r c); auto.
    split; [unfold wf in *; cbn; now rewrite map_length|]. repeat (split; [assumption|]). split; [cbn; now rewrite map_length|]. split; [exact W7|].
    intros k K. cbn in K. apply in_map_iff in K as (k0 & <- & K0). destruct (W8 k0 K0) as (X1 & X2 & X3). split; [now apply wf_wide | now split].
  - apply (fits_reduce Fl' (mkRed Fl' (r_in l0) (r_b0 l0) (r_b1 l0) (avg_block Fl') (mwide (r_kernel l0))) n r c); auto.
    cbn [r_func r_b0 r_b1]. intros b LB. unfold avg_block. rewrite LB.
    destruct (C62_rate (r_b0 l0 * r_b1 l0) ltac:(nia)) as (_ & _ & R). apply R.
  - exact (fits_flatten Fl' l0 n r c).
Qed.

Lemma fit_wide : forall n g g', Forall covered32 n -> fit_all Fl n g g' -> fit_all Fl' (map wl n) g g'.
Proof.
  intros n g g' CV H. induction H as [g | l n g g1 g2 Hl HF IH]; [constructor|]. inversion CV; subst. cbn [map]. eapply fit_cons; [apply fits_wide; eauto | auto].
Qed.

(** ** Budgets *)
Lemma nth_wide : forall (v : list (cplx (binary_float 24 128))) k, cval (nth k (map cwide v) z') = cval (nth k v z).
Proof.
  intros v k. change z' with (cwide z). rewrite map_nth. apply cwide_value.
Qed.

Lemma kernel_wide : forall (l : conv Fl) o ch, entry m_new (mkM (map mwide (body (k_kernels l))) (sh0 (k_kernels l)) (sh1 (k_kernels l)) (cap0 (k_kernels l)) (cap1 (k_kernels l))) o ch = mwide (entry m_new (k_kernels l) o ch).
Proof. intros l o ch. unfold entry. cbn [body sh1]. change (@m_new (cplx (binary_float 53 1024))) with (mwide (@m_new (cplx (binary_float 24 128)))). now rewrite map_nth. Qed.

Lemma out_wide : forall l g, out_geom 53 1024 prec53 emax1024 L' (wl l) g = out_geom 24 128 prec24 emax128 L l g.
Proof.
  intros [l|l|l|l] [n|n r c]; try reflexivity. cbn [wide_layer out_geom]. unfold kh, kw, filters. cbn [k_kernels sh0]. now rewrite kernel_wide.
Qed.

Lemma order_wide : forall l, layer_order 53 1024 prec53 emax1024 L' (wl l) = layer_order 24 128 prec24 emax128 L l.
Proof. intros [l|l|l|l]; try reflexivity. cbn [wide_layer layer_order]. unfold kh, kw, channels. cbn [k_kernels sh1]. now rewrite kernel_wide. Qed.

Lemma through_wide : forall t b l g M, through 53 1024 prec53 emax1024 L' t b (wl l) g M = through 24 128 prec24 emax128 L t b l g M.
Proof.
  intros t b [l|l|l|l] [n|n r c] M; try reflexivity; cbn [wide_layer through].
  1, 2: apply map_ext; intros i; cbn [d_biases]; rewrite nth_wide; f_equal; apply csum_ext; intros j _; unfold weight, entry; cbn [d_weights mwide body sh1]; now rewrite nth_wide.
  unfold kh, kw, filters, channels. cbn [k_kernels sh0 sh1]. rewrite kernel_wide. cbn [mwide sh0 sh1].
  f_equal. extensionality o. extensionality i. extensionality j. cbn [k_biases]. rewrite nth_wide. f_equal.
  apply csum_ext; intros ch _. apply csum_ext; intros u _. apply csum_ext; intros v _. do 2 f_equal.
  unfold kval. cbn [k_kernels]. rewrite kernel_wide. unfold entry at 1 3. cbn [mwide body sh1]. apply nth_wide.
Qed.

(** Larger slack in, larger slack out. *)
Lemma Forall2_nth_cle : forall S' S k, Forall2 cle S' S -> cle (nth k S' 0%RC) (nth k S 0%RC).
Proof. intros S' S k H. revert k. induction H; intros [|k]; cbn; auto using cle_refl. Qed.

Lemma amul_mono : forall w m m', cle m m' -> cle (amul w m) (amul w m').
Proof.
  intros w m m' [A B]. split; cbn [amul re im]; apply Rplus_le_compat; apply Rmult_le_compat_l; auto using Rabs_pos.
Qed.

Lemma Forall2_map_seq : forall (f g : nat -> RC) k a, (forall i, cle (f i) (g i)) -> Forall2 cle (map f (seq a k)) (map g (seq a k)).
Proof. intros f g k. induction k as [|k IH]; intros a H; cbn; constructor; auto. Qed.

Lemma Forall2_concat_map : forall (f g : nat -> list RC) k a, (forall i, Forall2 cle (f i) (g i)) -> Forall2 cle (concat (map f (seq a k))) (concat (map g (seq a k))).
Proof. intros f g k. induction k as [|k IH]; intros a H; cbn; [constructor|]. apply Forall2_app; auto. Qed.

Lemma Forall2_tab3 : forall n r c (f g : nat -> nat -> nat -> RC), (forall o i j, cle (f o i j) (g o i j)) -> Forall2 cle (tab3 n r c f) (tab3 n r c g).
Proof.
  intros n r c f g H. unfold tab3. apply Forall2_concat_map. intros o. unfold tab_rows. apply Forall2_concat_map. intros i. unfold tab_row. apply Forall2_map_seq. auto.
Qed.

Lemma csum_cle : forall f g n, (forall i, cle (f i) (g i)) -> cle (csum f n) (csum g n).
Proof. intros f g n H. apply csum_mono. auto. Qed.

Lemma scale_mono : forall (k : R) a b, (0 <= k)%R -> cle a b -> cle (mkC k 0%R * a)%RC (mkC k 0%R * b)%RC.
Proof.
  intros k [a1 a2] [b1 b2] K [A B]. cbn in A, B. pose proof (Rmult_le_compat_l k _ _ K A). pose proof (Rmult_le_compat_l k _ _ K B). split; cbn; lra.
Qed.

Lemma through_mono : forall t' t l g S' S, cle t' t -> Forall2 cle S' S ->
  Forall2 cle (through 24 128 prec24 emax128 L t' (fun _ => 0%RC) l g S') (through 24 128 prec24 emax128 L t (fun _ => 0%RC) l g S).
Proof.
  intros t' t l g S' S T H.
  assert (D : forall l : dense Fl, Forall2 cle (map (fun i => csum (fun j => amul (cval (weight Fl l i j)) (nth j S' 0) + t') (inputs Fl l) + 0)%RC (seq 0 (units Fl l)))
     (map (fun i => csum (fun j => amul (cval (weight Fl l i j)) (nth j S 0) + t) (inputs Fl l) + 0)%RC (seq 0 (units Fl l)))).
  { intros d. apply Forall2_map_seq. intros i. apply cle_add; [|apply cle_refl]. apply csum_cle. intros j. apply cle_add; [|exact T]. apply amul_mono. now apply Forall2_nth_cle. }
  destruct l as [l|l|l|l], g as [n|n r c]; cbn [through]; auto.
  - apply Forall2_tab3. intros o i j. apply cle_add; [|apply cle_refl]. apply csum_cle; intros ch. apply csum_cle; intros u. apply csum_cle; intros v.
    apply cle_add; [|exact T]. apply amul_mono. now apply Forall2_nth_cle.
  - apply Forall2_tab3. intros o i j. apply cle_add; [|exact T]. apply scale_mono.
    + destruct (Nat.eq_dec (r_b0 l * r_b1 l) 0) as [->|N]; [cbn; rewrite Rinv_0; lra|]. left. apply Rinv_0_lt_compat, lt_0_INR. lia.
    + apply csum_cle; intros u. apply csum_cle; intros v. now apply Forall2_nth_cle.
Qed.

(** ** Networks without sigmoids over the reals do not depend on the precision *)
Definition mild (f : ComplexActFunc) : Prop := f = ActNone \/ f = RITReLU \/ f = RITTanh.

Lemma activate_prec : forall f, mild f -> activate_mut ROps P32 f = activate_mut ROps P64 f.
Proof. intros f [->|[->| ->]]; reflexivity. Qed.

Lemma covered_mild : forall l, covered32 l -> no_sigmoid L l -> mild (layer_func 24 128 prec24 emax128 L l).
Proof.
  intros [l|l|l|l] C N; unfold no_sigmoid in N; cbn [layer_func] in *; try (now left).
  all: destruct C as ([C|[C|[C|C]]] & _); unfold mild; tauto.
Qed.

Lemma forward_prec : forall l x, covered32 l -> no_sigmoid L l -> layer_forward ROps P32 (exact32 l) x = layer_forward ROps P64 (exact32 l) x.
Proof.
  intros l x C N. pose proof (activate_prec _ (covered_mild l C N)) as E. destruct l as [l|l|l|l]; cbn [exact_layer layer_forward layer_func] in *; try reflexivity.
  - unfold dense_forward. cbn [d_func]. now rewrite E.
  - unfold conv_forward. cbn [k_func]. now rewrite E.
Qed.

Lemma net_prec : forall n x, Forall covered32 n -> Forall (no_sigmoid L) n -> net_forward ROps P32 (map exact32 n) x = net_forward ROps P64 (map exact32 n) x.
Proof.
  intros n x C N. destruct n as [|l0 n0] eqn:EN; [reflexivity|]. rewrite <- EN in *. assert (NE : n <> []) by (rewrite EN; discriminate). clear EN l0 n0.
  assert (NE' : map exact32 n <> []) by (destruct n; [congruence | discriminate]).
  rewrite !NetFacts.forward_fold by exact NE'. f_equal. clear NE NE'. revert x. induction n as [|l n IH]; intros x; [reflexivity|]. inversion C; inversion N; subst.
  cbn [map foldM]. unfold fwd at 1 3. rewrite forward_prec by assumption.
  destruct (layer_forward ROps P64 (exact32 l) x) as [[y|e]|]; cbn [obind unwrap]; auto.
Qed.

(** ** The double precision budget is the smaller one *)
Definition ble (b' b : budget) : Prop := order b' = order b /\ mag b' = mag b /\ Forall2 cle (slack b') (slack b).

Lemma uu_le : (uu 53 <= uu 24)%R.
Proof. unfold uu. apply Rmult_le_compat_l; [lra|]. apply bpow_le. lia. Qed.
Lemma eta_le : (SpecRound.eta 53 1024 <= SpecRound.eta 24 128)%R.
Proof. unfold SpecRound.eta. apply Rmult_le_compat_l; [lra|]. apply bpow_le. unfold SpecFloat.emin. lia. Qed.
Lemma omega_le : (SpecRound.omega 128 <= SpecRound.omega 1024)%R.
Proof. unfold SpecRound.omega. apply bpow_le. lia. Qed.
Lemma pw_le : forall k, ((1 + uu 53) ^ k <= (1 + uu 24) ^ k)%R.
Proof. intros k. apply pow_incr. pose proof uu_le. pose proof (uu_pos 53). lra. Qed.

Context (et ee et' ee' : R) (ETE : (et' <= et)%R).

Lemma pre_mag_wide : forall l g b' b, mag b' = mag b -> pre_mag 53 1024 prec53 emax1024 L' (wl l) g b' = pre_mag 24 128 prec24 emax128 L l g b.
Proof. intros l g b' b M. unfold pre_mag. rewrite M. apply through_wide. Qed.

Lemma pre_slack_wide : forall l g b' b, Forall2 cle (slack b') (slack b) ->
  Forall2 cle (pre_slack 53 1024 prec53 emax1024 L' (wl l) g b') (pre_slack 24 128 prec24 emax128 L l g b).
Proof.
  intros l g b' b H. unfold pre_slack. rewrite through_wide. apply through_mono; [|exact H]. pose proof eta_le. split; cbn; lra.
Qed.

Lemma layer_ble : forall l g b' b, covered32 l -> no_sigmoid L l -> ble b' b ->
  ble (layer_budget 53 1024 prec53 emax1024 L' P64 et' ee' (wl l) g b') (layer_budget 24 128 prec24 emax128 L P32 et ee l g b).
Proof.
  intros l g b' b C N (O & M & S). unfold layer_budget. split; [cbn; now rewrite O, order_wide|]. split; cbn [mag slack].
  - now rewrite (pre_mag_wide l g b' b M), func_wide.
  - rewrite func_wide. pose proof (covered_mild l C N) as FM. pose proof (pre_slack_wide l g b' b S) as H. set (f := layer_func 24 128 prec24 emax128 L l) in *.
    induction H as [|a c A Cc H1 H2 IH]; cbn [map]; constructor; auto. apply cle_add; [exact H1|].
    destruct FM as [->|[->| ->]]; split; cbn; lra.
Qed.

Lemma peak_wide : forall l, layer_peak 53 1024 prec53 emax1024 L' (wl l) = layer_peak 24 128 prec24 emax128 L l.
Proof. intros [l|l|l|l]; reflexivity. Qed.

Lemma room_le : forall k (q M S S' : R), (0 <= q)%R -> (S' <= S)%R -> (q * ((1 + uu 24) ^ k * (M + S)) < SpecRound.omega 128)%R ->
  (q * ((1 + uu 53) ^ k * (M + S')) < SpecRound.omega 1024)%R.
Proof.
  intros k q M S S' Q H R. pose proof omega_le as OL. pose proof (pw_le k) as P. pose proof (pw1 53 k) as P1.
  assert (OP : (0 < SpecRound.omega 1024)%R) by (unfold SpecRound.omega; apply bpow_gt_0).
  destruct (Rle_dec 0 (M + S')) as [N|N].
  - apply Rle_lt_trans with (q * ((1 + uu 24) ^ k * (M + S)))%R; [|lra]. apply Rmult_le_compat_l; [exact Q|]. apply Rmult_le_compat; lra.
  - apply Rle_lt_trans with 0%R; [|exact OP]. assert (0 <= q * ((1 + uu 53) ^ k * - (M + S')))%R by (apply Rmult_le_pos; [exact Q|]; apply Rmult_le_pos; lra). lra.
Qed.

Lemma headroom_wide : forall l g b' b, ble b' b -> headroom 24 128 prec24 emax128 L l g b -> headroom 53 1024 prec53 emax1024 L' (wl l) g b'.
Proof.
  intros l g b' b (O & M & S) H i I. rewrite out_wide in I. specialize (H i I) as (H1 & H2).
  rewrite peak_wide, order_wide, O, (pre_mag_wide l g b' b M). pose proof (Forall2_nth_cle _ _ i (pre_slack_wide l g b' b S)) as (C1 & C2).
  assert (Q : (0 <= layer_peak 24 128 prec24 emax128 L l)%R) by (destruct l; cbn [layer_peak]; try lra; apply pow2_ge_0).
  split; [exact (room_le _ _ _ _ _ Q C1 H1) | exact (room_le _ _ _ _ _ Q C2 H2)].
Qed.

Lemma net_wide : forall n g b' b, Forall covered32 n -> Forall (no_sigmoid L) n -> ble b' b ->
  ble (net_budget 53 1024 prec53 emax1024 L' P64 et' ee' (map wl n) g b') (net_budget 24 128 prec24 emax128 L P32 et ee n g b) /\
  (net_headroom 24 128 prec24 emax128 L P32 et ee n g b -> net_headroom 53 1024 prec53 emax1024 L' P64 et' ee' (map wl n) g b').
Proof.
  induction n as [|l n IH]; intros g b' b C N B; [split; auto|]. inversion C; inversion N; subst. cbn [map net_budget net_headroom]. rewrite out_wide.
  destruct (IH (out_geom 24 128 prec24 emax128 L l g) _ _ ltac:(assumption) ltac:(assumption) (layer_ble l g b' b ltac:(assumption) ltac:(assumption) B)) as (I1 & I2).
  split; [exact I1|]. intros (H & R). split; [exact (headroom_wide l g b' b B H) | exact (I2 R)].
Qed.

Lemma input_ble : forall x, ble (input_budget 53 1024 (iowide x)) (input_budget 24 128 x).
Proof.
  intros x. unfold input_budget. rewrite vals_wide, !map_map. split; [reflexivity|]. split; cbn [mag slack].
  - apply map_ext. intros c. now rewrite cwide_value.
  - induction (vals x); cbn [map]; constructor; auto using cle_refl.
Qed.

Lemma uses_wide : forall n, Exists (uses_libm 53 1024 prec53 emax1024 L') (map wl n) -> Exists (uses_libm 24 128 prec24 emax128 L) n.
Proof.
  intros n H. apply Exists_exists in H as (l & I & U). apply in_map_iff in I as (l0 & <- & I). apply Exists_exists. exists l0. split; [exact I|].
  unfold uses_libm in *. now rewrite func_wide in U.
Qed.

(** ** Both precisions side by side *)
Definition off (pr : Z) (b : budget) (i : nat) : RC :=
  let w := ((1 + uu pr) ^ order b)%R in let m := nth i (mag b) 0%RC in let s := nth i (slack b) 0%RC in
  mkC ((w - 1) * re m + w * re s)%R ((w - 1) * im m + w * im s)%R.

Lemma off_part : forall k (m s s' : R), (0 <= m)%R -> (0 <= s')%R -> (s' <= s)%R ->
  (0 <= ((1 + uu 53) ^ k - 1) * m + (1 + uu 53) ^ k * s' <= ((1 + uu 24) ^ k - 1) * m + (1 + uu 24) ^ k * s)%R.
Proof.
  intros k m s s' M S' S. pose proof (pw_le k) as P. pose proof (pw1 53 k) as P1. split.
  - apply Rplus_le_le_0_compat; apply Rmult_le_pos; lra.
  - apply Rplus_le_compat; [apply Rmult_le_compat_r; lra | apply Rmult_le_compat; lra].
Qed.

Theorem side_by_side : forall n g g' x, (Exists (uses_libm 24 128 prec24 emax128 L) n -> libm_within 24 128 L et ee /\ libm_within 53 1024 L' et' ee') -> n <> [] ->
  fit_all Fl n g g' -> Forall covered32 n -> Forall (no_sigmoid L) n -> has_geom g x -> Forall cfinite (vals x) ->
  net_headroom 24 128 prec24 emax128 L P32 et ee n g (input_budget 24 128 x) ->
  let b := net_budget 24 128 prec24 emax128 L P32 et ee n g (input_budget 24 128 x) in
  let b' := net_budget 53 1024 prec53 emax1024 L' P64 et' ee' (map wl n) g (input_budget 53 1024 (iowide x)) in
  exists y y' r, net_forward Fl P32 n x = Ret (Ok y) /\ net_forward Fl' P64 (map wl n) (iowide x) = Ret (Ok y') /\
    net_forward ROps P32 (map exact32 n) (ioval x) = Ret (Ok r) /\
    has_geom g' y /\ has_geom g' y' /\ has_geom g' r /\
    (forall i, i < gsize g' -> within 24 128 b i (nth i (vals y) z) (nth i (vals r) 0%RC)) /\
    (forall i, i < gsize g' -> within 53 1024 b' i (nth i (vals y') z') (nth i (vals r) 0%RC)) /\
    (forall i, i < gsize g' -> cle 0%RC (off 53 b' i) /\ cle (off 53 b' i) (off 24 b i)).
Proof.
  intros n g g' x HL NE HF CV NS G FX HR b b'.
  destruct (net_wide n g _ _ CV NS (input_ble x)) as ((BO & BM & BS) & HW). fold b b' in BO, BM, BS.
  assert (NE' : map wl n <> []) by (destruct n; [congruence | discriminate]).
  assert (CV' : Forall covered64 (map wl n)) by (apply Forall_map; eapply Forall_impl; [|exact CV]; apply covered_wide).
  assert (FX' : Forall cfinite (vals (iowide x))) by (rewrite vals_wide; now apply finite_wide).
  destruct (network_round 24 128 prec24 emax128 L P32 et ee (literals32 L) n g g' x NE HF CV (fun U => proj1 (HL U)) G FX HR) as (y & r & E & E' & GY & GR & N).
  destruct (network_round 53 1024 prec53 emax1024 L' P64 et' ee' (literals64 L') (map wl n) g g' (iowide x) NE' (fit_wide n g g' CV HF) CV'
    (fun U => proj2 (HL (uses_wide n U))) (geom_wide g x G) FX' (HW HR)) as (y' & r' & D & D' & GY' & GR' & N').
  rewrite exact_wide_all, ioval_wide, <- net_prec in D' by assumption. rewrite E' in D'. injection D' as <-.
  exists y, y', r. repeat (split; [assumption|]). split; [intros i I; apply near_within; exact (N i I)|]. split; [intros i I; apply near_within; exact (N' i I)|].
  intros i I. destruct (cclose_nneg _ _ _ _ _ _ _ (N' i I)) as ((M1 & M2) & (S1 & S2)). fold b' in M1, M2, S1, S2.
  pose proof (Forall2_nth_cle _ _ i BS) as (C1 & C2). unfold off. rewrite BO, BM in *. cbn [re im] in *.
  destruct (off_part (order b) _ _ _ M1 S1 C1), (off_part (order b) _ _ _ M2 S2 C2). repeat split; assumption.
Qed.

(** ** Classes *)
Lemma radius_wide : forall b' b i, cle 0%RC (off 53 b' i) -> cle (off 53 b' i) (off 24 b i) -> (radius 53 b' i <= radius 24 b i)%R.
Proof.
  intros b' b i (A1 & A2) (B1 & B2). change (modulus (off 53 b' i) <= modulus (off 24 b i))%R. change (re 0%RC) with 0%R in *. change (im 0%RC) with 0%R in *.
  apply modulus_le; [rewrite !Rabs_pos_eq; [exact B1 | exact (Rle_trans _ _ _ A1 B1) | exact A1] | rewrite !Rabs_pos_eq; [exact B2 | exact (Rle_trans _ _ _ A2 B2) | exact A2]].
Qed.

Lemma hi_wide : forall m' m, (0 <= m' <= m)%R -> (sq_above 53 1024 m' <= sq_above 24 128 m)%R.
Proof.
  intros m' m H. unfold sq_above. pose proof (pw_le 2) as P. pose proof (pw1 53 2) as P1. pose proof eta_le as E. pose proof (eta_pos 53 1024) as E1.
  assert (m' * m' <= m * m)%R by (apply Rmult_le_compat; lra). assert (0 <= m' * m')%R by (apply Rmult_le_pos; lra).
  apply Rmult_le_compat; lra.
Qed.
Lemma lo_wide : forall m' m, (0 <= m <= m')%R -> (sq_below 24 128 m <= sq_below 53 1024 m')%R.
Proof.
  intros m' m H. unfold sq_below. pose proof (pw_le 2) as P. pose proof (pw1 53 2) as P1. pose proof eta_le as E. pose proof (eta_pos 53 1024) as E1.
  assert (P2 : ((1 + uu 24) ^ 2 <= 2)%R). { pose proof small32. pose proof (uu_pos 24). generalize dependent (uu 24). intros v _ V1 V2. cbn [pow]. nra. }
  assert (m * m <= m' * m')%R by (apply Rmult_le_compat; lra). assert (0 <= m * m)%R by (apply Rmult_le_pos; lra).
  assert ((2 - (1 + uu 24) ^ 2) * (m * m) <= (2 - (1 + uu 53) ^ 2) * (m' * m'))%R by (apply Rmult_le_compat; lra).
  assert ((1 + uu 53) ^ 2 * (2 * SpecRound.eta 53 1024) <= (1 + uu 24) ^ 2 * (2 * SpecRound.eta 24 128))%R by (apply Rmult_le_compat; lra). lra.
Qed.

Lemma leads_wide : forall b' b r i, (forall j, j < length r -> (radius 53 b' j <= radius 24 b j)%R) -> leads 24 128 b r i -> leads 53 1024 b' r i.
Proof.
  intros b' b r i H (I & R & O & LD). pose proof (H i I) as HI. pose proof omega_le as OL.
  assert (P : forall bb pr j, (0 <= radius pr bb j)%R) by (intros; apply modulus_pos).
  split; [exact I|]. split; [lra|]. split.
  - eapply Rle_lt_trans; [apply hi_wide|eapply Rlt_le_trans; [exact O | exact OL]]. pose proof (P b' 53%Z i). pose proof (modulus_pos (nth i r 0%RC)). lra.
  - intros j J NJ. eapply Rle_lt_trans; [apply hi_wide; split; [|apply Rplus_le_compat_l, (H j J)]|].
    + pose proof (P b' 53%Z j). pose proof (modulus_pos (nth j r 0%RC)). lra.
    + eapply Rlt_le_trans; [exact (LD j J NJ)|]. apply lo_wide. lra.
Qed.

Lemma clear_wide : forall n g k x, (Exists (uses_libm 24 128 prec24 emax128 L) n -> libm_within 24 128 L et ee /\ libm_within 53 1024 L' et' ee') -> n <> [] ->
  fit_all Fl n g (Vec k) -> Forall covered32 n -> Forall (no_sigmoid L) n ->
  clear_input 24 128 prec24 emax128 L P32 et ee n g x -> clear_input 53 1024 prec53 emax1024 L' P64 et' ee' (map wl n) g (iowide x).
Proof.
  intros n g k x HL NE HF CV NS (G & FX & HR & CL).
  destruct (side_by_side n g (Vec k) x HL NE HF CV NS G FX HR) as (y & y' & r0 & _ & _ & E0 & _ & _ & GR & _ & _ & RD).
  split; [now apply geom_wide|]. split; [rewrite vals_wide; now apply finite_wide|].
  split; [apply (net_wide n g _ _ CV NS (input_ble x)); exact HR|].
  intros r PR. rewrite exact_wide_all, ioval_wide in PR. unfold predicts in PR. rewrite <- net_prec in PR by assumption. rewrite E0 in PR. injection PR as ->.
  destruct (CL r E0) as (i & LD). exists i. eapply leads_wide; [|exact LD]. intros j J. cbn [has_geom] in GR. rewrite GR in J.
  destruct (RD j J) as (A & B). now apply radius_wide.
Qed.

Lemma target_wide : forall t, clear_target 24 128 t -> clear_target 53 1024 (map cwide t).
Proof.
  intros t (FT & i & LD). split; [now apply finite_wide|]. exists i. rewrite map_map.
  rewrite (map_ext _ _ cwide_value). eapply leads_wide; [|exact LD]. intros j J. destruct (input_ble (IOScalar t)) as (O & M & S).
  change (input_budget 53 1024 (IOScalar (map cwide t))) with (input_budget 53 1024 (iowide (IOScalar t))). unfold radius. rewrite O, M. cbv zeta. rewrite map_length in J.
  assert (S1 : nth j (slack (input_budget 24 128 (IOScalar t))) 0%RC = 0%RC). { cbn [input_budget slack vals]. rewrite (nth_map_lt _ t j z) by exact J. reflexivity. }
  assert (S2 : nth j (slack (input_budget 53 1024 (iowide (IOScalar t)))) 0%RC = 0%RC). { unfold input_budget. cbn [slack]. rewrite vals_wide, map_map. cbn [vals]. rewrite (nth_map_lt _ t j z) by exact J. reflexivity. }
  rewrite S1, S2. cbn [order input_budget pow].
  right. f_equal.
Qed.

Theorem class_wide : forall n g k x, (Exists (uses_libm 24 128 prec24 emax128 L) n -> libm_within 24 128 L et ee /\ libm_within 53 1024 L' et' ee') -> n <> [] ->
  fit_all Fl n g (Vec k) -> Forall covered32 n -> Forall (no_sigmoid L) n -> clear_input 24 128 prec24 emax128 L P32 et ee n g x ->
  exists y y', predicts Fl P32 n x y /\ predicts Fl' P64 (map wl n) (iowide x) y' /\ length y = k /\ length y' = k /\ max_index Fl y = max_index Fl' y'.
Proof.
  intros n g k x HL NE HF CV NS CI. pose proof (clear_wide n g k x HL NE HF CV NS CI) as CI'.
  assert (NE' : map wl n <> []) by (destruct n; [congruence | discriminate]).
  assert (CV' : Forall covered64 (map wl n)) by (apply Forall_map; eapply Forall_impl; [|exact CV]; apply covered_wide).
  destruct (class_round 24 128 prec24 emax128 L small32 P32 et ee (literals32 L) n g k x (fun U => proj1 (HL U)) NE HF CV CI) as (y & r & i & P1 & P2 & _ & L1 & _ & M1 & M2).
  destruct (class_round 53 1024 prec53 emax1024 L' small64 P64 et' ee' (literals64 L') (map wl n) g k (iowide x) (fun U => proj2 (HL (uses_wide n U))) NE' (fit_wide n g _ CV HF) CV' CI')
    as (y' & r' & i' & P1' & P2' & _ & L1' & _ & M1' & M2').
  rewrite exact_wide_all, ioval_wide in P2'. unfold predicts in P2, P2'. rewrite <- net_prec in P2' by assumption. rewrite P2 in P2'. injection P2' as <-.
  exists y, y'. repeat (split; [assumption|]). exact (eq_trans M1 (eq_trans (eq_sym M2) (eq_trans M2' (eq_sym M1')))).
Qed.

Lemma test_prec : forall n d, Forall covered32 n -> Forall (no_sigmoid L) n -> net_max_pred_test ROps P32 (map exact32 n) d = net_max_pred_test ROps P64 (map exact32 n) d.
Proof.
  intros n d CV NS. unfold net_max_pred_test. destruct d as [ins tgs]. unfold ds_points_iter. f_equal. apply mapM_ext. intros it _. now rewrite net_prec.
Qed.

Theorem accuracy_wide : forall n g k d targs, (Exists (uses_libm 24 128 prec24 emax128 L) n -> libm_within 24 128 L et ee /\ libm_within 53 1024 L' et' ee') -> n <> [] ->
  fit_all Fl n g (Vec k) -> Forall covered32 n -> Forall (no_sigmoid L) n -> Forall (clear_input 24 128 prec24 emax128 L P32 et ee n g) (ds_inputs d) ->
  ds_target d = map (@IOScalar _) targs -> Forall (clear_target 24 128) targs -> length targs = length (ds_inputs d) -> 1 <= length targs <= Z.to_nat (2 ^ 24) ->
  exists a a' e, net_max_pred_test Fl P32 n d = Ret a /\ net_max_pred_test Fl' P64 (map wl n) (data_wide d) = Ret a' /\
    is_finite a = true /\ is_finite a' = true /\ B2R a = round radix2 (SpecFloat.fexp 24 128) ZnearestE e /\ B2R a' = round radix2 (SpecFloat.fexp 53 1024) ZnearestE e.
Proof.
  intros n g k d targs HL NE HF CV NS CI TG CT LT (LN & LM).
  assert (NE' : map wl n <> []) by (destruct n; [congruence | discriminate]).
  assert (CV' : Forall covered64 (map wl n)) by (apply Forall_map; eapply Forall_impl; [|exact CV]; apply covered_wide).
  destruct (accuracy_exact 24 128 prec24 emax128 L small32 P32 et ee (literals32 L) n g k d targs (fun U => proj1 (HL U)) NE HF CV CI TG CT LT (Logic.conj LN LM)) as (a & e & E1 & E2 & F1 & V1).
  destruct (accuracy_exact 53 1024 prec53 emax1024 L' small64 P64 et' ee' (literals64 L') (map wl n) g k (data_wide d) (map (map cwide) targs)
    (fun U => proj2 (HL (uses_wide n U))) NE' (fit_wide n g _ CV HF) CV') as (a' & e' & E1' & E2' & F1' & V1').
  - cbn [data_wide ds_inputs]. apply Forall_map. eapply Forall_impl; [|exact CI]. intros x X. now apply (clear_wide n g k x).
  - cbn [data_wide ds_target]. rewrite TG, !map_map. reflexivity.
  - apply Forall_map. eapply Forall_impl; [|exact CT]. apply target_wide.
  - cbn [data_wide ds_inputs]. now rewrite !map_length.
  - rewrite map_length. split; [exact LN|]. eapply Nat.le_trans; [exact LM|]. apply Z2Nat.inj_le; lia.
  - assert (ED : exact_data 53 1024 (data_wide d) = exact_data 24 128 d).
    { unfold exact_data, data_wide. cbn [ds_inputs ds_target]. rewrite !map_map. f_equal; apply map_ext, ioval_wide. }
    rewrite exact_wide_all, ED, <- test_prec in E2' by assumption. rewrite E2 in E2'. injection E2' as <-.
    exists a, a', e. repeat (split; [assumption|]). exact V1'.
Qed.
End Layers.
