(** * Networks that compute without rounding *)
From Coq Require Import ZArith Reals Lra Psatz.
From Flocq Require Import Core BinarySingleNaN.
From Verif Require Import Base BaseFacts Float Matrix Cplx Random Act Input Loss Dense Conv Layer Dataset Network Examples RFloat BFloat BFacts CFacts
  SpecMatrix MatrixFacts MatrixFacts2 SpecLayer SpecConv SpecNet SpecGeom DenseFacts LayerFacts ConvFacts PoolFacts NetFacts TrainFacts TrainDense
  GeomFacts SpecRound SpecExact RoundFacts RoundAct RoundNet ExactFacts PropAct PropMatrix PropDense PropConv PropPool.
Local Notation re := Cplx.re. Local Notation im := Cplx.im.
Local Open Scope nat_scope.

Section ExactNet.
Context (prec emax : Z) (Hp : Prec_gt_0 prec) (He : Prec_lt_emax prec emax) (L : libm (binary_float prec emax)) (p : Float.prec).
Local Notation B := (binary_float prec emax).
Local Notation Fl := (BOps prec emax Hp He L).
Local Notation z := (c_default Fl).
Local Notation cexactly := (ExactFacts.cexactly prec emax).
Local Notation under := (ExactFacts.under prec).
Local Notation fine := (ExactFacts.fine prec emax).
Local Notation gridded := (SpecExact.gridded prec emax).
Local Notation cval_nth := (RoundNet.cval_nth prec emax Hp He L).
Local Notation exact_layer := (exact_layer prec emax Hp He L).
Local Notation out_geom := (out_geom prec emax Hp He L).
Local Notation sized := (through prec emax Hp He L 0%RC cabs).
Local Notation rescales := (rescales prec emax Hp He L).
Local Notation roomy := (roomy prec emax).

Lemma gridded_nth : forall e (l : list (cplx B)) i, Forall (gridded e) l -> gridded e (nth i l z).
Proof.
  intros e l i H. destruct (Nat.lt_ge_cases i (length l)) as [I|I]; [apply (proj1 (Forall_forall _ _) H); now apply nth_In|].
  rewrite nth_overflow by lia. split; [split; reflexivity|]. split; apply grid_zero.
Qed.

(** ** The invariant *)
Definition known (g : geometry) (e : Z) (M : list RC) (x : IOType (cplx B)) : Prop :=
  has_geom g x /\ forall i, i < gsize g -> cexactly e (nth i M 0%RC) (nth i (vals x) z) (cval (nth i (vals x) z)).

Lemma known_maps : forall n r c e M x, known (Maps n r c) e M (IOMatrix x) -> forall o i j, o < n -> i < r -> j < c ->
  cexactly e (at3 0%RC r c M o i j) (px z x o i j) (cval (px z x o i j)).
Proof.
  intros n r c e M x (GX & H) o i j Ho Hi Hj. cbn [has_geom vals] in *.
  specialize (H _ (index3_lt n r c o i j Ho Hi Hj)). rewrite (maps_at z n r c x) in H by auto. exact H.
Qed.

Lemma maps_known : forall n r c e M x, maps_wf n r c x -> (forall o i j, o < n -> i < r -> j < c ->
  cexactly e (at3 0%RC r c M o i j) (px z x o i j) (cval (px z x o i j))) -> known (Maps n r c) e M (IOMatrix x).
Proof.
  intros n r c e M x W H. split; [exact W|]. intros k K. cbn [gsize vals] in *.
  destruct (index3 n r c k K) as (o & i & j & Ho & Hi & Hj & ->). rewrite (maps_at z n r c x) by auto. now apply H.
Qed.

Lemma vals_ioval : forall x : IOType (cplx B), vals (ioval x) = map cval (vals x).
Proof. intros [v|ms]; [reflexivity|]. cbn [vals ioval]. unfold map_values. rewrite concat_map, !map_map. reflexivity. Qed.

Lemma ioval_geom : forall g (x : IOType (cplx B)), has_geom g x -> has_geom g (ioval x).
Proof.
  intros g x G. destruct g as [n|n r c], x as [v|ms]; try contradiction; cbn [ioval has_geom] in *; [now rewrite map_length|].
  destruct G as (L1 & W). split; [now rewrite map_length|]. intros m M. apply in_map_iff in M as (m0 & <- & M0). destruct (W m0 M0) as (W1 & W2 & W3).
  split; [unfold wf in *; cbn; now rewrite map_length | now split].
Qed.

Lemma px_mval : forall (x : list (matrix (cplx B))) o i j, px 0%RC (map mval x) o i j = cval (px z x o i j).
Proof.
  intros x o i j. unfold px. change (@m_new RC) with (mval (prec := prec) (emax := emax) m_new). rewrite (map_nth mval).
  unfold entry. exact (cval_nth _ _).
Qed.

Lemma mval_mat : forall r c (f : nat -> nat -> cplx B), mval (mat r c f) = mat r c (fun i j => cval (f i j)).
Proof.
  intros r c f. unfold mval, mat. cbn [body sh0 sh1 cap0 cap1]. f_equal. rewrite concat_map. unfold tab_rows. rewrite !map_map. f_equal.
  apply map_ext. intros i. unfold tab_row. now rewrite map_map.
Qed.

Lemma mval_tab : forall n r c (f : nat -> nat -> nat -> cplx B),
  map mval (map (fun o => mat r c (f o)) (seq 0 n)) = map (fun o => mat r c (fun i j => cval (f o i j))) (seq 0 n).
Proof. intros n r c f. rewrite map_map. apply map_ext. intros o. apply mval_mat. Qed.

Lemma roomy_fine : forall e g M, roomy e g M -> fine e.
Proof. intros e g M (A & C & _). unfold Prec_gt_0 in Hp. split; lia. Qed.

Lemma cexactly_affine : forall e n f g M bw, fine e -> (forall i, i < n -> cexactly e (M i) (f i) (g i)) -> gridded e bw ->
  under e (csum M n + cabs (cval bw))%RC ->
  cexactly e (csum M n + cabs (cval bw))%RC (c_add Fl (sum_from (c_add Fl) z f n) bw) (csum g n + cval bw)%RC.
Proof.
  intros e n f g M bw F H W O. apply cexactly_add; [exact F| |now apply gridded_exactly|exact O].
  apply cexactly_sum; auto. eapply under_weaken; [exact O|]. apply cle_plus_l, cabs_nneg.
Qed.

(** ** Dense layers *)
Lemma dense_known : forall (l : dense Fl) e e' M x, dense_wf Fl l -> rescales (LDense l) e e' ->
  known (Vec (inputs Fl l)) e M (IOScalar x) -> roomy e' (Vec (units Fl l)) (sized (LDense l) (Vec (inputs Fl l)) M) ->
  exists y, layer_forward Fl p (LDense l) (IOScalar x) = Ret (Ok y) /\
    layer_forward ROps p (exact_layer (LDense l)) (ioval (IOScalar x)) = Ret (Ok (ioval y)) /\
    known (Vec (units Fl l)) e' (sized (LDense l) (Vec (inputs Fl l)) M) y.
Proof.
  intros l e e' M x W (AC & FW & FB) (GX & H) RM. pose proof (roomy_fine _ _ _ RM) as FE. destruct RM as (_ & _ & RM).
  cbn [has_geom vals gsize SpecRound.exact_layer layer_forward ioval] in *.
  set (l' := mkDense ROps (mval (d_weights l)) (map cval (d_biases l)) (d_func l)).
  assert (W' : dense_wf ROps l') by (destruct W as (W1 & W2 & W3); repeat split; cbn; [unfold wf in *; cbn; now rewrite map_length | now rewrite map_length | exact W3]).
  set (n := inputs Fl l) in *.
  set (MM := fun i j => amul (cval (weight Fl l i j)) (nth j M 0%RC)).
  assert (PM : forall i, i < units Fl l -> nth i (sized (LDense l) (Vec n) M) 0%RC = (csum (MM i) n + cabs (cval (nth i (d_biases l) z)))%RC).
  { intros i I. unfold through. rewrite nth_map_seq by auto. f_equal. apply csum_ext. intros j J. apply add_zero. }
  set (x' := map cval x).
  assert (PRE : forall i, i < units Fl l -> cexactly e' (csum (MM i) n + cabs (cval (nth i (d_biases l) z)))%RC (pre Fl l x i) (pre ROps l' x' i)).
  { intros i I. specialize (RM i I). rewrite PM in RM by auto. change (under e' (csum (MM i) n + cabs (cval (nth i (d_biases l) z)))%RC) in RM.
    assert (NM : forall j, j < n -> cle 0%RC (MM i j)) by (intros j J; apply amul_nneg; exact (cexactly_nneg _ _ _ _ _ _ (H j J))).
    unfold pre. change (inputs ROps l') with n. replace (nth i (d_biases l') (c_default ROps)) with (cval (nth i (d_biases l) z)) by (symmetry; apply cval_nth).
    change (sum_from (c_add ROps) (c_default ROps) (fun j => c_mul ROps (weight ROps l' i j) (nth j x' (c_default ROps))) n) with
      (csum (fun j => weight ROps l' i j * nth j x' 0)%RC n).
    rewrite (csum_ext (fun j => weight ROps l' i j * nth j x' 0)%RC (fun j => cval (weight Fl l i j) * cval (nth j x z))%RC)
      by (intros j J; unfold l', x'; rewrite cval_nth; now rewrite exact_weight).
    apply cexactly_affine; [exact FE| |now apply gridded_nth|exact RM]. intros j J.
    replace e' with ((e' - e) + e)%Z at 1 by lia.
    refine (proj1 (cexactly_mul prec emax Hp He L (e' - e) e _ (weight Fl l i j) _ _ _ _ (H j J) _)).
    - now replace ((e' - e) + e)%Z with e' by lia.
    - now apply gridded_nth.
    - replace ((e' - e) + e)%Z with e' by lia. eapply under_weaken; [exact RM|]. eapply cle_trans; [apply (csum_term (MM i) n j NM J) | apply cle_plus_l; apply cabs_nneg]. }
  destruct (pick (fun i q => activate Fl p (d_func l) (pre Fl l x i) = Ret q /\ activate ROps p (d_func l) (pre ROps l' x' i) = Ret (cval q) /\
     cexactly e' (csum (MM i) n + cabs (cval (nth i (d_biases l) z)))%RC q (cval q))
     (units Fl l) z) as (q & Q).
  { intros i I. destruct (cexactly_act prec emax Hp He L p (d_func l) _ _ _ _ AC (PRE i I)) as (y & y' & E1 & E2 & E3). exists y.
    rewrite (cexactly_val _ _ _ _ _ _ E3). auto. }
  exists (IOScalar (map q (seq 0 (units Fl l)))).
  split; [|split].
  - apply (C40_forward Fl p l x W GX). rewrite map_length, seq_length. split; [reflexivity|]. intros i I. rewrite nth_map_seq by auto. now apply Q.
  - assert (GR : length x' = inputs ROps l') by (unfold x'; now rewrite map_length).
    apply (C40_forward ROps p l' x' W' GR). cbn [ioval]. rewrite !map_length, seq_length. split; [reflexivity|]. intros i I. rewrite map_map, nth_map_seq by auto. now apply Q.
  - split; [cbn; now rewrite map_length, seq_length|]. intros i I. cbn [gsize vals] in *. rewrite PM, !nth_map_seq by auto. now apply Q.
Qed.

(** ** Convolutional layers *)
Lemma kernel_gridded : forall e (l : conv Fl) o ch u v, Forall (fun m => Forall (gridded e) (body m)) (body (k_kernels l)) -> gridded e (kval Fl l o ch u v).
Proof.
  intros e l o ch u v H. unfold kval. unfold entry at 1. apply gridded_nth. unfold entry.
  destruct (Nat.lt_ge_cases (o * sh1 (k_kernels l) + ch) (length (body (k_kernels l)))) as [I|I]; [apply (proj1 (Forall_forall _ _) H); now apply nth_In|].
  rewrite nth_overflow by lia. constructor.
Qed.

Lemma cexactly_sum3 : forall e nc a b (f : nat -> nat -> nat -> cplx B) (g M : nat -> nat -> nat -> RC) bw, fine e ->
  (forall ch u v, ch < nc -> u < a -> v < b -> cexactly e (M ch u v) (f ch u v) (g ch u v)) -> gridded e bw ->
  under e (csum3 M nc a b + cabs (cval bw))%RC ->
  cexactly e (csum3 M nc a b + cabs (cval bw))%RC
    (c_add Fl (sum_from (c_add Fl) z (fun ch => sum_from (c_add Fl) z (fun u => sum_from (c_add Fl) z (fun v => f ch u v) b) a) nc) bw)
    (csum3 g nc a b + cval bw)%RC.
Proof.
  intros e nc a b f g M bw FE H W F.
  destruct (csum3_parts M nc a b) as (M0 & M1 & M2 & M3); [intros ch u v I1 I2 I3; exact (cexactly_nneg _ _ _ _ _ _ (H ch u v I1 I2 I3))|].
  assert (LM : cle (csum3 M nc a b) (csum3 M nc a b + cabs (cval bw))%RC) by (apply cle_plus_l, cabs_nneg).
  pose (S3 := fun (q : nat -> nat -> nat -> RC) ch => csum (fun u => csum (fun v => q ch u v) b) a).
  refine (cexactly_affine e nc (fun ch => sum_from (c_add Fl) z (fun u => sum_from (c_add Fl) z (fun v => f ch u v) b) a) (S3 g) (S3 M) bw FE _ W F). intros ch Hc. unfold S3.
  apply cexactly_sum; [exact FE| |].
  - intros u Hu. apply cexactly_sum; [exact FE| |].
    + intros v Hv. now apply H.
    + destruct (M2 ch u Hc Hu) as (X1 & X2). eapply under_weaken; [exact F|]. eapply cle_trans; eauto.
  - destruct (M1 ch Hc) as (X1 & X2). eapply under_weaken; [exact F|]. eapply cle_trans; eauto.
Qed.

Lemma conv_known : forall (l : conv Fl) a b r c e e' M x, conv_wf Fl a b l -> a <= r -> b <= c -> rescales (LConv l) e e' ->
  let g := Maps (channels Fl l) r c in let g' := Maps (filters Fl l) (r - a + 1) (c - b + 1) in
  known g e M (IOMatrix x) -> roomy e' g' (sized (LConv l) g M) ->
  exists y, layer_forward Fl p (LConv l) (IOMatrix x) = Ret (Ok y) /\
    layer_forward ROps p (exact_layer (LConv l)) (ioval (IOMatrix x)) = Ret (Ok (ioval y)) /\
    known g' e' (sized (LConv l) g M) y.
Proof.
  intros l a b r c e e' M x W Ar Bc (AC & FW & FB) g g' NR RM. pose proof NR as (GX & _). pose proof (known_maps _ _ _ _ _ _ NR) as H.
  pose proof (roomy_fine _ _ _ RM) as FE. destruct RM as (_ & _ & RM). pose proof (ioval_geom g _ GX) as GR.
  cbn [has_geom g g' SpecRound.exact_layer layer_forward ioval gsize] in *.
  set (l' := mkConv ROps (k_in l) (mkM (map mval (body (k_kernels l))) (sh0 (k_kernels l)) (sh1 (k_kernels l)) (cap0 (k_kernels l)) (cap1 (k_kernels l))) (map cval (k_biases l)) (k_func l)).
  pose proof (exact_conv_wf prec emax Hp He L a b l W) as W'. fold l' in W'. destruct (kernel_size prec emax Hp He L a b l W) as (KH & KW).
  set (nc := channels Fl l) in *. set (nf := filters Fl l) in *. set (R0 := r - a + 1) in *. set (C0 := c - b + 1) in *. set (x' := map mval x) in *.
  set (MM := fun o i j ch u v => amul (cval (kval Fl l o ch u v)) (at3 0%RC r c M ch (i + u) (j + v))).
  set (PMf := fun o i j => (csum3 (MM o i j) nc a b + cabs (cval (nth o (k_biases l) z)))%RC).
  assert (PM : sized (LConv l) g M = tab3 nf R0 C0 PMf).
  { unfold through, g. rewrite KH, KW. apply tab3_ext. intros o i j Ho Hi Hj. unfold PMf, csum3, MM. f_equal. apply csum_ext. intros ch _. apply csum_ext. intros u _. apply csum_ext. intros v _. apply add_zero. }
  fold g in RM. rewrite PM in RM.
  assert (PRE : forall o i j, o < nf -> i < R0 -> j < C0 -> cexactly e' (PMf o i j) (cpre Fl a b l x o i j) (cpre ROps a b l' x' o i j)).
  { intros o i j Ho Hi Hj. specialize (RM _ (index3_lt nf R0 C0 o i j Ho Hi Hj)).
    change (nth ((o * R0 + i) * C0 + j) (tab3 nf R0 C0 PMf) 0%RC) with (at3 0%RC R0 C0 (tab3 nf R0 C0 PMf) o i j) in RM.
    rewrite !at3_tab3 in RM by auto. change (under e' (PMf o i j)) in RM.
    assert (HH : forall ch u v, ch < nc -> u < a -> v < b ->
      cexactly e (at3 0%RC r c M ch (i + u) (j + v)) (px z x ch (i + u) (j + v)) (cval (px z x ch (i + u) (j + v)))).
    { intros ch u v Hc Hu Hv. apply H; unfold R0, C0 in *; lia. }
    destruct (csum3_parts (MM o i j) nc a b) as (_ & _ & _ & M3); [intros ch u v I1 I2 I3; apply amul_nneg; exact (cexactly_nneg _ _ _ _ _ _ (HH ch u v I1 I2 I3))|].
    assert (E : cpre ROps a b l' x' o i j = (csum3 (fun ch u v => cval (px z x ch (i + u) (j + v)) * cval (kval Fl l o ch u v)) nc a b + cval (nth o (k_biases l) z))%RC).
    { unfold cpre. change (channels ROps l') with nc. replace (nth o (k_biases l') (c_default ROps)) with (cval (nth o (k_biases l) z)) by (symmetry; apply cval_nth).
      f_equal. unfold csum3, corr. apply csum_ext. intros ch _. apply csum_ext. intros u _. apply csum_ext. intros v _. unfold l', x'. rewrite exact_kernel.
      change (c_default ROps) with 0%RC. now rewrite px_mval. }
    rewrite E.
    refine (cexactly_sum3 e' nc a b (fun ch u v => c_mul Fl (px z x ch (i + u) (j + v)) (kval Fl l o ch u v)) _ (MM o i j) (nth o (k_biases l) z) FE _ _ RM).
    - intros ch u v Hc Hu Hv. replace e' with ((e' - e) + e)%Z at 1 by lia.
      refine (proj2 (cexactly_mul prec emax Hp He L (e' - e) e _ (kval Fl l o ch u v) _ _ _ _ (HH ch u v Hc Hu Hv) _)).
      + now replace ((e' - e) + e)%Z with e' by lia.
      + now apply kernel_gridded.
      + replace ((e' - e) + e)%Z with e' by lia. eapply under_weaken; [exact RM|]. eapply cle_trans; [apply (M3 ch u v Hc Hu Hv) | apply cle_plus_l, cabs_nneg].
    - now apply gridded_nth. }
  destruct (pick3 (fun o i j q => o < nf -> i < R0 -> j < C0 -> activate Fl p (k_func l) (cpre Fl a b l x o i j) = Ret q /\ activate ROps p (k_func l) (cpre ROps a b l' x' o i j) = Ret (cval q) /\
     cexactly e' (PMf o i j) q (cval q)) z) with (n := nf) (r := R0) (c := C0) as (q & Q).
  { intros o i j. destruct (le_lt_dec nf o); [exists z; intros; lia|]. destruct (le_lt_dec R0 i); [exists z; intros; lia|]. destruct (le_lt_dec C0 j); [exists z; intros; lia|].
    destruct (cexactly_act prec emax Hp He L p (k_func l) _ _ _ _ AC (PRE o i j ltac:(auto) ltac:(auto) ltac:(auto))) as (y & y' & E1 & E2 & E3). exists y.
    rewrite (cexactly_val _ _ _ _ _ _ E3). auto. }
  exists (IOMatrix (map (fun o => mat R0 C0 (q o)) (seq 0 nf))).
  split; [|split].
  - apply (C44_forward Fl p a b r c l x q W GX Ar Bc). intros o i j Ho Hi Hj. now apply (Q o i j).
  - cbn [ioval]. rewrite mval_tab. apply (C44_forward ROps p a b r c l' x' (fun o i j => cval (q o i j)) W' GR Ar Bc). intros o i j Ho Hi Hj. now apply (Q o i j).
  - apply maps_known.
    + exact (maps_tab Fl nf R0 C0 q).
    + intros o i j Ho Hi Hj. rewrite (px_tab z nf R0 C0 q) by auto. fold g. rewrite PM, at3_tab3 by auto. now apply Q.
Qed.

(** ** Means of blocks *)
Lemma power_INR : forall k, INR (2 ^ k) = bpow radix2 (Z.of_nat k).
Proof.
  intros k. rewrite INR_IZR_INZ, Nat2Z.inj_pow. change (Z.of_nat 2 ^ Z.of_nat k)%Z with (Zpower radix2 (Z.of_nat k)). apply IZR_Zpower. lia.
Qed.

Lemma mean_exact : forall k e (m m' : R) (x y : B) r s, (2 * Z.of_nat k <= prec)%Z -> let e' := (e - Z.of_nat k)%Z in
  (SpecFloat.emin prec emax <= e')%Z -> (2 * prec + e' < emax)%Z ->
  exactly prec emax e m x r -> exactly prec emax e m' y s -> (/ INR (2 ^ k) * m <= bpow radix2 (prec + e'))%R ->
  let n := 2 ^ k in let den := fadd Fl (fsq Fl (fofnat Fl n)) (fsq Fl (fzero Fl)) in
  exactly prec emax e' (/ INR n * m)%R (Bdiv mode_NE (Bplus mode_NE (Bmult mode_NE x (fofnat Fl n)) (Bmult mode_NE y (fzero Fl))) den) (/ INR n * r) /\
  exactly prec emax e' (/ INR n * m)%R (Bdiv mode_NE (Bminus mode_NE (Bmult mode_NE x (fofnat Fl n)) (Bmult mode_NE y (fzero Fl))) den) (/ INR n * r).
Proof.
  intros k e m m' x y r s K e' E1 E2 HX HY O n den.
  assert (SQ : (Z.of_nat n ^ 2 <= 2 ^ prec)%Z).
  { unfold n. rewrite Nat2Z.inj_pow, <- Z.pow_mul_r by lia. apply Z.pow_le_mono_r; lia. }
  destruct (nat_val prec emax Hp He L n SQ) as (NF & NV). destruct (square_val prec emax Hp He L n SQ) as (DF & DV). fold den in DF, DV.
  unfold n in NV, DV, O. rewrite power_INR in NV, DV, O. unfold n. rewrite power_INR. change (2 ^ k) with n.
  set (b := bpow radix2 (Z.of_nat k)) in *. assert (B0 : (0 < b)%R) by apply bpow_gt_0.
  assert (OM : (m <= bpow radix2 (prec + e))%R).
  { replace m with (b * (/ b * m))%R by (field; lra). replace (prec + e)%Z with (Z.of_nat k + (prec + e'))%Z by (unfold e'; lia). rewrite bpow_plus. fold b.
    apply Rmult_le_compat_l; [lra | exact O]. }
  assert (ME := exactly_nneg _ _ _ _ _ _ HX). assert (ME' := exactly_nneg _ _ _ _ _ _ HY).
  pose proof (Nat2Z.is_nonneg k) as KN. assert (PG : (0 < prec)%Z) by exact Hp.
  (* x * n, a multiple of 2^(e+k) *)
  assert (FK : fine (Z.of_nat k + e)) by (split; unfold e' in *; lia).
  assert (GB : on_grid (Z.of_nat k) b) by (exists 1%Z; rewrite Rmult_1_l; reflexivity).
  assert (AB : Rabs b = b) by (apply Rabs_pos_eq; lra).
  assert (XN : exactly prec emax (Z.of_nat k + e) (b * m) (Bmult mode_NE x (fofnat Fl n : B)) (r * b)).
  { pose proof (exactly_mult prec emax Hp He (Z.of_nat k) e m (fofnat Fl n : B) x b r FK NF NV GB HX) as T. rewrite AB in T. apply T.
    replace (prec + (Z.of_nat k + e))%Z with (Z.of_nat k + (prec + e))%Z by lia. rewrite bpow_plus. fold b. apply Rmult_le_compat_l; [lra|exact OM]. }
  assert (YZ : exactly prec emax (Z.of_nat k + e) 0 (Bmult mode_NE y (fzero Fl : B)) 0).
  { pose proof (exactly_mult prec emax Hp He (Z.of_nat k) e m' (fzero Fl : B) y 0 s FK eq_refl eq_refl (grid_zero _) HY) as T.
    rewrite Rabs_R0, !Rmult_0_l, Rmult_0_r in T. apply T. apply bpow_ge_0. }
  assert (DIV : forall q, exactly prec emax (Z.of_nat k + e) (b * m + 0) q (r * b) -> exactly prec emax e' (/ b * m) (Bdiv mode_NE q den) (/ b * r)).
  { intros q (QF & QV & QG & QL). destruct HX as (XF & XV & XG & XL).
    assert (G : on_grid e' (/ b * r)).
    { destruct XG as (j & ->). exists j. unfold e', b. unfold Zminus. rewrite bpow_plus, bpow_opp. ring. }
    assert (LE : (Rabs (/ b * r) <= / b * m)%R).
    { assert (0 < / b)%R by now apply Rinv_0_lt_compat. rewrite Rabs_mult, (Rabs_pos_eq (/ b)) by lra. apply Rmult_le_compat_l; [lra | exact XL]. }
    assert (FE : fine e') by (split; unfold e' in *; lia).
    destruct (grid_rnd prec emax Hp e' (/ b * r) FE G ltac:(lra)) as (RE & RB).
    assert (DN : B2R (den : B) <> 0%R) by (rewrite DV; nra).
    pose proof (Bdiv_correct prec emax Hp He mode_NE q (den : B) DN) as P. cbn [round_mode] in P.
    replace (B2R q / B2R (den : B))%R with (/ b * r)%R in P by (rewrite DV, QV; field; lra).
    rewrite (Rlt_bool_true _ _ RB) in P. destruct P as (PV & PF & _). rewrite QF in PF.
    split; [exact PF|]. split; [now rewrite PV|]. split; assumption. }
  assert (OO : (b * m + 0 <= bpow radix2 (prec + (Z.of_nat k + e)))%R).
  { rewrite Rplus_0_r. replace (prec + (Z.of_nat k + e))%Z with (Z.of_nat k + (prec + e))%Z by lia. rewrite bpow_plus. fold b. apply Rmult_le_compat_l; [lra|exact OM]. }
  split; apply DIV.
  - rewrite <- (Rplus_0_r (r * b)). now apply exactly_plus.
  - rewrite <- (Rminus_0_r (r * b)). now apply exactly_minus.
Qed.

Lemma avg_known : forall k e (b : list (cplx B)) (M : nat -> RC), (2 * Z.of_nat k <= prec)%Z -> let e' := (e - Z.of_nat k)%Z in
  (SpecFloat.emin prec emax <= e')%Z -> (2 * prec + e' < emax)%Z -> length b = 2 ^ k ->
  let n := length b in
  (forall i, i < n -> cexactly e (M i) (nth i b z) (cval (nth i b z))) ->
  let MM := (mkC (/ INR n)%R 0%R * csum M n)%RC in under e' MM ->
  exists y, avg_block Fl b = Ret y /\ avg_block ROps (map cval b) = Ret (cval y) /\ cexactly e' MM y (cval y).
Proof.
  intros k e b M K e' E1 E2 LB n H MM [O1 O2]. assert (PG : (0 < prec)%Z) by exact Hp.
  assert (N1 : 1 <= n) by (unfold n; rewrite LB; pose proof (Nat.pow_nonzero 2 k ltac:(lia)); lia).
  assert (NR : (1 <= INR n)%R) by (apply (le_INR 1) in N1; exact N1).
  assert (NB : INR n = bpow radix2 (Z.of_nat k)) by (unfold n; rewrite LB; apply power_INR).
  assert (MM1 : re MM = (/ INR n * re (csum M n))%R /\ im MM = (/ INR n * im (csum M n))%R) by (unfold MM; destruct (csum M n); cbn; split; ring).
  destruct MM1 as (EM1 & EM2). rewrite EM1 in O1. rewrite EM2 in O2.
  assert (UN : forall m, (/ INR n * m <= bpow radix2 (prec + e'))%R -> (m <= bpow radix2 (prec + e))%R).
  { intros m I. replace m with (INR n * (/ INR n * m))%R by (field; lra). replace (prec + e)%Z with (Z.of_nat k + (prec + e'))%Z by (unfold e'; lia).
    rewrite bpow_plus, <- NB. apply Rmult_le_compat_l; [lra | exact I]. }
  assert (FE : fine e) by (split; unfold e' in *; lia).
  pose proof (cexactly_sum prec emax Hp He L e n (fun i => nth i b z) (fun i => cval (nth i b z)) M FE H (Logic.conj (UN _ O1) (UN _ O2))) as CS.
  set (S := sum_from (c_add Fl) z (fun i => nth i b z) n) in *. set (a := csum (fun i => cval (nth i b z)) n) in *.
  pose proof CS as [SR SI].
  assert (HS : fold_left (fun acc e => c_add Fl acc e) b z = S) by exact (fold_sum_from (c_add Fl) z z b).
  assert (SQ : (Z.of_nat n ^ 2 <= 2 ^ prec)%Z).
  { unfold n. rewrite LB, Nat2Z.inj_pow, <- Z.pow_mul_r by lia. apply Z.pow_le_mono_r; lia. }
  destruct (square_val prec emax Hp He L n SQ) as (DF & DV).
  assert (ZF : feqb Fl (fadd Fl (fsq Fl (fofnat Fl n)) (fsq Fl (fzero Fl))) (fzero Fl) = false).
  { destruct (feqb Fl _ _) eqn:E; [|reflexivity]. apply (Beqb_zero prec emax Hp He) in E as (_ & E). change (F Fl) with B in *. exfalso. rewrite DV in E. nra. }
  assert (D1 : c_div Fl S (c_new Fl (fofnat Fl n) (fzero Fl)) =
    Ret (mkC (fdiv Fl (fadd Fl (fmul Fl (re S) (fofnat Fl n)) (fmul Fl (im S) (fzero Fl))) (fadd Fl (fsq Fl (fofnat Fl n)) (fsq Fl (fzero Fl))))
             (fdiv Fl (fsub Fl (fmul Fl (im S) (fofnat Fl n)) (fmul Fl (re S) (fzero Fl))) (fadd Fl (fsq Fl (fofnat Fl n)) (fsq Fl (fzero Fl)))))).
  { unfold c_div. change (re (c_new Fl (fofnat Fl n) (fzero Fl))) with (fofnat Fl n). change (im (c_new Fl (fofnat Fl n) (fzero Fl))) with (fzero Fl). now rewrite ZF. }
  assert (HR : fold_left (fun acc e => c_add ROps acc e) (map cval b) (c_default ROps) = a).
  { unfold a. rewrite (csum_ext (fun i => cval (nth i b z)) (fun i => nth i (map cval b) 0%RC)) by (intros; now rewrite cval_nth).
    unfold n. rewrite <- (map_length cval b). exact (fold_sum_from (c_add ROps) 0%RC 0%RC (map cval b)). }
  assert (D2 : c_div ROps a (c_new ROps (fofnat ROps n) (fzero ROps)) = Ret (mkC (/ INR n * re a) (/ INR n * im a))%R).
  { unfold c_div. change (re (c_new ROps (fofnat ROps n) (fzero ROps))) with (fofnat ROps n). change (im (c_new ROps (fofnat ROps n) (fzero ROps))) with (fzero ROps).
    change (fofnat ROps n) with (IZR (Z.of_N (N.of_nat n))). rewrite nat_N_Z, <- INR_IZR_INZ. unfold fsq.
    change (feqb ROps) with Reqb. cbn [fadd fmul fdiv fsub ROps]. change (fzero ROps) with 0%R.
    destruct (Reqb (INR n * INR n + 0 * 0) 0) eqn:ER; [apply Reqb_eq in ER; exfalso; clear - ER NR; nra|].
    apply f_equal. destruct a as [ar ai]. cbn [re im]. change (F ROps) with R in *. f_equal; field; clear - NR; nra. }
  assert (X1 : exists y, avg_block Fl b = Ret y /\ cexactly e' MM y (mkC (/ INR n * re a) (/ INR n * im a))%R).
  { eexists. split; [unfold avg_block; fold n; rewrite HS; exact D1|].
    assert (LN : n = 2 ^ k) by exact LB. clearbody n. subst n.
    destruct (mean_exact k e _ _ _ _ _ _ K E1 E2 SR SI O1) as (T1 & _). destruct (mean_exact k e _ _ _ _ _ _ K E1 E2 SI SR O2) as (_ & T2).
    split; cbn [re im]; [rewrite EM1; exact T1 | rewrite EM2; exact T2]. }
  destruct X1 as (y & X1 & X2). exists y. split; [exact X1|]. pose proof (cexactly_val _ _ _ _ _ _ X2) as XV. rewrite XV.
  split; [|exact X2]. unfold avg_block. rewrite map_length. fold n. rewrite HR. exact D2.
Qed.

Lemma map_block : forall {T U} (h : T -> U) a b f i j, map h (block a b f i j) = block a b (fun u v => h (f u v)) i j.
Proof.
  intros T U h a b f i j. unfold block. rewrite concat_map. unfold tab_rows. rewrite !map_map. f_equal. apply map_ext. intros u. unfold tab_row. now rewrite map_map.
Qed.

Lemma reduce_known : forall (l : red Fl) n r c e e' M x, 1 <= r_b0 l <= r -> 1 <= r_b1 l <= c -> r mod r_b0 l = 0 -> c mod r_b1 l = 0 ->
  rescales (LReduce l) e e' -> let g := Maps n r c in let g' := Maps n (r / r_b0 l) (c / r_b1 l) in
  known g e M (IOMatrix x) -> roomy e' g' (sized (LReduce l) g M) ->
  exists y, layer_forward Fl p (LReduce l) (IOMatrix x) = Ret (Ok y) /\
    layer_forward ROps p (exact_layer (LReduce l)) (ioval (IOMatrix x)) = Ret (Ok (ioval y)) /\
    known g' e' (sized (LReduce l) g M) y.
Proof.
  intros l n r c e e' M x (A1 & A2) (B1 & B2) MA MB (RF & k & KE & KP & ->) g g' NR RM. pose proof NR as (GX & _). pose proof (known_maps _ _ _ _ _ _ NR) as H.
  destruct RM as (E1 & E2 & RM). pose proof (ioval_geom g _ GX) as GR.
  cbn [has_geom g g' SpecRound.exact_layer layer_forward ioval gsize] in *.
  set (l' := mkRed ROps (r_in l) (r_b0 l) (r_b1 l) (avg_block ROps) (mval (r_kernel l))).
  set (a := r_b0 l) in *. set (b := r_b1 l) in *. set (R0 := r / a) in *. set (C0 := c / b) in *. set (x' := map mval x) in *. set (e' := (e - Z.of_nat k)%Z) in *.
  assert (RA : R0 * a = r) by (unfold R0; pose proof (Nat.div_mod r a ltac:(lia)); lia).
  assert (CB : C0 * b = c) by (unfold C0; pose proof (Nat.div_mod c b ltac:(lia)); lia).
  set (q := mkC (/ INR (a * b))%R 0%R : RC).
  set (MM := fun o i j u v => at3 0%RC r c M o (i * a + u) (j * b + v)).
  set (PMf := fun o i j => (q * csum (fun u => csum (MM o i j u) b) a + 0)%RC).
  assert (PM : sized (LReduce l) g M = tab3 n R0 C0 PMf) by reflexivity.
  fold g in RM. rewrite PM in RM.
  assert (AV : forall o i j, o < n -> i < R0 -> j < C0 -> exists y,
    avg_block Fl (block a b (px z x o) i j) = Ret y /\ avg_block ROps (block a b (px 0%RC x' o) i j) = Ret (cval y) /\ cexactly e' (PMf o i j) y (cval y)).
  { intros o i j Ho Hi Hj. specialize (RM _ (index3_lt n R0 C0 o i j Ho Hi Hj)).
    change (nth ((o * R0 + i) * C0 + j) (tab3 n R0 C0 PMf) 0%RC) with (at3 0%RC R0 C0 (tab3 n R0 C0 PMf) o i j) in RM.
    rewrite !at3_tab3 in RM by auto.
    assert (LN : forall {T} (f : nat -> nat -> T), length (block a b f i j) = a * b) by (intros; unfold block; apply concat_tab_length).
    pose proof (avg_known k e (block a b (px z x o) i j) (fun t => MM o i j (t / b) (t mod b)) KP E1 E2) as CA. rewrite !LN in CA. cbv zeta in CA.
    rewrite csum_block in CA. fold q in CA. unfold PMf in *. rewrite !add_zero in *.
    replace (block a b (px 0%RC x' o) i j) with (map cval (block a b (px z x o) i j)).
    2: { rewrite map_block. unfold block. f_equal. apply map_ext. intros u. apply map_ext. intros v. unfold x'. symmetry. apply px_mval. }
    apply CA; auto.
    intros t T. rewrite !block_nth by auto. assert (t / b < a) by (apply Nat.div_lt_upper_bound; lia). pose proof (Nat.mod_upper_bound t b ltac:(lia)).
    apply H; auto; nia. }
  destruct (pick3 (fun o i j w => o < n -> i < R0 -> j < C0 -> avg_block Fl (block a b (px z x o) i j) = Ret w /\ avg_block ROps (block a b (px 0%RC x' o) i j) = Ret (cval w) /\
     cexactly e' (PMf o i j) w (cval w)) z) with (n := n) (r := R0) (c := C0) as (w & Q).
  { intros o i j. destruct (le_lt_dec n o); [exists z; intros; lia|]. destruct (le_lt_dec R0 i); [exists z; intros; lia|]. destruct (le_lt_dec C0 j); [exists z; intros; lia|].
    destruct (AV o i j ltac:(auto) ltac:(auto) ltac:(auto)) as (y & E). exists y. auto. }
  assert (FW : forall Gl (m : red Gl) (f : nat -> nat -> nat -> cplx (F Gl)) (v : list (matrix (cplx (F Gl)))), r_b0 m = a -> r_b1 m = b -> maps_wf n r c v ->
    (forall o i j, o < n -> i < R0 -> j < C0 -> r_func m (block a b (px (c_default Gl) v o) i j) = Ret (f o i j)) ->
    red_forward Gl m (IOMatrix v) = Ret (Ok (IOMatrix (map (fun o => mat R0 C0 (f o)) (seq 0 n))))).
  { intros Gl m f v EA EB (LV & WV) HF. unfold red_forward. rewrite EA, EB. pose proof (list_eq_map_nth m_new v) as EV. rewrite LV in EV. rewrite EV at 1. rewrite mapM_map. clear EV.
    rewrite (mapM_ret _ (fun o => mat R0 C0 (f o))); [reflexivity|].
    intros o Ho. apply in_seq in Ho. destruct (WV (nth o v m_new)) as (W & E0 & E1'); [apply nth_In; lia|].
    rewrite (C25_blocks (c_default Gl)) by (rewrite ?E0, ?E1'; auto). rewrite E0, E1'. fold R0 C0.
    rewrite (mapM_ret _ (tab_row (f o) C0)); [reflexivity|]. intros i Hi. apply in_seq in Hi.
    rewrite (mapM_ret _ (f o i)); [reflexivity|]. intros j Hj. apply in_seq in Hj. apply HF; lia. }
  exists (IOMatrix (map (fun o => mat R0 C0 (w o)) (seq 0 n))).
  split; [|split].
  - apply (FW Fl l w x eq_refl eq_refl GX). intros o i j Ho Hi Hj. rewrite RF. now apply (Q o i j).
  - cbn [ioval]. rewrite mval_tab. apply (FW ROps l' (fun o i j => cval (w o i j)) x' eq_refl eq_refl GR). intros o i j Ho Hi Hj. now apply (Q o i j).
  - apply maps_known.
    + exact (maps_tab Fl n R0 C0 w).
    + intros o i j Ho Hi Hj. rewrite (px_tab z n R0 C0 w) by auto. fold g. rewrite PM, at3_tab3 by auto. now apply Q.
Qed.

Lemma flatten_known : forall (l : flat) n r c e M x, let g := Maps n r c in known g e M (IOMatrix x) ->
  exists y, layer_forward Fl p (LFlatten l) (IOMatrix x) = Ret (Ok y) /\
    layer_forward ROps p (exact_layer (LFlatten l)) (ioval (IOMatrix x)) = Ret (Ok (ioval y)) /\
    known (Vec (n * (r * c))) e M y.
Proof.
  intros l n r c e M x g (GX & H). exists (IOScalar (flat_map body x)).
  split; [reflexivity|]. cbn [has_geom gsize g vals] in *. rewrite !flat_map_concat_map. change (concat (map body x)) with (map_values x). split.
  - cbn [SpecRound.exact_layer layer_forward flat_forward ioval]. rewrite flat_map_concat_map. pose proof (vals_ioval (IOMatrix x)) as V. cbn [vals ioval] in V.
    unfold map_values in V. unfold map_values. now rewrite V.
  - split; [exact (map_values_length Fl n r c x GX)|]. exact H.
Qed.

(** ** Networks *)
Lemma layer_known : forall l g g' e e' M x, fits Fl l g g' -> rescales l e e' -> known g e M x -> roomy e' (out_geom l g) (sized l g M) ->
  out_geom l g = g' /\
  exists y, layer_forward Fl p l x = Ret (Ok y) /\ layer_forward ROps p (exact_layer l) (ioval x) = Ret (Ok (ioval y)) /\ known g' e' (sized l g M) y.
Proof.
  intros l g g' e e' M x HF RS NR RM. pose proof NR as (GX & _).
  destruct HF as [l W NM | l a q r c W NM A Q | l n r c N A Q MA MB HF | l n r c]; destruct x as [x|x]; try contradiction.
  - split; [reflexivity|]. now apply (dense_known l e).
  - destruct (kernel_size prec emax Hp He L a q l W) as (KH & KW). cbn [SpecRound.out_geom] in *. rewrite KH, KW in *. split; [reflexivity|]. now apply (conv_known l a q r c e).
  - split; [reflexivity|]. now apply (reduce_known l n r c e).
  - split; [reflexivity|]. cbn in RS. subst e'. now apply flatten_known.
Qed.

Lemma net_known : forall n g g' e e' M x, fit_all Fl n g g' -> quantised prec emax Hp He L n g e M e' -> known g e M x ->
  exists y M', foldM (fun acc l => fwd Fl p l acc) n x = Ret y /\ foldM (fun acc l => fwd ROps p l acc) (map exact_layer n) (ioval x) = Ret (ioval y) /\
    known g' e' M' y.
Proof.
  intros n g g' e e' M x HF. revert e M x. induction HF as [g | l n g g1 g2 Hl HF IH]; intros e M x QN NR.
  - inversion QN; subst. exists x, M. auto.
  - inversion QN as [|? ? ? ? e1 ? ? gg MM RS RM QN']; subst. subst gg MM. destruct (layer_known l g g1 e e1 M x Hl RS NR RM) as (OG & y & E & E' & N).
    rewrite OG in QN'. destruct (IH _ _ y QN' N) as (w & M' & F & F' & NW).
    exists w, M'. cbn [foldM map]. rewrite (fwd_ok Fl p _ _ _ E), (fwd_ok ROps p _ _ _ E'). cbn [obind]. auto.
Qed.

Lemma vals_length : forall g (x : IOType (cplx B)), has_geom g x -> length (vals x) = gsize g.
Proof.
  intros g x G. destruct g as [n|n r c], x as [v|ms]; try contradiction; cbn [gsize vals has_geom] in *; [exact G | exact (map_values_length Fl n r c ms G)].
Qed.

Lemma input_known : forall g e x, has_geom g x -> Forall (gridded e) (vals x) -> known g e (sizes prec emax x) x.
Proof.
  intros g e x G FX. pose proof (vals_length g x G) as LV. split; [exact G|]. intros i I. unfold sizes.
  rewrite (nth_map_lt (fun v => cabs (cval v)) (vals x) i z) by lia. apply gridded_exactly. now apply gridded_nth.
Qed.

Theorem network_exact : forall n g g' e e' x, n <> [] -> fit_all Fl n g g' -> has_geom g x -> Forall (gridded e) (vals x) ->
  quantised prec emax Hp He L n g e (sizes prec emax x) e' ->
  exists y, net_forward Fl p n x = Ret (Ok y) /\ net_forward ROps p (map exact_layer n) (ioval x) = Ret (Ok (ioval y)) /\
    has_geom g' y /\ Forall (gridded e') (vals y).
Proof.
  intros n g g' e e' x NE HF G FX QN.
  destruct (net_known n g g' e e' _ x HF QN (input_known g e x G FX)) as (y & M' & E & E' & (GY & N)).
  exists y. rewrite !forward_fold by (destruct n; [congruence | discriminate]). rewrite E, E'.
  split; [reflexivity|]. split; [reflexivity|]. split; [exact GY|].
  apply Forall_forall. intros v V. destruct (In_nth _ _ z V) as (i & I & <-). refine (cexactly_gridded _ _ _ _ _ _ (N i _)).
  exact (eq_ind _ (fun t => i < t) I _ (vals_length g' y GY)).
Qed.
End ExactNet.
