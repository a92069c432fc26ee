(** * Related networks stay related: the layers and the network *)
From Verif Require Import Base BaseFacts Float Matrix Cplx Act Input Loss Dense Conv Layer Dataset Network SpecDead SpecRel RelFacts.

Lemma oeq_list : forall {A} (a b : outcome (list A)), orel (Forall2 eq) a b -> orel eq a b.
Proof. intros A a b [x y H|]; constructor. induction H; congruence. Qed.

Section RelNet.
Context (Fl Fl' : FloatOps) (p p' : prec) (R : cplx (F Fl) -> cplx (F Fl') -> Prop) (ok : ComplexActFunc -> Prop).
Context (NR : num_rel Fl Fl' R) (AR : forall f, ok f -> act_rel Fl Fl' p p' R f).
Local Notation C := (cplx (F Fl)).
Local Notation L := (Forall2 R).
Local Notation M := (mrel R).
Local Notation IO := (io_rel Fl Fl' R).
Local Notation LR := (layer_rel Fl Fl' R ok).

Local Definition z0 := nr_zero _ _ _ NR.
Local Definition za := nr_add _ _ _ NR.
Local Definition zaa := nr_add_assign _ _ _ NR.
Local Definition zm := nr_mul _ _ _ NR.
Local Definition zma := nr_mul_assign _ _ _ NR.
Local Definition conv_r := convolution_rel R (cops Fl) (cops Fl') z0 za zaa zm.
Local Definition asm_r := add_slice_mut_rel R (cops Fl) (cops Fl') zaa.

Lemma act_mut_rel : forall f l l', ok f -> L l l' -> orel L (activate_mut Fl p f l) (activate_mut Fl' p' f l').
Proof. intros f l l' K H. apply (mapM_rel R); [|exact H]. intros a b X. now apply AR. Qed.

Lemma dense_q_rel : forall w w' b b' f v v', M w w' -> L b b' -> L v v' -> orel L (dense_q Fl (mkDense Fl w b f) v) (dense_q Fl' (mkDense Fl' w' b' f) v').
Proof.
  intros w w' b b' f v v' W B V. unfold dense_q. cbn [d_weights d_biases].
  eapply obind_rel; [apply (mul_slice_rel R (cops Fl) (cops Fl') z0 za zm); eassumption|]. intros r r' HR.
  eapply obind_rel; [apply unwrap_rel, HR|]. intros s s' HS. now apply unwrap_rel, asm_r.
Qed.

Lemma dense_forward_rel : forall w w' b b' f x x', M w w' -> L b b' -> ok f -> IO x x' ->
  orel (rrel IO) (dense_forward Fl p (mkDense Fl w b f) x) (dense_forward Fl' p' (mkDense Fl' w' b' f) x').
Proof.
  intros w w' b b' f x x' W B K [v v' V|m m' V]; cbn [dense_forward]; [|repeat constructor].
  pose proof (dense_q_rel w w' b b' f v v' W B V) as Q. unfold dense_q in Q. cbn [d_weights d_biases d_func] in *.
  destruct (mul_slice_rel R (cops Fl) (cops Fl') z0 za zm w w' v v' W V) as [r r' HR|]; cbn [obind] in *; [|constructor].
  destruct HR as [r r' HR|e]; cbn [unwrap obind] in *; [|constructor].
  eapply obind_rel; [exact Q|]. intros s s' HS. eapply obind_rel; [apply act_mut_rel; eassumption|]. intros. repeat constructor. assumption.
Qed.

Lemma local_d_rel : forall f q q' d d', ok f -> L q q' -> L d d' -> orel L (local_d Fl p f q d) (local_d Fl' p' f q' d').
Proof.
  intros f q q' d d' K Q D. apply (mapM_rel (prel R R)); [|now apply combine_rel]. intros a b (X & Y).
  eapply obind_rel; [apply AR; eassumption|]. intros. constructor. now apply (nr_mul _ _ _ NR).
Qed.
Lemma local_d_conj_rel : forall f q q' d d', ok f -> L q q' -> L d d' -> orel L (local_d_conj Fl p f q d) (local_d_conj Fl' p' f q' d').
Proof.
  intros f q q' d d' K Q D. apply (mapM_rel (prel R R)); [|now apply combine_rel]. intros a b (X & Y).
  eapply obind_rel; [apply AR; eassumption|]. intros. constructor. apply (nr_mul _ _ _ NR); [|exact Y]. now apply (nr_conj _ _ _ NR).
Qed.

(** Derivatives come in fours. *)
Definition DR (d : derivs Fl) (d' : derivs Fl') : Prop := prel (prel (prel L L) L) L d d'.

Lemma dense_derivatives_rel : forall w w' b b' f x x' u u' v v', M w w' -> L b b' -> ok f -> IO x x' -> L u u' -> L v v' ->
  orel (rrel DR) (dense_derivatives Fl p (mkDense Fl w b f) x u v) (dense_derivatives Fl' p' (mkDense Fl' w' b' f) x' u' v').
Proof.
  intros w w' b b' f x x' u u' v v' W B K X U V. unfold dense_derivatives. cbn [d_weights d_func]. destruct (sh_rel R _ _ W) as (-> & -> & _).
  rewrite (len_rel R _ _ U), (len_rel R _ _ V). destruct (negb _); [repeat constructor|]. destruct (negb _); [repeat constructor|].
  destruct X as [i i' I|]; [|constructor].
  eapply obind_rel; [apply dense_q_rel; eassumption|]. intros q q' Q. eapply obind_rel; [apply local_d_rel; eassumption|]. intros a a' A.
  eapply obind_rel; [apply local_d_conj_rel; eassumption|]. intros c c' CC. eapply obind_rel; [apply rows_rel; eassumption|]. intros r r' RR.
  eapply (obind_rel (prel (prel L L) L)).
  - apply (foldM_rel (prel (prel R R) L)).
    + intros [[s1 s2] s3] [[t1 t2] t3] [[e1 e2] e3] [[h1 h2] h3] ((S1 & S2) & S3) ((E1 & E2) & E3). cbn [fst snd] in *.
      assert (MU : forall a b, R a b -> R (c_mul Fl a (c_add Fl e1 e2)) (c_mul Fl' b (c_add Fl' h1 h2))) by (intros; apply (nr_mul _ _ _ NR); auto; now apply (nr_add _ _ _ NR)).
      eapply obind_rel; [apply unwrap_rel, asm_r; [exact S3 | apply (map_rel R); [exact MU | exact E3]]|]. intros. constructor. repeat split; cbn [fst snd].
      * apply app_rel; [exact S1|]. apply (map_rel R); assumption.
      * apply app_rel; [exact S2|]. constructor; [|constructor]. now apply (nr_add _ _ _ NR).
      * assumption.
    + apply combine_rel; [|exact RR]. now apply combine_rel.
    + split; [split; constructor|]. apply repeat_rel, (nr_zero _ _ _ NR).
  - intros [[s1 s2] s3] [[t1 t2] t3] ((S1 & S2) & S3). cbn [fst snd] in *. repeat constructor; cbn [fst snd]; auto.
    apply (map_rel R); [|exact S3]. apply (nr_conj _ _ _ NR).
Qed.

Lemma sub_conj_rel : forall a b c d, R a b -> R c d -> R (sub_conj Fl a c) (sub_conj Fl' b d).
Proof. intros. unfold sub_conj. apply (nr_sub_assign _ _ _ NR); auto. now apply (nr_conj _ _ _ NR). Qed.

Lemma conv_out_shape_rel : forall n k k' b b' f i i', mrel M k k' -> Forall2 M i i' ->
  orel eq (conv_out_shape Fl (mkConv Fl n k b f) i) (conv_out_shape Fl' (mkConv Fl' n k' b' f) i').
Proof.
  intros n k k' b b' f i i' K I. unfold conv_out_shape. cbn [k_kernels].
  eapply obind_rel; [apply elm_rel; eassumption|]. intros r r' HR. eapply obind_rel; [apply unwrap_rel, HR|]. intros m m' HM.
  eapply obind_rel; [apply index_rel; eassumption|]. intros g g' HG. destruct (sh_rel R _ _ HM) as (-> & -> & _), (sh_rel R _ _ HG) as (-> & -> & _). apply oeq.
Qed.

Lemma conv_feature_rel : forall o0 o1 i i' f f' b b', Forall2 M i i' -> Forall2 M f f' -> R b b' ->
  orel M (conv_feature Fl o0 o1 i f b) (conv_feature Fl' o0 o1 i' f' b').
Proof.
  intros o0 o1 i i' f f' b b' I HF B. unfold conv_feature. eapply (obind_rel M).
  - apply (foldM_rel (prel M M)); [|now apply combine_rel|apply from_body_rel, repeat_rel, (nr_zero _ _ _ NR)]. intros u v a c U (X & Y).
    eapply obind_rel; [apply conv_r; eassumption|]. intros r r' HR. eapply obind_rel; [apply unwrap_rel, HR|]. intros s s' HS.
    apply unwrap_rel. apply (add_mut_rel R (cops Fl) (cops Fl') zaa); assumption.
  - intros a c X. constructor. apply (add_mut_scalar_rel R (cops Fl) (cops Fl') zaa); assumption.
Qed.

Lemma conv_forward_rel : forall n k k' b b' f x x', mrel M k k' -> L b b' -> ok f -> IO x x' ->
  orel (rrel IO) (conv_forward Fl p (mkConv Fl n k b f) x) (conv_forward Fl' p' (mkConv Fl' n k' b' f) x').
Proof.
  intros n k k' b b' f x x' K B HO [v v' V|i i' I]; cbn [conv_forward]; [repeat constructor|].
  eapply obind_rel; [apply conv_out_shape_rel; eassumption|]. intros [o0 o1] ? <-. cbn [k_kernels k_biases k_func]. destruct (sh_rel M _ _ K) as (_ & -> & _).
  rewrite (len_rel M _ _ I). destruct (negb _); [repeat constructor|]. eapply obind_rel; [apply rows_rel; eassumption|]. intros r r' RR.
  eapply (obind_rel (Forall2 M)).
  - apply (mapM_rel (prel (Forall2 M) R)); [|now apply combine_rel]. intros u w (U & W). eapply obind_rel; [apply conv_feature_rel; eassumption|]. intros m m' HM.
    eapply obind_rel; [apply act_mut_rel; [exact HO | apply body_rel, HM]|]. intros. constructor. now apply with_body_rel.
  - intros. repeat constructor. assumption.
Qed.

Lemma conv_q_rel : forall n k k' b b' f i i', mrel M k k' -> L b b' -> Forall2 M i i' ->
  orel L (conv_q Fl (mkConv Fl n k b f) i) (conv_q Fl' (mkConv Fl' n k' b' f) i').
Proof.
  intros n k k' b b' f i i' K B I. unfold conv_q. eapply obind_rel; [apply conv_out_shape_rel; eassumption|]. intros [o0 o1] ? <-. cbn [k_kernels k_biases].
  eapply obind_rel; [apply rows_rel; eassumption|]. intros r r' RR. apply (flat_mapM_rel (prel (Forall2 M) R)); [|now apply combine_rel]. intros u w (U & W).
  eapply obind_rel; [apply conv_feature_rel; eassumption|]. intros. constructor. now apply body_rel.
Qed.

Lemma conv_oper_a_rel : forall i i' a a' b b', Forall2 M i i' -> M a a' -> M b b' -> orel (prel L L) (conv_oper_a Fl i a b) (conv_oper_a Fl' i' a' b').
Proof.
  intros i i' a a' b b' I A B. unfold conv_oper_a. eapply (obind_rel L).
  - apply (flat_mapM_rel M); [|exact I]. intros u w U. eapply obind_rel; [apply conv_r; eassumption|]. intros r r' HR. eapply obind_rel; [apply unwrap_rel, HR|]. intros s s' HS.
    eapply obind_rel; [apply conv_r; eassumption|]. intros r2 r2' HR2. eapply obind_rel; [apply unwrap_rel, HR2|]. intros s2 s2' HS2.
    eapply obind_rel; [apply unwrap_rel, (add_mut_rel R (cops Fl) (cops Fl') zaa); eassumption|]. intros. constructor. now apply body_rel.
  - intros u w U. eapply obind_rel; [apply unwrap_rel, (add_slice_rel R (cops Fl) (cops Fl') za); apply body_rel; eassumption|]. intros. constructor. now split.
Qed.

Lemma conv_oper_b_rel : forall f f' a a' b b' x y, Forall2 M f f' -> M a a' -> M b b' -> orel (prel L L) (conv_oper_b Fl f a b x y) (conv_oper_b Fl' f' a' b' x y).
Proof.
  intros f f' a a' b b' x y HF A B. unfold conv_oper_b. eapply (obind_rel (Forall2 M)).
  { apply (mapM_rel M); [|exact HF]. intros u w U. eapply obind_rel; [apply flip_rel; eassumption|]. intros r r' HR. eapply obind_rel; [apply unwrap_rel, HR|]. intros. now constructor. }
  intros g g' G. eapply obind_rel; [apply (pad_rel R (cops Fl) (cops Fl') z0); eassumption|]. intros pa pa' PA.
  eapply obind_rel; [apply (pad_rel R (cops Fl) (cops Fl') z0); eassumption|]. intros pb pb' PB.
  assert (H : forall q q', M q q' -> orel L (flat_mapM (fun fk => r <-! convolution (cops Fl) q fk ;; Ret (body r)) g) (flat_mapM (fun fk => r <-! convolution (cops Fl') q' fk ;; Ret (body r)) g')).
  { intros q q' Q. apply (flat_mapM_rel M); [|exact G]. intros u w U. eapply obind_rel; [apply conv_r; eassumption|]. intros r r' HR. eapply obind_rel; [apply unwrap_rel, HR|]. intros. constructor. now apply body_rel. }
  eapply obind_rel; [apply H, PA|]. intros. eapply obind_rel; [apply H, PB|]. intros. constructor. now split.
Qed.

Record CB (s : conv_bstate Fl) (s' : conv_bstate Fl') : Prop := { cb1 : L (cb_a _ s) (cb_a _ s'); cb2 : L (cb_b _ s) (cb_b _ s'); cb3 : L (cb_dldk _ s) (cb_dldk _ s');
  cb4 : L (cb_dldb _ s) (cb_dldb _ s'); cb5 : L (cb_dlda _ s) (cb_dlda _ s'); cb6 : L (cb_dldac _ s) (cb_dldac _ s') }.

Lemma conv_filter_step_rel : forall i i' osz o0 o1 x y s s' f f', Forall2 M i i' -> CB s s' -> Forall2 M f f' ->
  orel CB (conv_filter_step Fl i osz o0 o1 x y s f) (conv_filter_step Fl' i' osz o0 o1 x y s' f').
Proof.
  intros i i' osz o0 o1 x y s s' f f' I [S1 S2 S3 S4 S5 S6] HF. unfold conv_filter_step.
  eapply obind_rel; [apply slice_rel; eassumption|]. intros ba ba' BA. eapply obind_rel; [apply slice_rel; eassumption|]. intros bb bb' BB.
  eapply obind_rel; [apply conv_oper_a_rel; [exact I | apply from_body_rel, BA | apply from_body_rel, BB]|]. intros [dk db] [dk' db'] (DK & DB). cbn [fst snd] in *.
  eapply obind_rel; [apply conv_oper_b_rel; [exact HF | apply from_body_rel, BA | apply from_body_rel, BB]|]. intros [na nb] [na' nb'] (NA & NB). cbn [fst snd] in *.
  eapply obind_rel; [apply (reduce_rel R); [apply (nr_add _ _ _ NR) | exact DB]|]. intros d d' D.
  eapply obind_rel; [apply unwrap_rel, asm_r; eassumption|]. intros. eapply obind_rel; [apply unwrap_rel, asm_r; eassumption|]. intros.
  constructor. constructor; cbn; auto with rel.
Qed.

Lemma conv_derivatives_rel : forall n k k' b b' f x x' u u' v v', mrel M k k' -> L b b' -> ok f -> IO x x' -> L u u' -> L v v' ->
  orel (rrel DR) (conv_derivatives Fl p (mkConv Fl n k b f) x u v) (conv_derivatives Fl' p' (mkConv Fl' n k' b' f) x' u' v').
Proof.
  intros n k k' b b' f x x' u u' v v' K B HO [w w' W|i i' I] U V; cbn [conv_derivatives]; [constructor|]. cbn [k_kernels k_func].
  eapply obind_rel; [apply index_rel; eassumption|]. intros m m' HM. destruct (sh_rel R _ _ HM) as (E0 & E1 & _). rewrite E0, E1.
  eapply obind_rel; [apply elm_rel; eassumption|]. intros r r' HR. eapply obind_rel; [apply unwrap_rel, HR|]. intros g g' HG. destruct (sh_rel R _ _ HG) as (-> & -> & _).
  do 4 (eapply obind_rel; [apply oeq|]; intros ? ? <-).
  eapply obind_rel; [apply conv_q_rel; eassumption|]. intros q q' Q. eapply obind_rel; [apply local_d_rel; eassumption|]. intros d d' D.
  eapply obind_rel; [apply local_d_conj_rel; eassumption|]. intros c c' CC. rewrite (len_rel R _ _ D). destruct (sh_rel M _ _ K) as (-> & _).
  eapply obind_rel; [apply oeq|]; intros ? ? <-. eapply obind_rel; [apply rows_rel; eassumption|]. intros fs fs' FS. rewrite (len_rel M _ _ I).
  eapply (obind_rel CB).
  - apply (foldM_rel (Forall2 M)); [|exact FS|]. { intros. now apply conv_filter_step_rel. }
    constructor; cbn; auto; apply repeat_rel, (nr_zero _ _ _ NR).
  - intros s s' [S1 S2 S3 S4 S5 S6]. repeat constructor; cbn [fst snd]; assumption.
Qed.

Lemma red_forward_rel : forall n b0 b1 f f' k k' x x', (forall l l', L l l' -> orel R (f l) (f' l')) -> IO x x' ->
  orel (rrel IO) (red_forward Fl (mkRed Fl n b0 b1 f k) x) (red_forward Fl' (mkRed Fl' n b0 b1 f' k') x').
Proof.
  intros n b0 b1 f f' k k' x x' HF [v v' V|i i' I]; cbn [red_forward]; [repeat constructor|]. cbn [r_b0 r_b1 r_func].
  eapply (obind_rel (Forall2 M)).
  - apply (mapM_rel M); [|exact I]. intros a b X. eapply obind_rel; [apply (block_reduce_rel R); eassumption|]. intros r r' HR. eapply obind_rel; [apply unwrap_rel, HR|]. intros. now constructor.
  - intros. repeat constructor. assumption.
Qed.

Lemma red_derivatives_rel : forall n b0 b1 f f' k k' x x' u u' v v', M k k' -> IO x x' -> L u u' -> L v v' ->
  orel (rrel DR) (red_derivatives Fl (mkRed Fl n b0 b1 f k) x u v) (red_derivatives Fl' (mkRed Fl' n b0 b1 f' k') x' u' v').
Proof.
  intros n b0 b1 f f' k k' x x' u u' v v' K [w w' W|i i' I] U V; cbn [red_derivatives]; [repeat constructor|]. rewrite (len_rel R _ _ U), (len_rel M _ _ I).
  eapply obind_rel; [apply oeq|]; intros ? ? <-. eapply obind_rel; [apply chunks_rel; eassumption|]. intros ca ca' CA. eapply obind_rel; [apply chunks_rel; eassumption|]. intros cb cb' CC.
  eapply (obind_rel (prel (prel (prel (Forall2 L) (Forall2 L)) L) L)).
  - apply (foldM_rel M); [|exact I|repeat split; cbn [fst snd]; auto]. intros [[[s1 s2] s3] s4] [[[t1 t2] t3] t4] m m' (((S1 & S2) & S3) & S4) HM. cbn [fst snd] in *. unfold red_step.
    cbn [r_b0 r_b1 r_kernel]. destruct (sh_rel R _ _ HM) as (-> & -> & _). eapply obind_rel; [apply oeq|]; intros f0 ? <-. eapply obind_rel; [apply oeq|]; intros f1 ? <-.
    destruct S1 as [|c1 d1 l1 l1' A1 A2]; [constructor|]. eapply obind_rel; [apply unwrap_rel, to_matrix_rel, A1|]. intros ma ma' MA.
    eapply obind_rel; [apply (upsampling_rel R (cops Fl) (cops Fl') z0 za zaa zm); eassumption|]. intros r r' HR. eapply obind_rel; [apply unwrap_rel, HR|]. intros ua ua' UA.
    destruct S2 as [|c2 d2 l2 l2' B1 B2]; [constructor|]. eapply obind_rel; [apply unwrap_rel, to_matrix_rel, B1|]. intros mb mb' MB.
    eapply obind_rel; [apply (upsampling_rel R (cops Fl) (cops Fl') z0 za zaa zm); eassumption|]. intros r2 r2' HR2. eapply obind_rel; [apply unwrap_rel, HR2|]. intros ub ub' UB.
    constructor. repeat split; cbn [fst snd]; auto; apply app_rel; auto; now apply body_rel.
  - intros [[[s1 s2] s3] s4] [[[t1 t2] t3] t4] (((S1 & S2) & S3) & S4). cbn [fst snd] in *. repeat constructor; cbn [fst snd]; auto.
Qed.

Lemma layer_forward_rel : forall l l' x x', LR l l' -> IO x x' -> orel (rrel IO) (layer_forward Fl p l x) (layer_forward Fl' p' l' x').
Proof.
  intros l l' x x' [w w' b b' f W B K|n k k' b b' f W B K|n b0 b1 f f' k k' HF K|fl] X; cbn [layer_forward].
  - now apply dense_forward_rel.
  - now apply conv_forward_rel.
  - now apply red_forward_rel.
  - destruct X as [v v' V|i i' I]; cbn [flat_forward]; repeat constructor. apply (flat_map_rel M); [|exact I]. apply body_rel.
Qed.

Lemma layer_derivatives_rel : forall l l' x x' u u' v v', LR l l' -> IO x x' -> L u u' -> L v v' ->
  orel (rrel DR) (layer_derivatives Fl p l x u v) (layer_derivatives Fl' p' l' x' u' v').
Proof.
  intros l l' x x' u u' v v' [w w' b b' f W B K|n k k' b b' f W B K|n b0 b1 f f' k k' HF K|fl] X U V; cbn [layer_derivatives].
  - now apply dense_derivatives_rel.
  - now apply conv_derivatives_rel.
  - now apply red_derivatives_rel.
  - constructor.
Qed.

Lemma adjust_kernels_rel : forall ks ks' d d', Forall2 M ks ks' -> L d d' -> Forall2 M (adjust_kernels Fl ks d) (adjust_kernels Fl' ks' d').
Proof.
  intros ks ks' d d' H. revert d d'. induction H as [|k k' ks ks' K H IH]; intros d d' D; cbn [adjust_kernels]; constructor.
  - apply with_body_rel; [exact K|]. apply (zip_rel R R); [apply sub_conj_rel | apply body_rel, K | exact D].
  - pose proof (body_rel R _ _ K) as KB. rewrite (len_rel R _ _ KB). apply IH. now apply skipn_rel.
Qed.

Lemma kernels_len_rel : forall ks ks', Forall2 M ks ks' -> forall a, fold_left (fun acc k => acc + sh0 k * sh1 k) ks' a = fold_left (fun acc k => acc + sh0 k * sh1 k) ks a.
Proof. intros ks ks' H. induction H as [|k k' ks ks' K H IH]; intros a; cbn; [reflexivity|]. destruct (sh_rel R _ _ K) as (-> & -> & _). apply IH. Qed.

Lemma params_len_rel : forall l l', LR l l' -> layer_params_len Fl' l' = layer_params_len Fl l.
Proof.
  intros l l' [w w' b b' f W B K|n k k' b b' f W B K|n b0 b1 f f' k k' HF K|fl]; cbn [layer_params_len]; auto.
  - unfold dense_params_len. cbn [d_weights d_biases]. destruct (sh_rel R _ _ W) as (-> & -> & _). now rewrite (len_rel R _ _ B).
  - unfold conv_params_len. cbn [k_kernels k_biases]. rewrite (len_rel R _ _ B). pose proof (body_rel M _ _ W) as H. now rewrite (kernels_len_rel _ _ H).
Qed.

Lemma layer_adjust_rel : forall l l' u u' v v', LR l l' -> L u u' -> L v v' -> orel (rrel LR) (layer_adjust Fl l u v) (layer_adjust Fl' l' u' v').
Proof.
  intros l l' u u' v v' H U V. pose proof (params_len_rel l l' H) as PL. destruct H as [w w' b b' f W B K|n k k' b b' f W B K|n b0 b1 f f' k k' HF K|fl]; cbn [layer_adjust].
  - constructor. unfold dense_adjust. cbn [d_weights d_biases d_func]. pose proof (body_rel R _ _ W) as WB. rewrite (len_rel R _ _ V), (len_rel R _ _ B), (len_rel R _ _ U), (len_rel R _ _ WB).
    destruct (negb _); [constructor|]. destruct (negb _); cbn [map_ok]; [constructor|]. repeat constructor; auto.
    + apply with_body_rel; [exact W|]. apply (zip_rel R R); [apply sub_conj_rel | exact WB | exact U].
    + apply (zip_rel R R); [apply sub_conj_rel | exact B | exact V].
  - constructor. unfold conv_adjust. cbn [layer_params_len] in PL. rewrite PL. destruct (conv_params_len Fl _) as [x y]. rewrite (len_rel R _ _ V), (len_rel R _ _ U).
    destruct (negb _); [constructor|]. destruct (negb _); cbn [map_ok]; [constructor|]. cbn [k_in k_kernels k_biases k_func]. constructor. constructor; auto.
    + apply with_body_rel; [exact W|]. apply adjust_kernels_rel; [apply body_rel, W | exact U].
    + apply (zip_rel R R); [apply sub_conj_rel | exact B | exact V].
  - repeat constructor; auto.
  - constructor.
Qed.

Lemma propagates_rel : forall l l', LR l l' -> layer_propagates Fl' l' = layer_propagates Fl l.
Proof. intros l l' []; reflexivity. Qed.

Lemma fwd_rel : forall l l' x x', LR l l' -> IO x x' -> orel IO (fwd Fl p l x) (fwd Fl' p' l' x').
Proof. intros. unfold fwd. eapply obind_rel; [apply layer_forward_rel; eassumption|]. intros r r' HR. eapply obind_rel; [apply unwrap_rel, HR|]. intros. now constructor. Qed.

Local Notation NET := (net_rel Fl Fl' R ok).
Theorem net_forward_rel : forall n n' x x', NET n n' -> IO x x' -> orel (rrel IO) (net_forward Fl p n x) (net_forward Fl' p' n' x').
Proof.
  intros n n' x x' H X. unfold net_forward. destruct H as [|l l' n n' K H]; [repeat constructor|].
  eapply obind_rel; [apply fwd_rel; eassumption|]. intros y y' Y. cbn [length]. rewrite (len_rel LR n n' H).
  eapply (obind_rel IO); [|intros; repeat constructor; assumption]. destruct (1 <? _); [|now constructor].
  apply (foldM_rel LR); [|exact H|exact Y]. intros. now apply fwd_rel.
Qed.

Lemma net_collect_rel : forall n n' x x', NET n n' -> IO x x' -> orel (rrel (Forall2 IO)) (net_collect_acts Fl p n x) (net_collect_acts Fl' p' n' x').
Proof.
  intros n n' x x' H X. unfold net_collect_acts. destruct H as [|l l' n n' K H]; [repeat constructor|].
  eapply (obind_rel (Forall2 IO)); [|intros; repeat constructor; assumption].
  apply (foldM_rel LR); [|now constructor|now constructor]. intros u v a b U Q. rewrite (len_rel IO _ _ U).
  eapply obind_rel; [exact (index_rel IO _ _ _ U)|]. intros. eapply obind_rel; [apply fwd_rel; eassumption|]. intros. constructor. auto with rel.
Qed.

Lemma d_loss_rel : forall t t' y y' f, IO t t' -> IO y y' -> rrel L (d_loss Fl t y f) (d_loss Fl' t' y' f).
Proof.
  assert (D : forall f t t' y y', L t t' -> L y y' -> L (release_dloss Fl f t y) (release_dloss Fl' f t' y')).
  { intros f t t' y y' T Y. assert (L (d_mean_sq_loss Fl t y) (d_mean_sq_loss Fl' t' y')); [|destruct f; assumption].
    apply (map_rel (prel R R)); [|now apply combine_rel]. intros a b (P & Q). unfold d_sq_error. apply (nr_conj _ _ _ NR). now apply (nr_sub _ _ _ NR). }
  intros t t' y y' f T Y. destruct Y, T; cbn [d_loss]; try constructor; apply D; auto; apply (flat_map_rel M); auto; apply body_rel.
Qed.

Lemma acc_at_rel : forall v v' i d d', Forall2 L v v' -> L d d' -> orel (Forall2 L) (acc_at Fl v i d) (acc_at Fl' v' i d').
Proof.
  intros v v' i d d' V D. unfold acc_at. eapply obind_rel; [apply index_rel; eassumption|]. intros. eapply obind_rel; [apply unwrap_rel, asm_r; eassumption|].
  intros. constructor. now apply set_nth_rel.
Qed.

Record BS (s : bstate Fl) (s' : bstate Fl') : Prop := { bs1 : Forall2 L (b_w _ s) (b_w _ s'); bs2 : Forall2 L (b_b _ s) (b_b _ s');
  bs3 : L (b_dlda _ s) (b_dlda _ s'); bs4 : L (b_dldac _ s) (b_dldac _ s'); bs5 : b_l _ s' = b_l _ s }.

Lemma back_step_rel : forall n s s' al al', BS s s' -> prel IO LR al al' -> orel BS (back_step Fl p n s al) (back_step Fl' p' n s' al').
Proof.
  intros n s s' [x l] [x' l'] [B1 B2 B3 B4 B5] (X & H). cbn [fst snd] in *. unfold back_step. rewrite (propagates_rel _ _ H). rewrite B5. destruct (layer_propagates Fl l).
  - eapply obind_rel; [apply layer_derivatives_rel; eassumption|]. intros r r' HR. eapply obind_rel; [apply unwrap_rel, HR|].
    intros [[[d1 d2] d3] d4] [[[e1 e2] e3] e4] (((D1 & D2) & D3) & D4). cbn [fst snd] in *. eapply obind_rel; [apply oeq|]; intros i ? <-.
    eapply obind_rel; [apply acc_at_rel; eassumption|]. intros. eapply obind_rel; [apply acc_at_rel; eassumption|]. intros. constructor. constructor; cbn; auto.
  - constructor. constructor; cbn; auto.
Qed.

Local Notation GR := (prel (Forall2 L) (Forall2 L)).
Lemma point_step_rel : forall n n' f g g' it it', NET n n' -> GR g g' -> prel IO IO it it' -> orel GR (point_step Fl p n f g it) (point_step Fl' p' n' f g' it').
Proof.
  intros n n' f g g' it it' H (G1 & G2) (X & T). unfold point_step. eapply obind_rel; [apply net_collect_rel; eassumption|]. intros r r' HR.
  eapply obind_rel; [apply unwrap_rel, HR|]. intros vs vs' VS. pose proof (rev_rel IO _ _ VS) as RV. destruct RV as [|y y' ws ws' Y WS]; [constructor|].
  eapply obind_rel; [apply unwrap_rel, d_loss_rel; eassumption|]. intros d d' D. rewrite (len_rel LR _ _ H).
  eapply (obind_rel BS).
  - apply (foldM_rel (prel IO LR)).
    + intros. now apply back_step_rel.
    + apply combine_rel; [exact WS | apply rev_rel, H].
    + constructor; cbn; auto. apply (map_rel R); [apply (nr_conj _ _ _ NR) | exact D].
  - intros s s' [B1 B2 _ _ _]. constructor. now split.
Qed.

Local Notation DAT := (data_rel Fl Fl' R).
Lemma net_gradient_rel : forall n n' d d' f, NET n n' -> DAT d d' -> orel GR (net_gradient Fl p n d f) (net_gradient Fl' p' n' d' f).
Proof.
  intros n n' d d' f H [i i' t t' I T]. unfold net_gradient, ds_points_iter. cbn [ds_inputs ds_target].
  apply (foldM_rel (prel IO IO)); [|now apply combine_rel|].
  - intros. now apply point_step_rel.
  - split; cbn [grad_zero fst snd]; apply (map_rel LR); try exact H; intros a b K; rewrite (propagates_rel _ _ K), (params_len_rel _ _ K); destruct (layer_propagates Fl a);
      auto; apply repeat_rel, (nr_zero _ _ _ NR).
Qed.

Lemma update_layer_rel : forall s s' gl gl', R s s' -> prel (prel L L) LR gl gl' -> orel LR (update_layer Fl s gl) (update_layer Fl' s' gl').
Proof.
  intros s s' [[u v] l] [[u' v'] l'] HS ((U & V) & H). cbn [fst snd] in *. unfold update_layer. rewrite (propagates_rel _ _ H). destruct (layer_propagates Fl l); [|now constructor].
  pose proof (fun a b K => slice_mul_mut_scalar_rel R (cops Fl) (cops Fl') zma a b s s' K HS) as SM.
  eapply obind_rel; [apply layer_adjust_rel; [exact H | apply SM, U | apply SM, V]|]. intros r r' HR. eapply obind_rel; [apply unwrap_rel, HR|]. intros. now constructor.
Qed.

(** The step a batch takes: [lr] over its number of points. *)
Theorem net_gradient_opt_rel : forall n n' d d' f lr lr', NET n n' -> DAT d d' ->
  orel R (c_div Fl lr (c_of_nat Fl (length (ds_inputs d)))) (c_div Fl' lr' (c_of_nat Fl' (length (ds_inputs d)))) ->
  orel (prel NET eq) (net_gradient_opt Fl p n d f lr) (net_gradient_opt Fl' p' n' d' f lr').
Proof.
  intros n n' d d' f lr lr' H D S. unfold net_gradient_opt. rewrite (len_rel LR _ _ H). destruct (_ <=? 1); [repeat constructor; exact H|].
  eapply obind_rel; [apply net_gradient_rel; eassumption|]. intros g g' (G1 & G2).
  assert (E : length (ds_inputs d') = length (ds_inputs d)) by (destruct D as [i i' t t' I T]; exact (len_rel IO _ _ I)). rewrite E.
  eapply obind_rel; [exact S|]. intros s s' HS. eapply (obind_rel (Forall2 LR)).
  - apply (mapM_rel (prel (prel L L) LR)); [|apply combine_rel; [now apply combine_rel | exact H]]. intros. now apply update_layer_rel.
  - intros. repeat constructor. assumption.
Qed.

(** Rates keep [R] when divided by the number of points. *)
Context (DV : forall n lr lr', R lr lr' -> orel R (c_div Fl lr (c_of_nat Fl n)) (c_div Fl' lr' (c_of_nat Fl' n))).

Theorem train_steps_rel : forall s s' n n', NET n n' -> Forall2 (step_rel Fl Fl' R) s s' -> orel NET (train_steps Fl p n s) (train_steps Fl' p' n' s').
Proof.
  intros s s' n n' H S. revert n n' H. induction S as [|[[d f] lr] [[d' f'] lr'] s s' (D & E & K) S IH]; intros n n' H; cbn [train_steps]; [now constructor|].
  cbn [fst snd] in *. subst f'. eapply obind_rel; [apply net_gradient_opt_rel; [exact H | exact D | apply DV, K]|]. intros [m r] [m' r'] (HM & <-). cbn [fst snd] in *.
  destruct r; [now apply IH | constructor].
Qed.

(** Losses, with real numbers related by [Q]. *)
Context (Q : F Fl -> F Fl' -> Prop).
Theorem net_loss_rel : forall f n n' d d',
  (forall a b c d, Q a b -> Q c d -> Q (fadd Fl a c) (fadd Fl' b d)) ->
  (forall a b k, Q a b -> Q (fdiv Fl a (fofnat Fl k)) (fdiv Fl' b (fofnat Fl' k))) ->
  (forall t t' y y', L t t' -> L y y' -> Q (release_loss Fl f t y) (release_loss Fl' f t' y')) ->
  NET n n' -> DAT d d' -> orel (rrel Q) (net_loss Fl p n d f) (net_loss Fl' p' n' d' f).
Proof.
  intros f n n' d d' QA QD QL H [i i' t t' I T]. unfold net_loss, ds_points_iter. cbn [ds_inputs ds_target].
  eapply (obind_rel (Forall2 Q)).
  - apply (mapM_rel (prel IO IO)); [|now apply combine_rel]. intros [x u] [x' u'] (X & U). cbn [fst snd] in *.
    eapply obind_rel; [apply net_forward_rel; eassumption|]. intros r r' HR. eapply obind_rel; [apply unwrap_rel, HR|]. intros y y' Y. apply unwrap_rel.
    destruct Y, U; cbn [loss]; constructor; apply QL; auto; apply (flat_map_rel M); auto; apply body_rel.
  - intros v v' V. rewrite (len_rel Q _ _ V). eapply obind_rel; [apply (reduce_rel Q); [exact QA | exact V]|]. intros. repeat constructor. auto.
Qed.

Lemma max_index_rel : forall l l', (forall a b c d, R a b -> R c d -> c_gt Fl a c = c_gt Fl' b d) -> L l l' -> max_index Fl l = max_index Fl' l'.
Proof.
  intros l l' G H. unfold max_index.
  assert (X : forall i a a' k, R a a' ->
     fst (snd (fold_left (fun st e => let '(i, acc) := st in (S i, if c_gt Fl e (snd acc) then (i, e) else acc)) l (i, (k, a)))) =
     fst (snd (fold_left (fun st e => let '(i, acc) := st in (S i, if c_gt Fl' e (snd acc) then (i, e) else acc)) l' (i, (k, a'))))).
  { induction H as [|e e' l l' E H IH]; intros i a a' k A; cbn [fold_left]; [reflexivity|]. cbn [snd]. rewrite (G _ _ _ _ E A). destruct (c_gt Fl' e' a'); now apply IH. }
  apply X. apply (nr_zero _ _ _ NR).
Qed.

Theorem max_test_rel : forall n n' d d', (forall a b c d, R a b -> R c d -> c_gt Fl a c = c_gt Fl' b d) ->
  (forall a b, Q (fdiv Fl (fofnat Fl a) (fofnat Fl b)) (fdiv Fl' (fofnat Fl' a) (fofnat Fl' b))) ->
  NET n n' -> DAT d d' -> orel Q (net_max_pred_test Fl p n d) (net_max_pred_test Fl' p' n' d').
Proof.
  intros n n' d d' G QN H [i i' t t' I T]. unfold net_max_pred_test, ds_points_iter. cbn [ds_inputs ds_target].
  eapply (obind_rel eq).
  - eapply (oeq_list). apply (mapM_rel (prel IO IO)); [|now apply combine_rel]. intros [x u] [x' u'] (X & U). cbn [fst snd] in *.
    eapply obind_rel; [apply net_forward_rel; eassumption|]. intros r r' HR. eapply obind_rel; [apply unwrap_rel, HR|]. intros y y' Y.
    destruct Y as [y y' Y|]; cbn [as_slice obind]; [|constructor]. destruct U as [u u' U|]; cbn [as_slice obind]; [|constructor].
    constructor. now rewrite (max_index_rel _ _ G U), (max_index_rel _ _ G Y).
  - intros v ? <-. rewrite (len_rel IO _ _ T). constructor. apply QN.
Qed.
End RelNet.
