(** * Numbers that do not move anything stay so through back-propagation *)
From Verif Require Import Base BaseFacts Float Matrix Cplx Random Act Input Loss Dense Conv Layer Dataset Network SpecMatrix MatrixFacts
  SpecLayer SpecConv SpecNet DenseFacts ConvFacts LayerFacts NetFacts TrainFacts TrainDense PropDense PropNet PropTrain GradFacts GradFacts2 TrainLaws SpecGrad SpecRound SpecDead DeadFacts PropLaws.
Local Open Scope nat_scope.

Section Still.
Context (Fl : FloatOps).
Local Notation C := (cplx (F Fl)).
Local Notation z := (c_default Fl).
Context (nilr : F Fl -> Prop) (kept : F Fl -> F Fl -> Prop).
Context (N0 : nilr (fzero Fl)).
Context (Nadd : forall x y, nilr x -> nilr y -> nilr (fadd Fl x y)).
Context (Nsub : forall x y, nilr x -> nilr y -> nilr (fsub Fl x y)).
Context (Nneg : forall x, nilr x -> nilr (fneg Fl x)).
Context (Nmul : forall x y, nilr x \/ nilr y -> nilr (fmul Fl x y)).
Context (Ksub : forall a x, nilr x -> kept a (fsub Fl a x)).
Local Notation nilc := (nilc Fl nilr).
Local Notation keptc := (keptc Fl kept).
Let Nz : nilc z := nilc_z Fl nilr N0.
Let Cadd : forall a b, nilc a -> nilc b -> nilc (c_add Fl a b) := nilc_add Fl nilr Nadd.
Let Cmul : forall a b, nilc a \/ nilc b -> nilc (c_mul Fl a b) := nilc_mul Fl nilr Nadd Nsub Nmul.
Let Cconj : forall a, nilc a -> nilc (c_conj Fl a) := nilc_conj Fl nilr Nneg.

Definition zs (l : list C) : Prop := Forall nilc l.

Lemma zs_app : forall a b, zs (a ++ b) <-> zs a /\ zs b.
Proof. intros. apply Forall_app. Qed.
Lemma zs_concat : forall ls, zs (concat ls) <-> Forall zs ls.
Proof. intros ls. induction ls as [|l ls IH]; cbn [concat]; [split; constructor|]. rewrite zs_app, IH. split; [intros (? & ?); constructor; auto | inversion 1; auto]. Qed.
Lemma zs_repeat : forall n, zs (repeat z n).
Proof. induction n; constructor; auto. Qed.
Lemma zs_firstn : forall n l, zs l -> zs (firstn n l).
Proof. intros n l H. rewrite <- (firstn_skipn n l) in H. apply zs_app in H. tauto. Qed.
Lemma zs_skipn : forall n l, zs l -> zs (skipn n l).
Proof. intros n l H. rewrite <- (firstn_skipn n l) in H. apply zs_app in H. tauto. Qed.
Lemma zs_slice : forall l a b r, zs l -> slice l a b = Ret r -> zs r.
Proof. intros l a b r H E. unfold slice in E. destruct (_ && _); [|discriminate]. injection E as <-. now apply zs_firstn, zs_skipn. Qed.
Lemma zs_chunks : forall n l cs, zs l -> chunks n l = Ret cs -> Forall zs cs.
Proof.
  intros n l cs H E. assert (N : n <> 0) by (intros ->; discriminate). destruct (chunks_ret n l N) as (cs' & E' & E2).
  assert (cs = cs') by congruence. subst. apply zs_concat. congruence.
Qed.
Lemma zs_windows : forall n l cs, zs l -> windows n l = Ret cs -> Forall zs cs.
Proof.
  intros n l cs H E. unfold windows in E. destruct (n =? 0); [discriminate|]. destruct (_ <? _); injection E as <-; [constructor|].
  apply Forall_forall. intros x Hx. apply in_map_iff in Hx as (i & <- & _). now apply zs_firstn, zs_skipn.
Qed.
Lemma zs_mapM : forall {A} (f : A -> outcome C) l r, (forall x y, In x l -> f x = Ret y -> nilc y) -> mapM f l = Ret r -> zs r.
Proof.
  intros A f l. induction l as [|a l IH]; intros r H E; cbn [mapM] in E; [injection E as <-; constructor|].
  apply obind_inv in E as (x & E1 & E). apply obind_inv in E as (y & E2 & E). injection E as <-. constructor.
  - eapply H; [now left | exact E1].
  - apply IH; [|exact E2]. intros. eapply H; [right|]; eauto.
Qed.
Lemma zs_flat_mapM : forall {A} (f : A -> outcome (list C)) l r, (forall x y, In x l -> f x = Ret y -> zs y) -> flat_mapM f l = Ret r -> zs r.
Proof.
  intros A f l r H E. unfold flat_mapM in E. apply obind_inv in E as (bs & E1 & E). injection E as <-. apply zs_concat.
  revert bs E1. induction l as [|a l IH]; intros bs E1; cbn [mapM] in E1; [injection E1 as <-; constructor|].
  apply obind_inv in E1 as (x & E1 & E). apply obind_inv in E as (y & E2 & E). injection E as <-. constructor.
  - eapply H; [now left | exact E1].
  - apply IH; [|exact E2]. intros. eapply H; [right|]; eauto.
Qed.
Lemma zs_zip : forall a b, zs a -> zs b -> zs (zip_assign (add_assign (cops Fl)) a b).
Proof.
  intros a b H. revert b. induction H as [|x a X H IH]; intros b K; [destruct b; constructor|].
  destruct K as [|y b Y K]; cbn [zip_assign]; (constructor; [|first [apply IH; exact K | exact H]]); [exact X|]. exact (Cadd _ _ X Y).
Qed.
Lemma zs_add_slice_mut : forall a b r, zs a -> zs b -> unwrap (add_slice_mut (cops Fl) a b) = Ret r -> zs r.
Proof. intros a b r H K E. unfold add_slice_mut in E. destruct (negb _); cbn [unwrap] in E; [discriminate|]. injection E as <-. now apply zs_zip. Qed.

Lemma prod_zero : forall a b : list C, zs a \/ zs b -> nilc (scalar_prod (cops Fl) a b).
Proof.
  intros a b H. unfold scalar_prod. assert (G : nilc (dflt (cops Fl))) by exact Nz. revert G. generalize (dflt (cops Fl)).
  revert b H. induction a as [|x a IH]; intros [|y b] H q Q; try exact Q. cbn [combine fold_left fst snd]. apply IH.
  - destruct H as [H|H]; inversion H; auto.
  - apply (Cadd _ _ Q). apply Cmul. destruct H as [H|H]; inversion H; auto.
Qed.

Lemma conv_zero : forall m k r, zs (body m) \/ zs (body k) -> convolution (cops Fl) m k = Ret (Ok r) -> zs (body r).
Proof.
  intros m k r H E. unfold convolution in E. destruct (_ || _); [discriminate|].
  apply obind_inv in E as (a & _ & E). apply obind_inv in E as (f0 & _ & E). apply obind_inv in E as (b & _ & E). apply obind_inv in E as (f1 & _ & E).
  apply obind_inv in E as (bd & EB & E). apply obind_inv in E as (r' & ER & E). assert (r' = r) by congruence. subst r'.
  unfold to_matrix in ER. destruct (negb _); cbn [unwrap] in ER; [discriminate|]. injection ER as <-. cbn [from_body body].
  revert EB. apply zs_flat_mapM. intros i row _ ER. unfold conv_row in ER.
  apply obind_inv in ER as (sl & ES & ER). apply obind_inv in ER as (kr & EK & ER).
  revert ER. apply foldM_keep; [|apply zs_repeat]. intros acc (w, krow) acc' HI HA E0. cbn [fst snd] in E0.
  apply obind_inv in E0 as (ws & EW & E0). revert E0. apply zs_add_slice_mut; [exact HA|].
  apply Forall_forall. intros x Hx. apply in_map_iff in Hx as (sec & <- & Hsec). apply prod_zero.
  destruct H as [H|H]; [left | right].
  - unfold get_slider in ES. apply obind_inv in ES as (s & E1 & E2). apply zs_slice in E1; [|exact H]. apply zs_chunks in E2; [|exact E1].
    assert (zs w) by (apply (proj1 (Forall_forall _ _) E2); eapply in_combine_l; eauto).
    eapply (proj1 (Forall_forall _ _)); [eapply zs_windows; eassumption | exact Hsec].
  - unfold rows_as_iter in EK. apply zs_chunks in EK; [|exact H]. apply (proj1 (Forall_forall _ _) EK). eapply in_combine_r; eauto.
Qed.

Lemma pad_zero : forall m a b r, zs (body m) -> pad (cops Fl) m a b = Ret r -> zs (body r).
Proof.
  intros m a b r H E. unfold pad in E. apply obind_inv in E as (st & E1 & E). injection E as <-. cbn [from_body body].
  assert (K : zs (fst st) /\ zs (snd st)); [|tauto]. revert E1. apply (foldM_keep _ (fun st => zs (fst st) /\ zs (snd st))); [|split; [constructor | exact H]].
  intros (out, rest) i st' _ (H1 & H2) E. cbn [fst snd] in *. unfold pad_row in E. change (dflt (cops Fl)) with z in E.
  destruct (i <? a); [injection E as <-; cbn [fst snd]; split; [apply zs_app; split; [exact H1 | apply zs_repeat] | exact H2]|].
  destruct (_ <=? i); [injection E as <-; cbn [fst snd]; split; [apply zs_app; split; [exact H1 | apply zs_repeat] | exact H2]|].
  apply obind_inv in E as (d & ED & E). injection E as <-. cbn [fst snd]. apply zs_slice in ED; [|exact H2]. split; [|now apply zs_skipn].
  rewrite !zs_app. auto using zs_repeat.
Qed.

Lemma ups_zero : forall m a b k r, zs (body m) -> fractional_upsampling (cops Fl) m a b k = Ret (Ok r) -> zs (body r).
Proof.
  intros m a b k r H E. unfold fractional_upsampling in E.
  apply obind_inv in E as (rows & ER & E). apply obind_inv in E as (u & _ & E). apply obind_inv in E as (bt & _ & E).
  apply obind_inv in E as (lf & _ & E). apply obind_inv in E as (rt & _ & E). apply obind_inv in E as (st & ES & E).
  destruct (negb _); [discriminate|]. destruct (_ || _); [discriminate|]. apply obind_inv in E as (q & _ & E).
  apply obind_inv in E as (pd & EP & E). apply obind_inv in E as (o & EO & E). destruct o as [out|]; cbn [unwrap obind] in E; [|discriminate].
  assert (out = r) by congruence. subst out. revert EO. apply conv_zero. left. revert EP. apply pad_zero. cbn [from_body body].
  assert (K : zs (fst st) /\ Forall zs (snd st)); [|tauto]. revert ES.
  apply (foldM_keep _ (fun st => zs (fst st) /\ Forall zs (snd st))); [|split; [constructor | eapply zs_chunks; [exact H | exact ER]]].
  intros (out, rest) i st' _ (H1 & H2) E0. cbn [fst snd] in *. destruct rest as [|row rest]; [discriminate|]. injection E0 as <-.
  inversion H2 as [|? ? R1 R2]; subst. cbn [fst snd]. change (dflt (cops Fl)) with z. split; [|exact R2].
  assert (Z : forall i j, zs (concat (repeat (repeat z i) j))).
  { intros. apply zs_concat, Forall_forall. intros x Hx. apply repeat_spec in Hx. subst. apply zs_repeat. }
  rewrite !zs_app. repeat split; auto. rewrite flat_map_concat_map. apply zs_concat, Forall_forall. intros x Hx.
  apply in_map_iff in Hx as (e & <- & He). rewrite zs_app. split; [exact (zs_repeat _)|]. constructor; [|exact (zs_repeat _)]. apply (proj1 (Forall_forall _ _) R1 _ He).
Qed.

Lemma local_zero : forall p f q d r, zs d -> local_d Fl p f q d = Ret r -> zs r.
Proof.
  intros p f q d r H. unfold local_d. apply zs_mapM. intros (x, y) w HI E. cbn [fst snd] in E. apply obind_inv in E as (v & _ & E).
  apply in_combine_r in HI. apply (proj1 (Forall_forall _ _) H) in HI. injection E as <-. apply Cmul. now right.
Qed.
Lemma local_conj_zero : forall p f q d r, zs d -> local_d_conj Fl p f q d = Ret r -> zs r.
Proof.
  intros p f q d r H. unfold local_d_conj. apply zs_mapM. intros (x, y) w HI E. cbn [fst snd] in E. apply obind_inv in E as (v & _ & E).
  apply in_combine_r in HI. apply (proj1 (Forall_forall _ _) H) in HI. injection E as <-. apply Cmul. now right.
Qed.

Lemma conj_zs : forall l, zs l -> zs (map (c_conj Fl) l).
Proof. intros l H. induction H as [|x l X H IH]; constructor; auto. Qed.

Lemma dense_zero : forall p l x g gc dw db h hc, zs g -> zs gc -> dense_derivatives Fl p l x g gc = Ret (Ok (dw, db, h, hc)) -> zs dw /\ zs db /\ zs h /\ zs hc.
Proof.
  intros p l x g gc dw db h hc Hg Hc E. unfold dense_derivatives in E. destruct (negb _); [discriminate|]. destruct (negb _); [discriminate|].
  destruct x as [x|]; [|discriminate]. apply obind_inv in E as (q & _ & E). apply obind_inv in E as (a & EA & E). apply obind_inv in E as (b & EB & E).
  apply obind_inv in E as (rows & _ & E). apply obind_inv in E as (((w & c) & d) & EF & E).
  apply local_zero in EA; [|exact Hg]. apply local_conj_zero in EB; [|exact Hc].
  assert (K : zs (fst (fst (w, c, d))) /\ zs (snd (fst (w, c, d))) /\ zs (snd (w, c, d))).
  { revert EF. apply (foldM_keep _ (fun st => zs (fst (fst st)) /\ zs (snd (fst st)) /\ zs (snd st))).
    - intros ((s1, s2), s3) ((v, vc), row) s' HI (H1 & H2 & H3) E0. cbn [fst snd] in *. apply obind_inv in E0 as (nd & E1 & E0).
      injection E0 as <-. cbn [fst snd]. apply in_combine_l in HI. pose proof (in_combine_l _ _ _ _ HI) as I1. pose proof (in_combine_r _ _ _ _ HI) as I2.
      apply (proj1 (Forall_forall _ _) EA) in I1. apply (proj1 (Forall_forall _ _) EB) in I2.
      assert (Z : forall y : list C, zs (map (fun e => c_mul Fl e (c_add Fl v vc)) y)).
      { intros y. induction y as [|e y IH]; constructor; auto. }
      split; [apply zs_app; auto|]. split; [apply zs_app; split; [exact H2 | constructor; [|constructor]]; now apply Cadd|].
      eapply zs_add_slice_mut; [exact H3 | | exact E1]. apply Z.
    - cbn [fst snd]. split; [constructor|]. split; [constructor | apply zs_repeat]. }
  cbn [fst snd] in K. injection E as <- <- <- <-. destruct K as (K1 & K2 & K3). auto using conj_zs.
Qed.

Lemma reduce_zero : forall l r, zs l -> reduce (c_add Fl) l = Some r -> nilc r.
Proof.
  intros l r H E. destruct H as [|x l X H]; [discriminate|]. cbn [reduce] in E. assert (E' : fold_left (c_add Fl) l x = r) by congruence. clear E. subst r.
  revert x X. induction H as [|y l Y H IH]; intros x X; [exact X|]. cbn [fold_left]. apply IH. now apply Cadd.
Qed.

Lemma convl_zero : forall p l x g gc dw db h hc, zs g -> zs gc -> conv_derivatives Fl p l x g gc = Ret (Ok (dw, db, h, hc)) -> zs dw /\ zs db /\ zs h /\ zs hc.
Proof.
  intros p l x g gc dw db h hc Hg Hc E. unfold conv_derivatives in E. destruct x as [|input]; [discriminate|].
  apply obind_inv in E as (m & _ & E). apply obind_inv in E as (rk & _ & E). destruct rk as [k|]; cbn [unwrap obind] in E; [|discriminate].
  apply obind_inv in E as (px & _ & E). apply obind_inv in E as (py & _ & E). apply obind_inv in E as (o0 & _ & E). apply obind_inv in E as (o1 & _ & E).
  apply obind_inv in E as (q & _ & E). apply obind_inv in E as (a & EA & E). apply obind_inv in E as (b & EB & E). apply obind_inv in E as (osz & _ & E).
  apply obind_inv in E as (fs & _ & E). apply obind_inv in E as (st & EF & E).
  apply local_zero in EA; [|exact Hg]. apply local_conj_zero in EB; [|exact Hc].
  assert (K : zs (cb_a Fl st) /\ zs (cb_b Fl st) /\ zs (cb_dldk Fl st) /\ zs (cb_dldb Fl st) /\ zs (cb_dlda Fl st) /\ zs (cb_dldac Fl st)).
  { revert EF. apply (foldM_keep _ (fun st => zs (cb_a Fl st) /\ zs (cb_b Fl st) /\ zs (cb_dldk Fl st) /\ zs (cb_dldb Fl st) /\ zs (cb_dlda Fl st) /\ zs (cb_dldac Fl st))).
    2: { cbn. repeat split; auto; try constructor; apply zs_repeat. }
    intros s flt s' _ (H1 & H2 & H3 & H4 & H5 & H6) E0. unfold conv_filter_step in E0.
    apply obind_inv in E0 as (ba & E1 & E0). apply obind_inv in E0 as (bb & E2 & E0). apply zs_slice in E1; [|exact H1]. apply zs_slice in E2; [|exact H2].
    cbv zeta in E0. apply obind_inv in E0 as ((dk & dbl) & EOA & E0). apply obind_inv in E0 as ((na & nb) & EOB & E0).
    apply obind_inv in E0 as (db1 & E3 & E0). apply obind_inv in E0 as (nd & E4 & E0). apply obind_inv in E0 as (ndc & E5 & E0). injection E0 as <-. cbn.
    assert (OA : zs dk /\ zs dbl).
    { unfold conv_oper_a in EOA. apply obind_inv in EOA as (dk' & F1 & EOA). apply obind_inv in EOA as (dbl' & F2 & EOA). injection EOA as <- <-. split.
      - revert F1. apply zs_flat_mapM. intros ft y _ G. apply obind_inv in G as (r1 & G1 & G). destruct r1 as [t1|]; cbn [unwrap obind] in G; [|discriminate].
        apply obind_inv in G as (r2 & G2 & G). destruct r2 as [t2|]; cbn [unwrap obind] in G; [|discriminate]. apply obind_inv in G as (t & G3 & G). injection G as <-.
        apply conv_zero in G1; [|right; exact E1]. apply conv_zero in G2; [|right; exact E2].
        unfold add_mut in G3. destruct (_ && _); [discriminate|]. destruct (m_is_empty t1); [injection G3 as <-; exact G2|].
        destruct (m_is_empty t2); [injection G3 as <-; exact G1|]. injection G3 as <-. cbn [with_body body]. now apply zs_zip.
      - unfold add_slice in F2. cbn [from_body body] in F2. destruct (length ba =? 0); [injection F2 as <-; exact E2|]. destruct (negb _); cbn [unwrap] in F2; [discriminate|]. injection F2 as <-.
        apply Forall_forall. intros y Hy. apply in_map_iff in Hy as ((u, v) & <- & HI). pose proof (in_combine_l _ _ _ _ HI) as I1. pose proof (in_combine_r _ _ _ _ HI) as I2.
        apply (proj1 (Forall_forall _ _) E1) in I1. apply (proj1 (Forall_forall _ _) E2) in I2. cbn [fst snd]. exact (Cadd _ _ I1 I2). }
    assert (OB : zs na /\ zs nb).
    { unfold conv_oper_b in EOB. apply obind_inv in EOB as (fl & _ & EOB). apply obind_inv in EOB as (pa & F1 & EOB). apply obind_inv in EOB as (pb & F2 & EOB).
      apply obind_inv in EOB as (na' & F3 & EOB). apply obind_inv in EOB as (nb' & F4 & EOB). injection EOB as <- <-.
      apply pad_zero in F1; [|exact E1]. apply pad_zero in F2; [|exact E2]. split.
      - revert F3. apply zs_flat_mapM. intros ft y _ G. apply obind_inv in G as (r1 & G1 & G). destruct r1 as [t1|]; cbn [unwrap obind] in G; [|discriminate].
        injection G as <-. apply conv_zero in G1; auto.
      - revert F4. apply zs_flat_mapM. intros ft y _ G. apply obind_inv in G as (r1 & G1 & G). destruct r1 as [t1|]; cbn [unwrap obind] in G; [|discriminate].
        injection G as <-. apply conv_zero in G1; auto. }
    destruct OA as (OA1 & OA2), OB as (OB1 & OB2).
    split; [now apply zs_skipn|]. split; [now apply zs_skipn|]. split; [now apply zs_app|]. split.
    - apply zs_app. split; [exact H4|]. constructor; [|constructor]. destruct (reduce (c_add Fl) dbl) as [v|] eqn:ER; cbn [unwrap_opt] in E3; [|discriminate].
      injection E3 as <-. now apply (reduce_zero dbl).
    - split; [exact (zs_add_slice_mut _ _ _ H5 OB1 E4) | exact (zs_add_slice_mut _ _ _ H6 OB2 E5)]. }
  destruct K as (_ & _ & K). injection E as <- <- <- <-. exact K.
Qed.

Lemma red_zero : forall l x g gc dw db h hc, zs g -> zs gc -> red_derivatives Fl l x g gc = Ret (Ok (dw, db, h, hc)) -> zs dw /\ zs db /\ zs h /\ zs hc.
Proof.
  intros l x g gc dw db h hc Hg Hc E. unfold red_derivatives in E. destruct x as [|fs]; [discriminate|].
  apply obind_inv in E as (ch & _ & E). apply obind_inv in E as (ca & EA & E). apply obind_inv in E as (cb & EB & E).
  apply obind_inv in E as ((((c1 & c2) & na) & nb) & EF & E). injection E as <- <- <- <-.
  apply zs_chunks in EA; [|exact Hg]. apply zs_chunks in EB; [|exact Hc].
  assert (K : Forall zs c1 /\ Forall zs c2 /\ zs na /\ zs nb); [|destruct K as (_ & _ & K1 & K2); repeat split; auto; constructor].
  pose (I := fun st : list (list C) * list (list C) * list C * list C => Forall zs (fst (fst (fst st))) /\ Forall zs (snd (fst (fst st))) /\ zs (snd (fst st)) /\ zs (snd st)).
  change (I (c1, c2, na, nb)). revert EF. apply foldM_keep; [|unfold I; cbn; repeat split; auto; constructor].
  intros (((ca0, cb0), na0), nb0) ft s' _ (H1 & H2 & H3 & H4) E. cbn [fst snd] in *. unfold red_step in E.
  apply obind_inv in E as (f0 & _ & E). apply obind_inv in E as (f1 & _ & E). destruct ca0 as [|a ca1]; [discriminate|].
  apply obind_inv in E as (ma & E1 & E). apply obind_inv in E as (ua & E2 & E). destruct ua as [ua|]; cbn [unwrap obind] in E; [|discriminate].
  destruct cb0 as [|b cb1]; [discriminate|]. apply obind_inv in E as (mb & E3 & E). apply obind_inv in E as (ub & E4 & E). destruct ub as [ub|]; cbn [unwrap obind] in E; [|discriminate].
  injection E as <-. inversion H1; inversion H2; subst. unfold I. cbn [fst snd].
  assert (TM : forall l m, unwrap (to_matrix l f0 f1) = Ret m -> zs l -> zs (body m)).
  { intros l1 m E Z. unfold to_matrix in E. destruct (negb _); cbn [unwrap] in E; [discriminate|]. injection E as <-. exact Z. }
  apply TM in E1; [|assumption]. apply TM in E3; [|assumption]. apply ups_zero in E2; [|assumption]. apply ups_zero in E4; [|assumption].
  repeat split; auto; apply zs_app; auto.
Qed.

Lemma bp_zero : forall p xs g gc ws bs h hc, zs g -> zs gc -> bp Fl p xs g gc = Ret (ws, bs, h, hc) -> Forall zs ws /\ Forall zs bs /\ zs h /\ zs hc.
Proof.
  induction xs as [|[x l] xs IH]; intros g gc ws bs h hc Hg Hc E; cbn [bp] in E.
  - injection E as <- <- <- <-. auto.
  - apply obind_inv in E as ((((ws0 & bs0) & h0) & hc0) & E0 & E). destruct (IH _ _ _ _ _ _ Hg Hc E0) as (I1 & I2 & I3 & I4).
    destruct (layer_propagates Fl l).
    + apply obind_inv in E as (r & E1 & E). destruct r as [d|e]; cbn [unwrap obind] in E; [|discriminate].
      destruct d as (((dw & db) & h1) & hc1). injection E as <- <- <- <-.
      assert (K : zs dw /\ zs db /\ zs h1 /\ zs hc1).
      { destruct l as [l|l|l|l]; cbn [layer_derivatives] in E1; [exact (dense_zero _ _ _ _ _ _ _ _ _ I3 I4 E1) | exact (convl_zero _ _ _ _ _ _ _ _ _ I3 I4 E1)
          | exact (red_zero _ _ _ _ _ _ _ _ I3 I4 E1) | discriminate]. }
      destruct K as (K1 & K2 & K3 & K4). auto.
    + injection E as <- <- <- <-. repeat split; auto; constructor; auto; constructor.
Qed.

(** ** A batch, and a step *)
Section Step.
Context (p : prec).

Lemma addv_zs : forall W ws W', addv Fl W ws = Ret W' -> Forall zs W -> Forall zs ws -> Forall zs W'.
Proof.
  induction W as [|w W IH]; intros ws W' E HW HS; cbn [addv] in E.
  - destruct ws; injection E as <-; auto.
  - destruct ws as [|d ws]; [injection E as <-; auto|]. apply obind_inv in E as (y & E1 & E). apply obind_inv in E as (r & E2 & E). injection E as <-.
    inversion HW; inversion HS; subst. constructor; [eapply zs_add_slice_mut; [| |exact E1]; assumption | eapply IH; eassumption].
Qed.

Lemma batch_zs : forall n f its W B W' B', slots Fl n W -> slots Fl n B ->
  (forall it ws bs, In it its -> pgrad Fl p n f it = Ret (ws, bs) -> Forall zs ws /\ Forall zs bs) ->
  Forall zs W -> Forall zs B -> foldM (point_step Fl p n f) its (W, B) = Ret (W', B') -> Forall zs W' /\ Forall zs B'.
Proof.
  intros n f. induction its as [|it its IH]; intros W B W' B' SW SB Q ZW ZB E; cbn [foldM] in E; [injection E as <- <-; auto|].
  apply obind_inv in E as ((W2 & B2) & E1 & E). destruct (point_step_lengths Fl p _ _ _ _ _ _ _ SW SB E1) as (L1 & L2).
  rewrite point_step_eq in E1 by auto. apply obind_inv in E1 as ((ws & bs) & P & E1).
  apply obind_inv in E1 as (W3 & A1 & E1). apply obind_inv in E1 as (B3 & A2 & E1). injection E1 as -> ->.
  destruct (Q it ws bs (or_introl eq_refl) P) as (Q1 & Q2).
  apply (IH W2 B2 W' B'); auto; try (eapply slots_lengths; eauto); [intros; eapply Q; eauto; now right | |]; eapply addv_zs; eassumption.
Qed.

Lemma zs_gflat : forall W B, Forall zs W -> Forall zs B -> zs (gflat Fl W B).
Proof.
  intros W B HW. revert B. induction HW as [|w W Z HW IH]; intros B HB; [constructor|]. destruct HB as [|b B Zb HB]; [constructor|].
  unfold gflat. cbn [combine map concat fst snd]. rewrite !zs_app. split; [auto | apply IH; exact HB].
Qed.

Lemma kept_zip : forall s v g, length g = length v -> zs (map (fun e => c_mul_assign Fl e s) g) -> Forall2 keptc v (zip_assign (sub_conj Fl) v (map (fun e => c_mul_assign Fl e s) g)).
Proof.
  intros s v. induction v as [|a v IH]; intros [|e g] L H; try discriminate; [constructor|]. cbn [map zip_assign] in *. inversion H; subst. cbn [length] in L.
  constructor; [apply (kept_sub_conj Fl nilr kept Nneg Ksub); assumption | apply IH; [lia | assumption]].
Qed.

(** What a step does when the scaled gradient is nil. *)
Lemma still_step : forall n data f lr n' r, Forall (layer_full Fl) n ->
  (forall W B s, net_gradient Fl p n data f = Ret (W, B) -> c_div Fl lr (c_of_nat Fl (length (ds_inputs data))) = Ret s -> zs (map (fun e => c_mul_assign Fl e s) (gflat Fl W B))) ->
  net_gradient_opt Fl p n data f lr = Ret (n', Ok r) -> map (arch_of Fl) n' = map (arch_of Fl) n /\ Forall2 keptc (net_values Fl n) (net_values Fl n').
Proof.
  intros n data f lr n' r FU H E. unfold net_gradient_opt in E. destruct (length n <=? 1); [discriminate|].
  apply obind_inv in E as ((W & B) & EG & E). apply obind_inv in E as (s & ES & E). apply obind_inv in E as (m & EM & E).
  assert (m = n') by congruence. subst m. cbn [fst snd] in EM.
  destruct (gradient_lengths Fl p n data f W B EG) as (L1 & L2). destruct (GradFacts2.grad_zero_sizes Fl n FU) as (Z1 & Z2). rewrite Z1 in L1. rewrite Z2 in L2.
  destruct (update_all Fl s n W B FU L1 L2) as (n1 & U1 & U2 & U3 & U4). assert (n1 = n') by congruence. subst n1. split; [exact U2|]. rewrite U3.
  apply kept_zip; [exact U4 | apply (H W B s EG ES)].
Qed.

(** A nil rate. *)
Lemma still_rate : forall n data f lr n' r, Forall (layer_full Fl) n ->
  (forall s, c_div Fl lr (c_of_nat Fl (length (ds_inputs data))) = Ret s -> nilc s) ->
  net_gradient_opt Fl p n data f lr = Ret (n', Ok r) -> map (arch_of Fl) n' = map (arch_of Fl) n /\ Forall2 keptc (net_values Fl n) (net_values Fl n').
Proof.
  intros n data f lr n' r FU H E. apply (still_step n data f lr n' r FU); [|exact E]. intros W B s _ ES. specialize (H s ES). destruct H as (H1 & H2).
  apply Forall_forall. intros e He. apply in_map_iff in He as (g & <- & _). unfold c_mul_assign. cbn [re im]. split; cbn [re im]; [apply Nsub | apply Nadd]; apply Nmul; auto.
Qed.

(** Predictions that are the targets. *)
Context (Nself : forall x, nilr (fsub Fl x x)).
Lemma dloss_self : forall f (v : list C), zs (release_dloss Fl f v v).
Proof.
  intros f v. assert (G : forall a : C, nilc (c_conj Fl (c_sub Fl a a))) by (intros a; apply Cconj; split; apply Nself).
  destruct f; cbn [release_dloss]; apply Forall_forall; intros e He; apply in_map_iff in He as ((a, b) & <- & Hab);
    (assert (a = b) by (clear - Hab; induction v as [|c v IH]; [destruct Hab | destruct Hab as [Hab|Hab]; [congruence | auto]])); subst b; apply G.
Qed.

Lemma solved_point : forall n f x t y ws bs, n <> [] -> net_forward Fl p n x = Ret (Ok y) -> vals t = vals y ->
  pgrad Fl p n f (x, t) = Ret (ws, bs) -> Forall zs ws /\ Forall zs bs.
Proof.
  intros n f x t y ws bs NE FY TY PG. unfold pgrad in PG. cbn [fst snd] in PG.
  destruct (C50_agree Fl p n x NE) as [(vs & _ & LV & CA & FW & _)|(_ & _ & FW)]; [|congruence].
  rewrite CA in PG. cbn [unwrap obind] in PG.
  assert (LAST : last vs x = y).
  { assert (Y : nth (length n) vs x = y) by congruence. rewrite <- Y. assert (H0 : vs <> []) by (intros ->; cbn in LV; lia).
    destruct (exists_last H0) as (a & b & ->). rewrite last_last. rewrite app_length in LV. cbn [length] in LV.
    rewrite app_nth2 by lia. replace (length n - length a) with 0 by lia. reflexivity. }
  rewrite LAST in PG. apply obind_inv in PG as (dl & ED & PG). apply obind_inv in PG as ((((ws' & bs') & h) & hc) & EB & PG).
  assert (ws' = ws) by congruence. assert (bs' = bs) by congruence. subst ws' bs'.
  assert (ZD : zs dl).
  { destruct t as [t|t], y as [y|y]; cbn [d_loss unwrap vals] in ED, TY; try discriminate; injection ED as <-; try (rewrite TY; apply dloss_self).
    unfold map_values in TY. rewrite !flat_map_concat_map. match goal with |- zs (release_dloss _ _ ?a ?b) => replace a with b by (symmetry; exact TY) end. apply dloss_self. }
  destruct (bp_zero _ _ _ _ _ _ _ _ ZD (conj_zs _ ZD) EB) as (K1 & K2 & _). auto.
Qed.

Lemma still_solved : forall n data f lr n' r, Forall (layer_full Fl) n ->
  (forall x t, In (x, t) (combine (ds_inputs data) (ds_target data)) -> exists y, net_forward Fl p n x = Ret (Ok y) /\ vals t = vals y) ->
  net_gradient_opt Fl p n data f lr = Ret (n', Ok r) -> map (arch_of Fl) n' = map (arch_of Fl) n /\ Forall2 keptc (net_values Fl n) (net_values Fl n').
Proof.
  intros n data f lr n' r FU H E. assert (NE : n <> []) by (intros ->; discriminate). apply (still_step n data f lr n' r FU); [|exact E]. intros W B s EG _.
  unfold net_gradient, ds_points_iter in EG. destruct (grad_zero_slots Fl n) as (S1 & S2). rewrite (surjective_pairing (grad_zero Fl n)) in EG.
  assert (Z : forall (g : clayer Fl -> nat) m, Forall zs (map (fun l => if layer_propagates Fl l then repeat z (g l) else []) m)).
  { intros g m. apply Forall_forall. intros q Hq. apply in_map_iff in Hq as (l & <- & _). destruct (layer_propagates Fl l); [apply zs_repeat | constructor]. }
  assert (ZZ : Forall zs W /\ Forall zs B); [eapply batch_zs; [exact S1 | exact S2 | | | | exact EG]|].
  - intros (x, t) ws bs I P. destruct (H x t I) as (y & FY & TY). exact (solved_point n f x t y ws bs NE FY TY P).
  - apply Z.
  - apply Z.
  - destruct ZZ as (Z1 & Z2). apply Forall_forall. intros e He. apply in_map_iff in He as (g & <- & Hg). apply (nilc_mul_assign Fl nilr Nadd Nsub Nmul). apply (proj1 (Forall_forall _ _) (zs_gflat W B Z1 Z2)). exact Hg.
Qed.
End Step.
End Still.
