(** * Facts about NaN in dense networks *)
From Coq Require Import ZArith.
From Flocq Require Import Core BinarySingleNaN.
From Verif Require Import Base BaseFacts Float Matrix Cplx Random Act Input Loss Dense Conv Layer Dataset Network SpecMatrix MatrixFacts
  SpecLayer SpecConv SpecNet DenseFacts LayerFacts NetFacts TrainFacts TrainDense PropAct PropDense PropLoss BFloat SpecNan.
Local Open Scope nat_scope.
Local Notation re := Cplx.re. Local Notation im := Cplx.im.

Lemma update_dense_inv : forall (Fl : FloatOps) (s : cplx (F Fl)) dw db (l l' : dense Fl), update_layer Fl s (dw, db, LDense l) = Ret (LDense l') ->
  length dw = length (body (d_weights l)) /\ length db = length (d_biases l) /\
  body (d_weights l') = zip_assign (sub_conj Fl) (body (d_weights l)) (map (fun e => c_mul_assign Fl e s) dw) /\
  d_biases l' = zip_assign (sub_conj Fl) (d_biases l) (map (fun e => c_mul_assign Fl e s) db).
Proof.
  intros Fl s dw db l l' E1. unfold update_layer in E1. cbn [layer_propagates dense_propagates layer_adjust obind] in E1.
  unfold dense_adjust, slice_mul_mut_scalar in E1. rewrite !map_length in E1.
  destruct (Nat.eqb_spec (length db) (length (d_biases l))) as [Q1|Q1]; cbn in E1; [|discriminate].
  destruct (Nat.eqb_spec (length dw) (length (body (d_weights l)))) as [Q2|Q2]; cbn in E1; [|discriminate].
  injection E1 as <-. cbn. auto.
Qed.

Lemma zip_keep : forall {A D} (K : A -> A -> Prop) (op : A -> D -> A) l d, (forall a, K a a) -> (forall a b, K a (op a b)) -> Forall2 K l (zip_assign op l d).
Proof.
  intros A D K op l d R H. revert d. induction l as [|a l IH]; intros d; [destruct d; constructor|].
  destruct d as [|b d]; cbn [zip_assign]; constructor; auto. clear IH. induction l; constructor; auto.
Qed.

(** Whatever a successful update does to a parameter, a training history does. *)
Lemma update_keep : forall Fl (K : cplx (F Fl) -> cplx (F Fl) -> Prop) s (l l' : clayer Fl) g, (forall a, K a a) -> (forall a b, K a (sub_conj Fl a b)) ->
  update_layer Fl s (g, l) = Ret l' ->
  Forall2 K (fst (layer_values Fl l) ++ snd (layer_values Fl l)) (fst (layer_values Fl l') ++ snd (layer_values Fl l')).
Proof.
  intros Fl K s l l' (dw & db) R H E. unfold update_layer in E.
  destruct l as [l|l|l|l]; cbn [layer_propagates dense_propagates conv_propagates red_propagates flat_propagates layer_adjust] in E.
  - unfold dense_adjust in E. destruct (negb _); cbn in E; [discriminate|]. destruct (negb _); cbn in E; [discriminate|].
    injection E as <-. cbn. apply Forall2_app; apply zip_keep; auto.
  - unfold conv_adjust in E. destruct (conv_params_len Fl l) as (nw & nb). destruct (negb _); cbn in E; [discriminate|]. destruct (negb _); cbn in E; [discriminate|].
    injection E as <-. cbn [layer_values fst snd k_biases]. unfold kernel_values. cbn [k_kernels with_body body]. apply Forall2_app; [|apply zip_keep; auto].
    generalize (slice_mul_mut_scalar (cops Fl) dw s). induction (body (k_kernels l)) as [|k ks IH]; intros d; cbn [adjust_kernels flat_map map concat]; [constructor|].
    apply Forall2_app; [apply zip_keep; auto | apply IH].
  - injection E as <-. constructor.
  - injection E as <-. constructor.
Qed.

Lemma trained_keep : forall Fl p (K : cplx (F Fl) -> cplx (F Fl) -> Prop) n n', (forall a, K a a) -> (forall a b, K a (sub_conj Fl a b)) ->
  (forall a b c, K a b -> K b c -> K a c) -> trained Fl p n n' -> Forall2 K (net_values Fl n) (net_values Fl n').
Proof.
  intros Fl p K n n' R H T E. induction E as [n|n n' n'' data f lr E IH E1].
  - induction (net_values Fl n); constructor; auto.
  - assert (S1 : Forall2 K (net_values Fl n') (net_values Fl n'')).
    { unfold net_gradient_opt in E1. destruct (length n' <=? 1); [discriminate|].
      apply obind_inv in E1 as ((W & B) & EG & E1). apply obind_inv in E1 as (s & _ & E1). apply obind_inv in E1 as (m & EM & E1).
      assert (m = n'') by congruence. subst m. clear E1. cbn [fst snd] in EM.
      destruct (gradient_lengths Fl p n' data f W B EG) as (L1 & L2). destruct (grad_zero_length Fl n') as (L3 & L4).
      apply (f_equal (@length nat)) in L1. apply (f_equal (@length nat)) in L2. rewrite !map_length in L1, L2. rewrite L3 in L1. rewrite L4 in L2.
      clear - EM L1 L2 R H. revert W B n'' L1 L2 EM. induction n' as [|l n' IH]; intros [|w W] [|b B] n'' L1 L2 EM; try discriminate.
      - cbn in EM. assert (n'' = []) as -> by congruence. constructor.
      - cbn [combine mapM] in EM. apply obind_inv in EM as (l' & E1 & EM). apply obind_inv in EM as (r & E2 & EM).
        assert (l' :: r = n'') by congruence. subst n''. cbn [length] in L1, L2. unfold net_values in *. cbn [map concat].
        apply Forall2_app; [eapply update_keep; eauto | apply (IH W B r); [lia | lia | exact E2]]. }
    clear - IH S1 T. revert S1. generalize (net_values Fl n''). induction IH as [|a b la lb Hab _ IHl]; intros lc Hc; inversion Hc; subst; constructor; eauto.
Qed.

Section NanFacts.
Context (prec emax : Z) (Hp : Prec_gt_0 prec) (He : Prec_lt_emax prec emax) (L : libm (binary_float prec emax)) (p : Float.prec).
Local Notation B := (binary_float prec emax).
Local Notation Fl := (BOps prec emax Hp He L).
Local Notation C := (cplx B).
Local Notation z0 := (c_default Fl).

Lemma nan_plus : forall x y : B, is_nan x = true \/ is_nan y = true -> is_nan (Bplus mode_NE x y) = true.
Proof. intros x y [H|H]; [destruct x; try discriminate; destruct y; reflexivity | destruct y; try discriminate; destruct x; reflexivity]. Qed.
Lemma nan_minus : forall x y : B, is_nan x = true \/ is_nan y = true -> is_nan (Bminus mode_NE x y) = true.
Proof. intros x y [H|H]; [destruct x; try discriminate; destruct y; reflexivity | destruct y; try discriminate; destruct x; reflexivity]. Qed.
Lemma nan_mult : forall x y : B, is_nan x = true \/ is_nan y = true -> is_nan (Bmult mode_NE x y) = true.
Proof. intros x y [H|H]; [destruct x; try discriminate; destruct y; reflexivity | destruct y; try discriminate; destruct x; reflexivity]. Qed.
Lemma nan_div : forall x y : B, is_nan x = true \/ is_nan y = true -> is_nan (Bdiv mode_NE x y) = true.
Proof. intros x y [H|H]; [destruct x; try discriminate; destruct y; reflexivity | destruct y; try discriminate; destruct x; reflexivity]. Qed.
Lemma nan_opp : forall x : B, is_nan x = true -> is_nan (Bopp x) = true.
Proof. intros x H. destruct x; try discriminate; reflexivity. Qed.
Lemma nan_sqrt : forall x : B, is_nan x = true -> is_nan (Bsqrt mode_NE x) = true.
Proof. intros x H. destruct x; try discriminate; reflexivity. Qed.
Lemma nan_le_l : forall x y : B, is_nan x = true -> Bleb x y = false.
Proof. intros x y H. destruct x; try discriminate; destruct y; reflexivity. Qed.
Lemma nan_le_r : forall x y : B, is_nan y = true -> Bleb x y = false.
Proof. intros x y H. destruct y; try discriminate; destruct x; reflexivity. Qed.
Lemma nan_lt_r : forall x y : B, is_nan y = true -> Bltb x y = false.
Proof. intros x y H. destruct y; try discriminate; destruct x; reflexivity. Qed.

Lemma ruined_tainted : forall z : C, ruined z -> tainted z.
Proof. intros z (H & _). now left. Qed.

Lemma mul_taint : forall a b : C, tainted a \/ tainted b -> ruined (c_mul Fl a b).
Proof.
  intros a b H. unfold c_mul. split; cbn [re im fadd fsub fmul BOps].
  - apply nan_minus. destruct H as [[H|H]|[H|H]]; [left | right | left | right]; apply nan_mult; auto.
  - apply nan_plus. destruct H as [[H|H]|[H|H]]; [left | right | right | left]; apply nan_mult; auto.
Qed.

Lemma add_ruin : forall a b : C, ruined a \/ ruined b -> ruined (c_add Fl a b).
Proof. intros a b H. split; apply nan_plus; destruct H as [(H1 & H2)|(H1 & H2)]; auto. Qed.
Lemma add_taint : forall a b : C, tainted a \/ tainted b -> tainted (c_add Fl a b).
Proof. intros a b [[H|H]|[H|H]]; [left|right|left|right]; apply nan_plus; auto. Qed.
Lemma sub_ruin : forall a b : C, ruined a \/ ruined b -> ruined (c_sub Fl a b).
Proof. intros a b H. split; apply nan_minus; destruct H as [(H1 & H2)|(H1 & H2)]; auto. Qed.
Lemma sub_taint : forall a b : C, tainted a \/ tainted b -> tainted (c_sub Fl a b).
Proof. intros a b [[H|H]|[H|H]]; [left|right|left|right]; apply nan_minus; auto. Qed.
Lemma conj_ruin : forall a : C, ruined a -> ruined (c_conj Fl a).
Proof. intros a (H1 & H2). split; [exact H1 | apply nan_opp, H2]. Qed.
Lemma conj_taint : forall a : C, tainted a -> tainted (c_conj Fl a).
Proof. intros a [H|H]; [left; exact H | right; apply nan_opp, H]. Qed.
Lemma mul_assign_ruin : forall a s : C, ruined a -> ruined (c_mul_assign Fl a s).
Proof.
  intros a s (H1 & H2). unfold c_mul_assign.
  assert (X : is_nan (Bminus mode_NE (Bmult mode_NE (re a) (re s)) (Bmult mode_NE (im a) (im s))) = true) by (apply nan_minus; left; apply nan_mult; auto).
  split; cbn [re im fadd fsub fmul BOps]; [exact X|]. apply nan_plus. right. apply nan_mult; auto.
Qed.
Lemma sub_conj_ruin : forall w d : C, ruined d -> ruined (sub_conj Fl w d).
Proof. intros w d H. apply conj_ruin in H. destruct H as (H1 & H2). split; apply nan_minus; auto. Qed.

Lemma sum_ruin : forall (f : nat -> C) n k, k < n -> ruined (f k) -> ruined (sum_from (c_add Fl) z0 f n).
Proof.
  intros f n k. unfold sum_from. induction n as [|n IH]; intros Hk R; [lia|].
  rewrite seq_S, fold_left_app. cbn [fold_left]. apply add_ruin. destruct (Nat.eq_dec k n) as [->|]; [right; exact R | left; apply IH; [lia | exact R]].
Qed.

(** ** Activations *)
Context (HL : nan_in_nan_out L).

Lemma sigmoid_nan : forall x : B, is_nan x = true -> is_nan (sigmoid Fl p x) = true.
Proof.
  intros x H. unfold sigmoid. cbn [fleb BOps]. rewrite nan_le_r by exact H. rewrite nan_le_l by exact H.
  cbn [fdiv fexp BOps]. apply nan_div. left. apply HL, H.
Qed.

Lemma card_nan : forall z : C, tainted z -> ruined (card Fl p z).
Proof.
  intros z H. assert (P : is_nan (c_phase Fl p z) = true).
  { unfold c_phase. destruct p; cbn [fatan2 fatan fdiv BOps].
    - apply HL. destruct H; auto.
    - apply HL, nan_div. destruct H; auto. }
  unfold card. assert (Q : is_nan (l_cos L (c_phase Fl p z)) = true) by (apply HL, P). assert (Q' : is_nan (l_sin L (c_phase Fl p z)) = true) by (apply HL, P).
  split; cbn [re im fmul fadd fcos fsin BOps]; apply nan_mult; auto.
Qed.

Lemma act_taint : forall f (z y : C), smooth_act f -> activate Fl p f z = Ret y -> (tainted z -> tainted y) /\ (ruined z -> ruined y).
Proof.
  intros f z y S E. destruct S as [-> | [-> | [-> | ->]]]; cbn [activate] in E; injection E as <-.
  - auto.
  - split; [intros [H|H]; [left|right]; apply sigmoid_nan; exact H | intros (H1 & H2); split; apply sigmoid_nan; assumption].
  - split; [intros [H|H]; [left|right]; apply HL; exact H | intros (H1 & H2); split; apply HL; assumption].
  - split; intros H; [apply ruined_tainted|]; apply card_nan; [exact H | apply ruined_tainted, H].
Qed.

(** ** One dense layer, forward *)
Definition nanlayer (l : dense Fl) : Prop := Exists tainted (body (d_weights l) ++ d_biases l).

Lemma Exists_nth : forall (P : C -> Prop) (l : list C), Exists P l <-> exists i, i < length l /\ P (nth i l z0).
Proof.
  intros P l. rewrite Exists_exists. split.
  - intros (x & Hx & Px). apply In_nth with (d := z0) in Hx as (i & Hi & E). exists i. split; [exact Hi | rewrite E; exact Px].
  - intros (i & Hi & Px). exists (nth i l z0). split; [apply nth_In, Hi | exact Px].
Qed.

Lemma pre_input : forall l (x : list C) i, length x = inputs Fl l -> Exists tainted x -> ruined (pre Fl l x i).
Proof.
  intros l x i X H. apply Exists_nth in H as (j & Hj & T). unfold pre. apply add_ruin. left.
  apply (sum_ruin _ _ j); [congruence|]. apply mul_taint. right. exact T.
Qed.

Lemma pre_param : forall l (x : list C), dense_wf Fl l -> nanlayer l -> exists i, i < units Fl l /\ tainted (pre Fl l x i).
Proof.
  intros l x (W & LB & N) H. apply Exists_app in H as [H|H]; apply Exists_nth in H as (k & Hk & T).
  - assert (Hk' : k < sh0 (d_weights l) * sh1 (d_weights l)) by (rewrite <- W; exact Hk). clear Hk. exists (k / inputs Fl l). split.
    { apply Nat.div_lt_upper_bound; [exact N|]. unfold inputs, units. rewrite Nat.mul_comm. exact Hk'. }
    apply ruined_tainted. unfold pre. apply add_ruin. left. apply (sum_ruin _ _ (k mod inputs Fl l)); [apply Nat.mod_upper_bound; exact N|].
    apply mul_taint. left. unfold weight, entry. replace (k / inputs Fl l * sh1 (d_weights l) + k mod inputs Fl l) with k; [exact T|].
    pose proof (Nat.div_mod k (inputs Fl l) N). unfold inputs in *. lia.
  - exists k. split; [unfold units; apply (Nat.lt_le_trans _ _ _ Hk); apply Nat.eq_le_incl; exact LB|]. unfold pre. apply add_taint. right. exact T.
Qed.

Lemma forward_nan : forall l (x y : list C), dense_wf Fl l -> length x = inputs Fl l -> smooth_act (d_func l) ->
  dense_forward Fl p l (IOScalar x) = Ret (Ok (IOScalar y)) ->
  length y = units Fl l /\ (Exists tainted x -> Forall ruined y) /\ (nanlayer l -> Exists tainted y).
Proof.
  intros l x y W X S E.
  destruct (proj1 (C40_forward Fl p l x W X y) E) as (Ly & H). split; [exact Ly|]. assert (Ly' : @length C y = units Fl l) by exact Ly. split.
  - intros T. apply Forall_forall. intros v Hv. apply In_nth with (d := z0) in Hv as (i & Hi & <-).
    assert (Hi' : i < units Fl l) by lia. specialize (H i Hi').
    destruct (act_taint _ _ _ S H) as (_ & R). apply R. apply pre_input; [exact X | exact T].
  - intros T. destruct (pre_param l x W T) as (i & Hi & Ti). apply Exists_nth. exists i. split; [lia|].
    destruct (act_taint _ _ _ S (H i Hi)) as (R & _). apply R, Ti.
Qed.

Lemma ruined_some : forall (l : list C), Forall ruined l -> 0 < length l -> Exists tainted l.
Proof. intros [|a l] H N; [inversion N|]. inversion H; subst. constructor. now apply ruined_tainted. Qed.

(** ** A network, forward *)
Definition fine (l : dense Fl) : Prop := smooth_act (d_func l) /\ 0 < units Fl l.

Lemma dense_out_scalar : forall (l : dense Fl) x y, dense_forward Fl p l (IOScalar x) = Ret (Ok y) -> exists v, y = IOScalar v.
Proof.
  intros l x y E. cbn [dense_forward] in E. apply obind_inv in E as (r & _ & E). destruct r as [r|r]; cbn [unwrap obind] in E; [|discriminate].
  apply obind_inv in E as (r2 & _ & E). apply obind_inv in E as (a & _ & E). exists a. congruence.
Qed.

Lemma last_cons : forall {A} (l : list A) a b d, l <> [] -> last (a :: l) d = last l b.
Proof.
  intros A l a b d H. revert a. destruct l as [|c l]; [congruence|]. intros a. cbn [last]. clear H a.
  revert c. induction l as [|e l IH]; intros c; [reflexivity|]. apply IH.
Qed.

Lemma trace_ne : forall (ls : list (clayer Fl)) x vs, trace Fl p ls x vs -> vs <> [].
Proof. intros ls x vs T. destruct T; discriminate. Qed.

Lemma net_nan : forall (ls : list (dense Fl)) w (x : list C) vs ys, widths_fit Fl ls w -> length x = w -> Forall fine ls ->
  trace Fl p (map LDense ls) (IOScalar x) vs -> last vs (IOScalar x) = IOScalar ys ->
  (Exists tainted x \/ Exists nanlayer ls -> Exists tainted ys) /\ (ls <> [] -> Exists tainted x -> Forall ruined ys) /\
  (Exists nanlayer (removelast ls) -> Forall ruined ys).
Proof.
  induction ls as [|l ls IH]; intros w x vs ys WF X FI T E.
  - inversion T; subst. cbn [last] in E. injection E as <-. split; [|split].
    + intros [H|H]; [exact H | inversion H].
    + congruence.
    + intros H; inversion H.
  - destruct WF as (Wl & I & WF). inversion FI as [|? ? (SA & U) FI']; subst. inversion T as [|? ? ? y vs' E1 T']; subst. cbn [layer_forward] in E1.
    destruct (dense_out_scalar _ _ _ E1) as (v & ->). destruct (forward_nan l x v Wl X SA E1) as (Lv & A1 & A2).
    assert (E' : last vs' (IOScalar v) = IOScalar ys) by (rewrite <- E; symmetry; apply last_cons; eapply trace_ne; exact T').
    destruct (IH (units Fl l) v vs' ys WF Lv FI' T' E') as (B1 & B2 & B3).
    assert (A1' : Exists tainted x -> Exists tainted v). { intros H. apply ruined_some; [apply A1, H | apply (Nat.lt_le_trans _ _ _ U); apply Nat.eq_le_incl; symmetry; exact Lv]. }
    split; [|split].
    + intros [H|H]; [apply B1; left; apply A1', H|]. inversion H; subst; [apply B1; left; apply A2; assumption | apply B1; right; assumption].
    + intros _ H. destruct ls as [|l2 ls]; [|apply B2; [discriminate | apply A1', H]].
      inversion T'; subst. cbn [last] in E'. injection E' as <-. apply A1, H.
    + intros H. destruct ls as [|l2 ls]; [inversion H|]. change (removelast (l :: l2 :: ls)) with (l :: removelast (l2 :: ls)) in H.
      inversion H; subst; [apply B2; [discriminate | apply A2; assumption] | apply B3; assumption].
Qed.

(** ** Backward *)
Lemma smooth_modz : forall f, smooth_act f -> f <> ModZ.
Proof. intros f [-> | [-> | [-> | ->]]]; discriminate. Qed.

Lemma back_nan : forall (l : dense Fl) (x g gc : list C) dw db h hc, dense_wf Fl l -> length x = inputs Fl l -> smooth_act (d_func l) ->
  length g = units Fl l -> length gc = units Fl l ->
  dense_derivatives Fl p l (IOScalar x) g gc = Ret (Ok (dw, db, h, hc)) ->
  length h = inputs Fl l /\ length hc = inputs Fl l /\ (Exists tainted g -> Forall ruined h) /\ (Forall ruined g -> Forall ruined dw /\ Forall ruined db).
Proof.
  intros l x g gc dw db h hc W X S G GC E. pose proof (smooth_modz _ S) as NM.
  destruct (pick (fun i d => d_activate Fl p (d_func l) (pre Fl l x i) = Ret d) (units Fl l) (c_default Fl)) as (d & Hd).
  { intros i _. apply (no_modz_derivs Fl p _ _ NM). }
  destruct (pick (fun i d => d_conj_activate Fl p (d_func l) (pre Fl l x i) = Ret d) (units Fl l) (c_default Fl)) as (dc & Hdc).
  { intros i _. apply (no_modz_derivs Fl p _ _ NM). }
  pose proof (dense_derivatives_ok Fl p l x g gc d dc W X G GC (fun i Hi => conj (Hd i Hi) (Hdc i Hi))) as D. cbv zeta in D.
  apply (eq_trans (eq_sym E)) in D. clear E. unfold tab_rows in D. injection D as -> -> -> ->.
  split; [now rewrite map_length, seq_length|]. split; [now rewrite map_length, seq_length|].
  set (delta := fun i => c_add Fl (c_mul Fl (d i) (nth i g z0)) (c_mul Fl (c_conj Fl (dc i)) (nth i gc z0))).
  assert (DR : forall i, tainted (nth i g z0) -> ruined (delta i)).
  { intros i H. unfold delta. apply add_ruin. left. apply mul_taint. right. exact H. }
  split.
  - intros H. apply Exists_nth in H as (i & Hi & T). apply Forall_forall. intros v Hv. apply in_map_iff in Hv as (j & <- & _).
    apply (sum_ruin _ _ i); [apply (Nat.lt_le_trans _ _ _ Hi); apply Nat.eq_le_incl; exact G|]. apply mul_taint. right. apply ruined_tainted, DR, T.
  - intros H. assert (DA : forall i, i < units Fl l -> ruined (delta i)).
    { intros i Hi. apply DR, ruined_tainted. apply (proj1 (Forall_forall ruined g) H). apply (nth_In g z0).
      apply (Nat.lt_le_trans _ _ _ Hi); apply Nat.eq_le_incl; symmetry; exact G. }
    split.
    + apply Forall_forall. intros v Hv. apply in_concat in Hv as (r & Hr & Hv). apply in_map_iff in Hr as (i & <- & Hi).
      apply in_map_iff in Hv as (j & <- & _). apply mul_taint. right. apply ruined_tainted, DA. apply in_seq in Hi. lia.
    + apply Forall_forall. intros v Hv. apply in_map_iff in Hv as (i & <- & Hi). apply DA. apply in_seq in Hi. lia.
Qed.

Definition all_ruined (V : list (list C)) (n : nat) : Prop := forall k, k < n -> Forall ruined (nth k V []).

Lemma bp_nan : forall (ls : list (dense Fl)) w (x : list C) vs g gc ws bs h hc, widths_fit Fl ls w -> length x = w -> Forall fine ls ->
  trace Fl p (map LDense ls) (IOScalar x) vs -> length g = out_width Fl ls w -> length gc = out_width Fl ls w ->
  bp Fl p (combine vs (map LDense ls)) g gc = Ret (ws, bs, h, hc) -> Exists tainted g ->
  length h = w /\ length hc = w /\ Exists tainted h /\ (ls <> [] -> Forall ruined h) /\
  all_ruined ws (length ls - 1) /\ all_ruined bs (length ls - 1) /\
  (Forall ruined g -> Forall ruined h /\ all_ruined ws (length ls) /\ all_ruined bs (length ls)).
Proof.
  induction ls as [|l ls IH]; intros w x vs g gc ws bs h hc WF X FI T G GC E TG.
  - assert (EN : combine vs (map (@LDense Fl) []) = []) by (destruct vs; reflexivity). rewrite EN in E. cbn [bp] in E. injection E as <- <- <- <-.
    unfold out_width in G, GC. cbn [fold_left] in G, GC. split; [exact G|]. split; [exact GC|]. split; [exact TG|]. split; [congruence|].
    split; [intros k Hk; inversion Hk|]. split; [intros k Hk; inversion Hk|].
    intros H. split; [exact H|]. split; intros k Hk; inversion Hk.
  - destruct WF as (Wl & I & WF). inversion FI as [|? ? (SA & U) FI']; subst. inversion T as [|? ? ? y vs' E1 T']; subst. cbn [layer_forward] in E1.
    destruct (dense_out_scalar _ _ _ E1) as (v & ->). destruct (forward_nan l x v Wl X SA E1) as (Lv & _).
    cbn [combine map bp] in E. apply obind_inv in E as ((((ws0 & bs0) & h0) & hc0) & E0 & E). cbn [layer_propagates dense_propagates layer_derivatives] in E.
    apply obind_inv in E as (r & ED & E). destruct r as [(((dw & db) & h1) & hc1)|e]; cbn [unwrap obind] in E; [|discriminate].
    assert (dw :: ws0 = ws /\ db :: bs0 = bs /\ h1 = h /\ hc1 = hc) as (<- & <- & <- & <-) by (repeat split; congruence). clear E.
    destruct (IH (units Fl l) v vs' g gc ws0 bs0 h0 hc0 WF Lv FI' T' G GC E0 TG) as (L1 & L2 & TH & RH & AW & AB & ALL).
    destruct (back_nan l x h0 hc0 dw db h1 hc1 Wl X SA L1 L2 ED) as (L3 & L4 & RD & RW).
    assert (RH1 : Forall ruined h1) by (apply RD, TH).
    assert (INN : 0 < length h1). { destruct Wl as (_ & _ & N). rewrite L3. unfold inputs. apply Nat.neq_0_lt_0, N. }
    split; [congruence|]. split; [congruence|]. split; [apply ruined_some; assumption|]. split; [intros _; exact RH1|].
    cbn [length]. rewrite Nat.sub_succ, Nat.sub_0_r.
    assert (STEP : forall V v n, Forall ruined v -> all_ruined V n -> all_ruined (v :: V) (S n)).
    { intros V u n HV A [|k] Hk; cbn [nth]; [exact HV | apply A; lia]. }
    split; [|split].
    + destruct ls as [|l2 ls]; [intros k Hk; inversion Hk|]. cbn [length] in AW |- *. rewrite Nat.sub_succ, Nat.sub_0_r in AW.
      apply STEP; [|exact AW]. apply RW. apply RH. discriminate.
    + destruct ls as [|l2 ls]; [intros k Hk; inversion Hk|]. cbn [length] in AB |- *. rewrite Nat.sub_succ, Nat.sub_0_r in AB.
      apply STEP; [|exact AB]. apply RW. apply RH. discriminate.
    + intros RG. destruct (ALL RG) as (R0 & A1 & A2). destruct (RW R0) as (R1 & R2). split; [exact RH1|]. split; apply STEP; assumption.
Qed.

(** ** One point, one batch, one step *)
Lemma d_loss_nan : forall f (t y : list C), length y <= length t -> exists g, d_loss Fl (IOScalar t) (IOScalar y) f = Ok g /\ length g = length y /\
  (Exists tainted y \/ Exists tainted (firstn (length y) t) -> Exists tainted g) /\ (Forall ruined y -> Forall ruined g).
Proof.
  intros f t y LT. exists (d_mean_sq_loss Fl t y). split; [destruct f; reflexivity|]. unfold d_mean_sq_loss. split.
  { rewrite map_length, combine_length. apply Nat.min_r. exact LT. }
  revert t LT. induction y as [|b y IH]; intros [|a t] LT; cbn [length] in LT; try (exfalso; lia).
  - cbn. split; auto. intros [H|H]; exact H.
  - cbn. split; auto. intros [H|H]; inversion H.
  - destruct (IH t) as (I1 & I2); [lia|]. cbn [combine map length firstn]. split.
    + intros [H|H]; (inversion H; subst; [left|right; apply I1; auto]); apply conj_taint, sub_taint; auto.
    + intros H. inversion H; subst. constructor; [|apply I2; assumption]. apply conj_ruin, sub_ruin. now left.
Qed.

(** How far the damage reaches in one step. *)
Definition hit (ls : list (dense Fl)) (w n : nat) (x t : list C) : Prop :=
  (n = length ls - 1 /\ (Exists nanlayer ls \/ Exists tainted (firstn (out_width Fl ls w) t))) \/
  (n = length ls /\ (Exists nanlayer (removelast ls) \/ Exists tainted x)).

Lemma removelast_Exists : forall {A} (P : A -> Prop) l, Exists P (removelast l) -> Exists P l.
Proof.
  intros A P l. induction l as [|a l IH]; intros H; [exact H|]. destruct l as [|b l]; [inversion H|].
  change (removelast (a :: b :: l)) with (a :: removelast (b :: l)) in H. inversion H; subst; [now left | right; apply IH; assumption].
Qed.

Lemma pgrad_nan : forall (ls : list (dense Fl)) w (x t : list C) f ws bs n, ls <> [] -> widths_fit Fl ls w -> length x = w -> Forall fine ls ->
  out_width Fl ls w <= length t -> hit ls w n x t -> pgrad Fl p (map LDense ls) f (IOScalar x, IOScalar t) = Ret (ws, bs) ->
  all_ruined ws n /\ all_ruined bs n.
Proof.
  intros ls w x t f ws bs n NE W X FI LT RE E.
  assert (NM : forall l, In l ls -> d_func l <> ModZ). { intros l Hl. apply smooth_modz. apply (proj1 (Forall_forall fine ls) FI l Hl). }
  destruct (dense_sweep Fl p ls w x W X NM) as (vs & ys & T & N & Ly & _).
  assert (NE' : map (@LDense Fl) ls <> []) by (destruct ls; [congruence|discriminate]).
  unfold pgrad in E. cbn [fst snd] in E. apply obind_inv in E as (r1 & EC & E).
  apply (eq_trans (eq_sym (collect_trace Fl p _ _ _ NE' T))) in EC. injection EC as <-. cbn [obind unwrap] in E.
  assert (Ly' : @length C ys = out_width Fl ls w) by exact Ly.
  destruct (d_loss_nan f t ys) as (g & EG & Lg & G1 & G2); [rewrite Ly'; exact LT|].
  apply obind_inv in E as (g' & EG' & E). unfold unwrap in EG'.
  match type of EG' with context [d_loss ?a ?b ?c ?d] => assert (EL : d_loss a b c d = Ok g) by (etransitivity; [|exact EG]; f_equal; exact N) end.
  rewrite EL in EG'. injection EG' as <-.
  apply obind_inv in E as ((((ws0 & bs0) & h0) & hc0) & E0 & E). assert (ws0 = ws /\ bs0 = bs) as (-> & ->) by (split; congruence). clear E.
  destruct (net_nan ls w x vs ys W X FI T N) as (N1 & N2 & N3).
  assert (TG : Exists tainted g).
  { apply G1. destruct RE as [(_ & [R|R])|(_ & [R|R])].
    - left. apply N1. now right.
    - right. rewrite Ly'. exact R.
    - left. apply N1. right. apply removelast_Exists, R.
    - left. apply N1. now left. }
  assert (LG : @length C g = out_width Fl ls w) by exact (eq_trans Lg Ly').
  assert (LGC : @length C (map (c_conj Fl) g) = out_width Fl ls w) by (rewrite map_length; exact LG).
  destruct (bp_nan ls w x vs g (map (c_conj Fl) g) ws bs h0 hc0 W X FI T LG LGC E0 TG) as (_ & _ & _ & _ & AW & AB & ALL).
  destruct RE as [(-> & _)|(-> & R)]; [auto|].
  assert (RY : Forall ruined ys) by (destruct R as [R|R]; [apply N3, R | apply N2; [exact NE | exact R]]).
  destruct (ALL (G2 RY)) as (_ & A1 & A2). auto.
Qed.

Lemma addv_nan : forall W ws W' n, n <= length ws -> addv Fl W ws = Ret W' -> length ws = length W ->
  (all_ruined W n \/ all_ruined ws n) -> all_ruined W' n.
Proof.
  induction W as [|a W IH]; intros [|d ws] W' n LN E LL H; cbn [addv length] in *; try discriminate.
  - intros k Hk. lia.
  - apply obind_inv in E as (y & E1 & E). apply obind_inv in E as (r & E2 & E). assert (y :: r = W') by congruence. subst W'. clear E.
    destruct n as [|n]; [intros k Hk; lia|].
    assert (HT : all_ruined W n \/ all_ruined ws n). { destruct H as [H|H]; [left|right]; intros k Hk; apply (H (S k)); lia. }
    intros [|k] Hk; cbn [nth].
    + clear IH HT E2. unfold add_slice_mut in E1. destruct (Nat.eqb_spec (length a) (length d)) as [EL|EL]; cbn [negb unwrap] in E1; [|discriminate].
      injection E1 as <-. assert (H0 : Forall ruined a \/ Forall ruined d). { destruct H as [H|H]; [left|right]; apply (H 0); lia. }
      clear - H0 EL. revert d EL H0. induction a as [|u a IHa]; intros [|v d] EL H0; try discriminate; cbn [zip_assign]; constructor.
      * apply add_ruin. destruct H0 as [H0|H0]; inversion H0; auto.
      * apply IHa; [exact (eq_add_S _ _ EL)|]. destruct H0 as [H0|H0]; inversion H0; auto.
    + apply (IH ws r n); try lia; auto.
Qed.

Lemma gradient_nan : forall (ls : list (dense Fl)) w f its n W0 B0 W B1, ls <> [] -> widths_fit Fl ls w -> Forall fine ls -> n <= length ls ->
  (forall it, In it its -> exists x t, it = (IOScalar x, IOScalar t) /\ length x = w /\ out_width Fl ls w <= length t) ->
  length W0 = length ls -> length B0 = length ls ->
  Exists (fun it => exists x t, it = (IOScalar x, IOScalar t) /\ hit ls w n x t) its \/ (all_ruined W0 n /\ all_ruined B0 n) ->
  foldM (point_step Fl p (map LDense ls) f) its (W0, B0) = Ret (W, B1) -> all_ruined W n /\ all_ruined B1 n.
Proof.
  intros ls w f its n W0 B0 W B1 NE WF FI LN HI. revert W0 B0. induction its as [|it its IH]; intros W0 B0 L1 L2 ST E; cbn [foldM] in E.
  - destruct ST as [ST|ST]; [inversion ST|]. assert (W0 = W /\ B0 = B1) as (-> & ->) by (split; congruence). exact ST.
  - apply obind_inv in E as ((W1 & B2) & E1 & E).
    assert (SL : forall V : list (list C), length V = length ls -> slots Fl (map LDense ls) V).
    { intros V. clear. revert V. induction ls as [|l ls IH]; intros [|v V] H; try discriminate; constructor; [intros HP; cbn in HP; discriminate | apply IH; exact (eq_add_S _ _ H)]. }
    rewrite point_step_eq in E1 by (apply SL; assumption). apply obind_inv in E1 as ((ws & bs) & EP & E1).
    apply obind_inv in E1 as (W2 & EW & E1). apply obind_inv in E1 as (B3 & EB & E1). assert (W2 = W1 /\ B3 = B2) as (-> & ->) by (split; congruence). clear E1.
    destruct (HI it (or_introl eq_refl)) as (x & t & -> & Lx & Lt).
    assert (NM : forall l, In l ls -> d_func l <> ModZ). { intros l Hl. apply smooth_modz. apply (proj1 (Forall_forall fine ls) FI l Hl). }
    destruct (dense_pgrad Fl p ls w x t f NE WF Lx NM Lt) as (ws' & bs' & EP' & S1 & S2). apply (eq_trans (eq_sym EP)) in EP'. assert (ws = ws' /\ bs = bs') as (<- & <-) by (split; congruence). clear EP'.
    apply (f_equal (@length nat)) in S1. apply (f_equal (@length nat)) in S2. unfold wsizes in S1. unfold bsizes in S2. rewrite !map_length in S1, S2.
    assert (S1' : @length (list C) ws = length ls) by exact S1. assert (S2' : @length (list C) bs = length ls) by exact S2.
    apply (IH (fun it H => HI it (or_intror H)) W1 B2); auto.
    + pose proof (addv_lengths Fl _ _ _ EW) as Q. apply (f_equal (@length nat)) in Q. rewrite !map_length in Q. transitivity (@length (list C) W0); [exact Q | exact L1].
    + pose proof (addv_lengths Fl _ _ _ EB) as Q. apply (f_equal (@length nat)) in Q. rewrite !map_length in Q. transitivity (@length (list C) B0); [exact Q | exact L2].
    + assert (ST' : Exists (fun it => exists x t, it = (IOScalar x, IOScalar t) /\ hit ls w n x t) its \/
         ((all_ruined W0 n \/ all_ruined ws n) /\ (all_ruined B0 n \/ all_ruined bs n))).
      { destruct ST as [ST|(A1 & A2)]; [|right; split; left; assumption]. apply Exists_cons in ST as [(x' & t' & EQ & H)|ST]; [|left; exact ST].
        assert (x' = x /\ t' = t) as (-> & ->) by (split; congruence).
        destruct (pgrad_nan ls w x t f ws bs n NE WF Lx FI Lt H EP) as (A1 & A2). right. split; right; assumption. }
      destruct ST' as [ST'|(A1 & A2)]; [left; exact ST'|].
      right. split; [apply (addv_nan W0 ws W1 n) | apply (addv_nan B0 bs B2 n)].
      * exact (Nat.le_trans _ _ _ LN (Nat.eq_le_incl _ _ (eq_sym S1'))).
      * exact EW.
      * exact (eq_trans S1' (eq_sym L1)).
      * exact A1.
      * exact (Nat.le_trans _ _ _ LN (Nat.eq_le_incl _ _ (eq_sym S2'))).
      * exact EB.
      * exact (eq_trans S2' (eq_sym L2)).
      * exact A2.
Qed.

(** The update. *)
Lemma zip_ruin : forall (l d : list C) (s : C), length d = length l -> Forall ruined d ->
  Forall ruined (zip_assign (sub_conj Fl) l (map (fun e => c_mul_assign Fl e s) d)).
Proof.
  induction l as [|a l IH]; intros [|b d] s E H; try discriminate; cbn [map zip_assign]; constructor; inversion H; subst.
  - apply sub_conj_ruin, mul_assign_ruin. assumption.
  - apply IH; [exact (eq_add_S _ _ E) | assumption].
Qed.

Definition dvalues (l : dense Fl) : list C := body (d_weights l) ++ d_biases l.

Lemma update_nan : forall (ls ls' : list (dense Fl)) s W B1 n, length W = length ls -> length B1 = length ls -> all_ruined W n -> all_ruined B1 n ->
  mapM (update_layer Fl s) (combine (combine W B1) (map LDense ls)) = Ret (map LDense ls') ->
  forall k l, k < n -> nth_error ls' k = Some l -> Forall ruined (dvalues l).
Proof.
  induction ls as [|l ls IH]; intros ls' s [|dw W] [|db B1] n L1 L2 AW AB E k l' Hk Hl; try discriminate.
  - cbn in E. destruct ls'; [destruct k; discriminate | discriminate].
  - cbn [combine map mapM] in E. apply obind_inv in E as (u & E1 & E). apply obind_inv in E as (r & E2 & E).
    destruct ls' as [|m ls']; [discriminate|]. cbn [map] in E. assert (u = LDense m /\ r = map LDense ls') as (-> & ->) by (split; congruence). clear E.
    destruct n as [|n]; [lia|]. destruct k as [|k]; cbn [nth_error] in Hl.
    + assert (m = l') by congruence. subst m. specialize (AW 0 Hk). specialize (AB 0 Hk). cbn [nth] in AW, AB.
      destruct (update_dense_inv Fl s dw db l l' E1) as (Q1 & Q2 & V1 & V2).
      assert (V : dvalues l' = zip_assign (sub_conj Fl) (body (d_weights l)) (map (fun e => c_mul_assign Fl e s) dw) ++
                               zip_assign (sub_conj Fl) (d_biases l) (map (fun e => c_mul_assign Fl e s) db)) by (unfold dvalues; f_equal; assumption).
      rewrite V. apply Forall_app. split; apply zip_ruin; assumption.
    + apply (IH ls' s W B1 n) with (k := k); auto; try lia; intros j Hj; [apply (AW (S j)) | apply (AB (S j))]; lia.
Qed.

Definition fdata (pts : list (list C * list C)) : dataset C C := mkData (map (fun q => IOScalar (fst q)) pts) (map (fun q => IOScalar (snd q)) pts).

Lemma step_nan : forall (ls : list (dense Fl)) w pts f lr n m r, widths_fit Fl ls w -> Forall fine ls -> n <= length ls ->
  (forall x t, In (x, t) pts -> length x = w /\ out_width Fl ls w <= length t) ->
  n = 0 \/ (exists x t, In (x, t) pts /\ hit ls w n x t) -> 2 <= length ls ->
  net_gradient_opt Fl p (map LDense ls) (fdata pts) f lr = Ret (m, r) ->
  exists ls', m = map LDense ls' /\ r = Ok tt /\ widths_fit Fl ls' w /\ map d_func ls' = map d_func ls /\ map (units Fl) ls' = map (units Fl) ls /\
    (forall k l, k < n -> nth_error ls' k = Some l -> Forall ruined (dvalues l)).
Proof.
  intros ls w pts f lr n m r W FI LN HP HI L2 E. unfold net_gradient_opt, net_gradient, fdata in E.
  rewrite map_length, (proj2 (Nat.leb_gt _ _) L2) in E. cbn [ds_points_iter ds_inputs ds_target] in E.
  assert (NE : ls <> []) by (intros ->; inversion L2).
  assert (NM : forall l, In l ls -> d_func l <> ModZ). { intros l Hl. apply smooth_modz. apply (proj1 (Forall_forall fine ls) FI l Hl). }
  destruct (dense_grad_zero Fl ls) as (Z1 & Z2). rewrite (dense_bsizes Fl ls (widths_wf Fl ls w W)) in Z2.
  destruct (grad_zero Fl (map LDense ls)) as (W0, B0). cbn [fst snd] in Z1, Z2.
  assert (EC : combine (map (fun q : list C * list C => IOScalar (fst q)) pts) (map (fun q => IOScalar (snd q)) pts) =
               map (fun q => (IOScalar (fst q), IOScalar (snd q))) pts) by (clear; induction pts as [|q pts IH]; [reflexivity | cbn; now rewrite IH]).
  assert (IT : forall it, In it (map (fun q : list C * list C => (IOScalar (fst q), IOScalar (snd q))) pts) ->
     exists x t, it = (IOScalar x, IOScalar t) /\ length x = w /\ out_width Fl ls w <= length t).
  { intros it H. apply in_map_iff in H as ((x' & t') & <- & H). exists x', t'. cbn [fst snd]. split; [reflexivity|]. apply HP, H. }
  rewrite <- EC in IT. destruct (dense_gradient Fl p ls w f _ W0 B0 NE W NM IT Z1 Z2) as (WW & BB & EG & S1 & S2).
  apply obind_inv in E as ((WW' & BB') & EG' & E). apply (eq_trans (eq_sym EG)) in EG'. injection EG' as <- <-.
  assert (L0 : forall (V : list (list C)) (g : dense Fl -> nat), map (@length C) V = map g ls -> length V = length ls).
  { clear. intros V g H. apply (f_equal (@length nat)) in H. now rewrite !map_length in H. }
  destruct (gradient_nan ls w f _ n W0 B0 WW BB NE W FI LN IT (L0 _ _ Z1) (L0 _ _ Z2)) as (A1 & A2); [|exact EG|].
  { destruct HI as [-> | (x & t & IN & HI)]; [right; split; intros k Hk; inversion Hk|]. left. rewrite EC. apply Exists_exists. exists (IOScalar x, IOScalar t). split; [|exists x, t; auto]. apply in_map_iff. exists (x, t). auto. }
  apply obind_inv in E as (s & _ & E). apply obind_inv in E as (m' & EM & E). cbn [fst snd] in EM.
  destruct (dense_updates Fl ls w s WW BB W S1 S2) as (ls' & EU & W' & F1 & F2 & _).
  assert (m' = map LDense ls') as -> by (apply (eq_trans (eq_sym EM)) in EU; congruence).
  exists ls'. split; [congruence|]. split; [congruence|]. split; [exact W'|]. split; [exact F1|]. split; [exact F2|].
  intros k l Hk Hl. exact (update_nan ls ls' s WW BB n (L0 _ _ S1) (L0 _ _ S2) A1 A2 EU k l Hk Hl).
Qed.

(** ** Losses *)
Lemma sum_nan : forall (g : nat -> B) n a k, is_nan a = true \/ (k < n /\ is_nan (g k) = true) -> is_nan (sum_from (fadd Fl) a g n) = true.
Proof.
  intros g n a k. unfold sum_from. revert k. induction n as [|n IH]; intros k H.
  - destruct H as [H|(H & _)]; [exact H | inversion H].
  - rewrite seq_S, fold_left_app. cbn [fold_left]. apply nan_plus. destruct (Nat.eq_dec k n) as [->|N].
    + destruct H as [H|(_ & H)]; [left; apply (IH 0); auto | right; exact H].
    + left. apply (IH k). destruct H as [H|(H1 & H2)]; [auto|]. right. split; [lia | exact H2].
Qed.
Lemma norm_sq_nan : forall z : C, tainted z -> is_nan (c_norm_sq Fl z) = true.
Proof.
  intros z H. unfold c_norm_sq. cbn [fadd fsq BOps]. apply nan_plus. destruct H as [H|H]; [left|right]; apply nan_mult; auto.
Qed.
Lemma fold_sub_nan : forall (te : list (B * B)) g a, is_nan a = true -> is_nan (fold_left (fun acc te => fsub Fl acc (g te)) te a) = true.
Proof. intros te g. induction te as [|e te IH]; intros a H; cbn [fold_left]; [exact H|]. apply IH. apply nan_minus. now left. Qed.

Lemma loss_nan : forall f (t y : list C), length y <= length t -> Exists tainted y ->
  exists v, loss Fl (IOScalar t) (IOScalar y) f = Ok v /\ is_nan v = true.
Proof.
  intros f t y LT T. destruct f.
  - eexists. split; [apply C33_in_order|]. cbv zeta. cbn [fdiv BOps]. apply nan_div. left.
    apply Exists_nth in T as (k & Hk & T). apply (sum_nan _ _ _ k). right. split; [exact (Nat.le_trans _ _ _ Hk (Nat.min_glb _ _ _ LT (Nat.le_refl _)))|].
    apply norm_sq_nan, sub_taint. right. exact T.
  - eexists. split; [reflexivity|]. cbn [release_loss]. unfold norm_ce_loss.
    set (es := map (fun z => fexp Fl (c_norm_sq Fl z)) y).
    assert (SN : is_nan (fold_left (fun acc e => fadd Fl acc e) es (fzero Fl)) = true).
    { subst es. generalize (fzero Fl). clear LT. induction T as [z y H|z y H IH]; intros a; cbn [map fold_left].
      - assert (N1 : is_nan (fadd Fl a (fexp Fl (c_norm_sq Fl z))) = true). { apply nan_plus. right. apply (proj1 HL). apply norm_sq_nan, H. }
        revert N1. generalize (fadd Fl a (fexp Fl (c_norm_sq Fl z))). clear. induction y as [|z y IH]; intros a H; cbn [map fold_left]; [exact H|].
        apply IH. apply nan_plus. now left.
      - apply IH. }
    destruct y as [|b y]; [inversion T|]. destruct t as [|a t]; [inversion LT|].
    change es with (fexp Fl (c_norm_sq Fl b) :: map (fun z => fexp Fl (c_norm_sq Fl z)) y) at 2. cbn [map combine fold_left fst snd].
    apply (fold_sub_nan _ (fun te => fmul Fl (fst te) (fln Fl (fdiv Fl (snd te) (fold_left (fun acc e => fadd Fl acc e) es (fzero Fl)))))).
    apply nan_minus. right. apply nan_mult. right. apply (proj1 HL). apply nan_div. right. exact SN.
Qed.

Lemma fold_add_nan : forall (vs : list B) a, is_nan a = true \/ Exists (fun v => is_nan v = true) vs -> is_nan (fold_left (fadd Fl) vs a) = true.
Proof.
  induction vs as [|v vs IH]; intros a H; cbn [fold_left]; [destruct H as [H|H]; [exact H | inversion H]|].
  apply IH. destruct H as [H|H]; [left; apply nan_plus; now left|]. inversion H; subst; [left; apply nan_plus; now right | now right].
Qed.

(** ** The index of the largest modulus *)
Lemma max_index_nan : forall l : list C, Forall tainted l -> max_index Fl l = 0.
Proof.
  intros l H. unfold max_index. assert (G : forall i acc, fst acc = 0 -> fst (snd (fold_left (fun st e =>
     let '(i, acc) := st in (S i, if c_gt Fl e (snd acc) then (i, e) else acc)) l (i, acc))) = 0); [|apply G; reflexivity].
  induction H as [|z l Hz _ IH]; intros i acc HA; cbn [fold_left]; [exact HA|]. apply IH.
  assert (Q : c_gt Fl z (snd acc) = false); [|rewrite Q; exact HA]. unfold c_gt. apply nan_lt_r. apply norm_sq_nan, Hz.
Qed.

End NanFacts.
