(** * Properties of networks: construction, forward pass, loss, accuracy (C49 - C51, C56, C57) *)
From Verif Require Import Base BaseFacts Float Matrix Cplx Random Act Input Loss Dense Conv Layer Dataset Network SpecMatrix MatrixFacts
  SpecLayer SpecConv SpecNet DenseFacts LayerFacts NetFacts BuildFacts PropAct PropDense ExOps.
Local Notation P32 := Float.P32.
Local Notation P64 := Float.P64.

(** ** C49 *)
(** After any history of calls: the network holds exactly the accepted layers in
    order, all of them initialised, consecutive shapes agree. *)
Theorem C49_invariant : forall Fl os rs n, built Fl os rs n ->
  n = accepted Fl os rs /\ chained Fl n /\ (forall l, In l n -> ~ uninitialised Fl l).
Proof.
  intros Fl os rs n H. destruct (built_invariant Fl os rs n H) as (A & B & E). split; [exact A|]. split; [exact B|].
  intros l Hl. now apply nonempty_iff, E.
Qed.
Print Assumptions C49_invariant.

(** What every single call does, on any network. *)
Theorem C49_add_input : forall Fl (n : network Fl) l,
  (n <> [] -> net_add_input Fl n l = (n, Err ExistentInput)) /\
  (uninitialised Fl l -> net_add_input Fl [] l = ([], Err MissingInitialization)) /\
  (~ uninitialised Fl l -> net_add_input Fl [] l = ([l], Ok tt)).
Proof.
  intros Fl n l. rewrite <- nonempty_iff, <- empty_iff. apply add_input_cases.
Qed.
Print Assumptions C49_add_input.

Theorem C49_add : forall Fl (n : network Fl) l,
  (uninitialised Fl l -> net_add Fl n l = Ret (n, Err MissingInitialization)) /\
  (~ uninitialised Fl l -> net_add Fl [] l = Panic) /\
  (forall a, ~ uninitialised Fl l -> layer_output_shape Fl a <> layer_input_shape Fl l ->
     net_add Fl (n ++ [a]) l = Ret (n ++ [a], Err IncompatibleIO)) /\
  (forall a, ~ uninitialised Fl l -> layer_output_shape Fl a = layer_input_shape Fl l ->
     net_add Fl (n ++ [a]) l = Ret (n ++ [a] ++ [l], Ok tt)).
Proof.
  intros Fl n l. pose proof (nonempty_iff Fl l) as N. pose proof (empty_iff Fl l) as Y. destruct (add_cases Fl n l) as (A & B & D & E).
  repeat split; intros; [apply A | apply B | apply D | apply E]; tauto.
Qed.
Print Assumptions C49_add.

(** What the constructors build is initialised. *)
Theorem C49_initialised : forall Fl (l : clayer Fl), layer_wf Fl l -> (forall d, l = LDense d -> units Fl d <> 0) -> ~ uninitialised Fl l.
Proof.
  intros Fl [l|l|l|l] W U; cbn [layer_wf uninitialised] in *; auto.
  - destruct W as (_ & LB & N). specialize (U l eq_refl). unfold units in U. intros [(A & B)|A]; [congruence|]. rewrite A in LB. cbn in LB. congruence.
  - destruct W as (a & b & _ & F1 & _). unfold filters in F1. lia.
Qed.
Print Assumptions C49_initialised.

(** The shapes a network reports are those of its first and last layer. *)
Theorem C49_shapes : forall Fl (n : network Fl) a b,
  net_input_shape Fl [] = Err MissingInput /\ net_output_shape Fl [] = Ret (Err MissingInput) /\
  net_input_shape Fl (a :: n) = Ok (layer_input_shape Fl a) /\
  net_output_shape Fl (n ++ [b]) = Ret (Ok (layer_output_shape Fl b)).
Proof.
  intros Fl n a b. repeat split. unfold net_output_shape. rewrite app_length. cbn [length].
  replace (length n + 1 =? 0) with false by (symmetry; apply Nat.eqb_neq; lia).
  rewrite Nat.add_sub, nth_error_app2, Nat.sub_diag by lia. reflexivity.
Qed.
Print Assumptions C49_shapes.

(** The declared shapes are the real ones: dense and convolutional layers accept
    no input of another shape than the one they declare, and what comes out of a
    layer for an input of its declared shape has its declared output shape (for
    flatten: if the maps have the declared size). *)
Theorem C49_declared : forall Fl p (l : clayer Fl) x y, layer_wf Fl l -> layer_forward Fl p l x = Ret (Ok y) ->
  (match l return Prop with LDense _ | LConv _ => io_shape Fl x = layer_input_shape Fl l | _ => exists ms, x = IOMatrix ms end) /\
  (io_shape Fl x = layer_input_shape Fl l ->
   (forall f ms, l = LFlatten f -> x = IOMatrix ms -> forall m, In m ms -> wf m /\ sh0 m = f_r f /\ sh1 m = f_c f) ->
   io_shape Fl y = layer_output_shape Fl l).
Proof.
  intros Fl p l x y W E. destruct l as [l|l|l|f]; destruct x as [v|ms]; cbn [layer_forward] in E; try discriminate E.
  - destruct W as (W & LB & N0). cbn [layer_input_shape layer_output_shape io_shape]. unfold dense_input_shape, dense_output_shape.
    unfold dense_forward, Matrix.mul_slice in E. destruct (sh1 (d_weights l) =? length v) eqn:EQ; cbn [negb obind unwrap] in E; [|discriminate E].
    apply Nat.eqb_eq in EQ. split; [now rewrite EQ|]. intros _ _.
    apply obind_inv in E as (r0 & _ & E). apply obind_inv in E as (r1 & _ & E). apply obind_inv in E as (r2 & E2 & E). apply obind_inv in E as (r3 & E3 & E).
    injection E as <-. cbn [io_shape]. f_equal. unfold add_slice_mut in E2. destruct (length r1 =? length (d_biases l)) eqn:EL; cbn [negb unwrap] in E2; [|discriminate E2].
    apply Nat.eqb_eq in EL. injection E2 as <-. unfold activate_mut in E3. apply mapM_length in E3. rewrite E3, zip_assign_length. exact EL.
  - destruct W as (a & b & W). cbn [layer_input_shape layer_output_shape io_shape]. unfold conv_input_shape, conv_output_shape.
    unfold conv_forward in E. apply obind_inv in E as ((o0 & o1) & _ & E).
    destruct (sh1 (k_kernels l) =? length ms) eqn:EQ; cbn [negb] in E; [|discriminate E]. apply Nat.eqb_eq in EQ.
    destruct W as (Wk & F1 & C1 & _ & _ & LB & KI & _). unfold filters, channels in *. split; [now rewrite KI, EQ|]. intros _ _.
    apply obind_inv in E as (rows & ER & E). apply obind_inv in E as (out & EO & E). injection E as <-. cbn [io_shape]. f_equal.
    apply mapM_length in EO. rewrite EO, combine_length, LB.
    rewrite (rows_as_iter_ok m_new) in ER by (assumption || lia). injection ER as <-. unfold tab_rows. rewrite map_length, seq_length. lia.
  - split; [now exists ms|]. intros S _. cbn [layer_input_shape layer_output_shape] in *. unfold red_input_shape, red_output_shape in *.
    cbn [io_shape] in S. injection S as S. unfold red_forward in E. apply obind_inv in E as (out & EO & E). injection E as <-. cbn [io_shape].
    apply mapM_length in EO. now rewrite EO, S.
  - split; [now exists ms|]. intros S H. cbn [layer_input_shape layer_output_shape] in *. unfold flat_input_shape, flat_output_shape in *.
    cbn [io_shape] in S. injection S as S. cbn [flat_forward] in E. injection E as <-. cbn [io_shape]. f_equal.
    specialize (H f ms eq_refl eq_refl). rewrite flat_map_concat_map, (concat_length_const (f_r f * f_c f)).
    + rewrite map_length, S. lia.
    + apply Forall_forall. intros q Hq. apply in_map_iff in Hq as (m & <- & Hm). destruct (H m Hm) as (Wm & <- & <-). exact Wm.
Qed.
Print Assumptions C49_declared.

(** A history with an accepted input layer, a rejected second one, an
    incompatible layer and a fitting one. *)
Example C49_ex : exists rs n, built ZFl [AddInput ZFl (LDense ex_dense); AddInput ZFl (LDense ex_dense); Add ZFl (LFlatten (mkFlat 1 1 1)); Add ZFl (LDense ex_dense)] rs n /\
  rs = [Ok tt; Err ExistentInput; Err IncompatibleIO; Ok tt] /\ n = [LDense ex_dense; LDense ex_dense].
Proof.
  exists [Ok tt; Err ExistentInput; Err IncompatibleIO; Ok tt], [LDense ex_dense; LDense ex_dense]. split; [|split; reflexivity].
  set (a := AddInput ZFl (LDense ex_dense)). set (b := Add ZFl (LFlatten (mkFlat 1 1 1))). set (c := Add ZFl (LDense ex_dense)).
  apply (built_snoc ZFl [a; a; b] [Ok tt; Err ExistentInput; Err IncompatibleIO] [LDense ex_dense] c); [|reflexivity].
  apply (built_snoc ZFl [a; a] [Ok tt; Err ExistentInput] [LDense ex_dense] b); [|reflexivity].
  apply (built_snoc ZFl [a] [Ok tt] [LDense ex_dense] a); [|reflexivity].
  apply (built_snoc ZFl [] [] [] a); [constructor | reflexivity].
Qed.

(** ** C50 *)
(** Either every layer succeeds and the three functions report the same
    values, or forward and collect_acts both panic. *)
Theorem C50_agree : forall Fl p (n : network Fl) x, n <> [] ->
  (exists vs, trace Fl p n x vs /\ length vs = length n + 1 /\
     net_collect_acts Fl p n x = Ret (Ok vs) /\ net_forward Fl p n x = Ret (Ok (nth (length n) vs x)) /\
     forall k l, nth_error n k = Some l -> net_intercept Fl p n x k = Ret (Ok (nth k vs x, l))) \/
  ((forall vs, ~ trace Fl p n x vs) /\ net_collect_acts Fl p n x = Panic /\ net_forward Fl p n x = Panic).
Proof.
  intros Fl p n x N.
  assert (LAST : forall (vs : list (IOType (cplx (F Fl)))) d, vs <> [] -> last vs d = nth (length vs - 1) vs d).
  { intros vs d H. destruct (exists_last H) as (a & b & ->). rewrite last_last, app_length. cbn [length].
    now rewrite Nat.add_sub, app_nth2, Nat.sub_diag by lia. }
  destruct (trace_cases Fl p n x) as [(vs & T) | T].
  - left. exists vs. split; [exact T|]. pose proof (trace_length _ _ _ _ _ T) as L. split; [lia|]. split; [|split].
    + pose proof (collect_fold Fl p n x vs [] T) as E. cbn [app] in E. unfold net_collect_acts. destruct n; [congruence|]. now rewrite E.
    + rewrite forward_fold by auto. rewrite (fwd_fold _ _ _ _ _ T). cbn [obind]. do 2 f_equal. rewrite LAST by (destruct vs; [discriminate | congruence]).
      f_equal. lia.
    + intros k l K. unfold net_intercept. assert (KL : k < length n) by (apply nth_error_Some; congruence).
      rewrite usub_ok by lia. cbn [obind]. replace (length n - 1 <? k) with false by (symmetry; apply Nat.ltb_ge; lia).
      rewrite (intercept_ok Fl p n x (firstn (S k) vs) k 0 k l x); auto; [|apply trace_firstn; auto; lia].
      cbn [obind]. do 3 f_equal. rewrite <- (firstn_skipn (S k) vs) at 2. rewrite app_nth1; [reflexivity|].
      rewrite firstn_length. lia.
  - right. split; [exact T|]. split.
    + pose proof (collect_fold_panic Fl p n x [] T) as E. cbn [app] in E. unfold net_collect_acts. destruct n; [congruence|]. now rewrite E.
    + rewrite forward_fold by auto. now rewrite fwd_fold_panic.
Qed.
Print Assumptions C50_agree.

(** The trace is the composition of the layers: entry 0 is the input and layer k
    maps entry k to entry k+1. *)
Theorem C50_composition : forall Fl p (n : network Fl) x vs, trace Fl p n x vs <->
  length vs = length n + 1 /\ nth 0 vs x = x /\
  forall k l, nth_error n k = Some l -> layer_forward Fl p l (nth k vs x) = Ret (Ok (nth (S k) vs x)).
Proof.
  intros Fl p n x vs. split.
  - intros T. split; [rewrite (trace_length _ _ _ _ _ T); lia|]. split; [eapply trace_hd; eauto|]. intros; eapply trace_nth; eauto.
  - revert x vs. induction n as [|l n IH]; intros x vs (L & H0 & H).
    + destruct vs as [|v [|]]; try discriminate. cbn in H0. subst. constructor.
    + destruct vs as [|v vs]; [discriminate|]. cbn in H0. subst v.
      destruct vs as [|y vs]; [cbn in L; lia|]. apply trace_cons with (y := y); [exact (H 0 l eq_refl)|].
      apply IH. split; [cbn in L |- *; lia|]. split; [reflexivity|]. intros k l' K.
      specialize (H (S k) l' K).
      change (layer_forward Fl p l' (nth k (y :: vs) x) = Ret (Ok (nth (S k) (y :: vs) x))) in H. cbn [length] in L.
      assert (KL : k < length n) by (apply nth_error_Some; congruence).
      replace (nth k (y :: vs) y) with (nth k (y :: vs) x) by (apply nth_indep; cbn; lia).
      replace (nth (S k) (y :: vs) y) with (nth (S k) (y :: vs) x) by (apply nth_indep; cbn; lia). exact H.
Qed.
Print Assumptions C50_composition.

(** intercept only runs the layers below the one it stops at; indices past the
    end are refused; on an empty network the others refuse and intercept panics. *)
Theorem C50_intercept : forall Fl p (n : network Fl) x,
  (forall k l vs, nth_error n k = Some l -> trace Fl p (firstn k n) x vs ->
     net_intercept Fl p n x k = Ret (Ok (nth k vs x, l))) /\
  (forall k, k < length n -> (forall vs, ~ trace Fl p (firstn k n) x vs) -> net_intercept Fl p n x k = Panic) /\
  (forall k, n <> [] -> length n <= k -> net_intercept Fl p n x k = Ret (Err InvalidLayerIndex)) /\
  (forall k, net_intercept Fl p [] x k = Panic) /\
  net_forward Fl p [] x = Ret (Err MissingLayers) /\ net_collect_acts Fl p [] x = Ret (Err MissingLayers).
Proof.
  intros Fl p n x. repeat split.
  - intros k l vs K T. assert (KL : k < length n) by (apply nth_error_Some; congruence). unfold net_intercept.
    rewrite usub_ok by lia. cbn [obind]. replace (length n - 1 <? k) with false by (symmetry; apply Nat.ltb_ge; lia).
    rewrite (intercept_ok Fl p n x vs k 0 k l x); auto.
  - intros k KL N. unfold net_intercept.
    rewrite usub_ok by lia. cbn [obind]. replace (length n - 1 <? k) with false by (symmetry; apply Nat.ltb_ge; lia).
    rewrite (intercept_panic Fl p n x k 0 k); auto.
  - intros k N K. unfold net_intercept. destruct n as [|a n]; [congruence|]. cbn [length] in *.
    rewrite usub_ok by lia. cbn [obind]. replace (S (length n) - 1 <? k) with true by (symmetry; apply Nat.ltb_lt; lia). reflexivity.
Qed.
Print Assumptions C50_intercept.

Example C50_ex : trace ZFl P32 [LDense ex_dense; LDense ex_dense] (IOScalar [mkC 1 0; mkC 1 1]%Z)
  [IOScalar [mkC 1 0; mkC 1 1]; IOScalar [mkC 1 2; mkC 5 3]; IOScalar [mkC (-1) 8; mkC 17 13]]%Z.
Proof. do 2 (econstructor; [reflexivity|]). constructor. Qed.

(** ** C51 *)
Lemma dense_trace : forall Fl p (ls : list (dense Fl)) w x, widths_fit Fl ls w -> length x = w ->
  (exists vs ys, trace Fl p (map LDense ls) (IOScalar x) vs /\ nth (length ls) vs (IOScalar x) = IOScalar ys /\ length ys = out_width Fl ls w) \/
  (exists k l v i vs, nth_error ls k = Some l /\ trace Fl p (map LDense (firstn k ls)) (IOScalar x) vs /\
     nth k vs (IOScalar x) = IOScalar v /\ length v = inputs Fl l /\ i < units Fl l /\ activate Fl p (d_func l) (pre Fl l v i) = Panic).
Proof.
  intros Fl p ls. induction ls as [|l ls IH]; intros w x W X.
  - left. exists [IOScalar x], x. repeat split; [constructor | exact X].
  - destruct W as (Wl & I & W). destruct (C40_total Fl p l x Wl) as [(ys & E) | (E & i & Hi & Ei)]; [lia | |].
    + destruct (proj1 (C40_forward Fl p l x Wl (eq_trans X (eq_sym I)) ys) E) as (Ly & _).
      destruct (IH (units Fl l) ys W Ly) as [(vs & zs & T & N & L) | (k & l' & v & i & vs & K & T & N & Lv & Hi & Ei)].
      * left. exists (IOScalar x :: vs), zs. cbn [map]. repeat split; [econstructor; [exact E | exact T] | | exact L].
        cbn [length nth]. rewrite <- N. apply nth_indep. rewrite (trace_length _ _ _ _ _ T), map_length. lia.
      * right. exists (S k), l', v, i, (IOScalar x :: vs). cbn [firstn map nth_error]. repeat split; auto; [econstructor; [exact E | exact T]|].
        cbn [nth]. rewrite <- N. apply nth_indep. rewrite (trace_length _ _ _ _ _ T), map_length, firstn_length.
        assert (k < length ls) by (apply nth_error_Some; congruence). lia.
    + right. exists 0, l, x, i, [IOScalar x]. cbn. repeat split; auto; [constructor | lia].
Qed.

(** Without ModZ every input of the right length is accepted, at any depth. *)
Theorem C51_total : forall Fl p (ls : list (dense Fl)) w x, ls <> [] -> widths_fit Fl ls w -> length x = w ->
  (forall l, In l ls -> d_func l <> ModZ) ->
  exists ys, net_forward Fl p (map LDense ls) (IOScalar x) = Ret (Ok (IOScalar ys)) /\ length ys = out_width Fl ls w.
Proof.
  intros Fl p ls w x NE W X NM.
  assert (NE' : map (@LDense Fl) ls <> []) by (destruct ls; [congruence | discriminate]).
  destruct (dense_trace Fl p ls w x W X) as [(vs & ys & T & N & L) | (k & l & v & i & vs & K & _ & _ & _ & _ & P)].
  - exists ys. split; [|exact L]. destruct (C50_agree Fl p (map LDense ls) (IOScalar x) NE') as [(vs' & T' & _ & _ & E & _) | (T' & _)].
    + rewrite E, (trace_det _ _ _ _ _ _ T' T), map_length, N. reflexivity.
    + exfalso. eapply T'; eauto.
  - exfalso. apply (NM l); [eapply nth_error_In; eauto|]. eapply C29_only_modz; left; exact P.
Qed.
Print Assumptions C51_total.

(** In general the only way to fail is a unit whose activation panics. *)
Theorem C51_only_failure : forall Fl p (ls : list (dense Fl)) w x, ls <> [] -> widths_fit Fl ls w -> length x = w ->
  (exists ys, net_forward Fl p (map LDense ls) (IOScalar x) = Ret (Ok (IOScalar ys)) /\ length ys = out_width Fl ls w) \/
  (net_forward Fl p (map LDense ls) (IOScalar x) = Panic /\
   exists k l v i, nth_error ls k = Some l /\ net_intercept Fl p (map LDense ls) (IOScalar x) k = Ret (Ok (IOScalar v, LDense l)) /\
     d_func l = ModZ /\ i < units Fl l /\ activate Fl p ModZ (pre Fl l v i) = Panic).
Proof.
  intros Fl p ls w x NE W X.
  assert (NE' : map (@LDense Fl) ls <> []) by (destruct ls; [congruence | discriminate]).
  destruct (dense_trace Fl p ls w x W X) as [(vs & ys & T & N & L) | (k & l & v & i & vs & K & T & N & Lv & Hi & P)].
  - left. exists ys. split; [|exact L]. destruct (C50_agree Fl p (map LDense ls) (IOScalar x) NE') as [(vs' & T' & _ & _ & E & _) | (T' & _)].
    + rewrite E, (trace_det _ _ _ _ _ _ T' T), map_length, N. reflexivity.
    + exfalso. eapply T'; eauto.
  - right. assert (M : d_func l = ModZ) by (eapply C29_only_modz; left; exact P).
    assert (KM : nth_error (map (@LDense Fl) ls) k = Some (LDense l)) by now rewrite nth_error_map, K.
    assert (I : net_intercept Fl p (map LDense ls) (IOScalar x) k = Ret (Ok (IOScalar v, LDense l))).
    { rewrite <- N. apply C50_intercept; [exact KM|]. rewrite firstn_map. exact T. }
    split; [|exists k, l, v, i; rewrite M in P; auto].
    destruct (C50_agree Fl p (map LDense ls) (IOScalar x) NE') as [(vs' & T' & _ & _ & E & HI) | (_ & _ & E)]; [|exact E].
    exfalso. specialize (HI k _ KM). rewrite I in HI.
    pose proof (trace_nth _ _ _ _ _ k _ (IOScalar x) T' KM) as F.
    assert (V : nth k vs' (IOScalar x) = IOScalar v) by congruence. rewrite V in F. cbn [layer_forward] in F.
    assert (Wl : dense_wf Fl l).
    { clear - W K. revert k w W K. induction ls as [|a ls IH]; intros [|k] w W K; try discriminate; destruct W as (Wa & _ & W).
      - injection K as <-. exact Wa.
      - eapply IH; eauto. }
    rewrite dense_forward_ok in F by auto.
    rewrite (mapM_panic _ (seq 0 (units Fl l)) i) in F; [discriminate | apply in_seq; lia | exact P].
Qed.
Print Assumptions C51_only_failure.

(** Every network built from initialised dense layers with at least one input
    each is such a stack, and reports its widths. *)
Definition dense_made {Fl} (l : clayer Fl) : Prop :=
  exists p pr ni nu f m seed seed' d,
    dense_init Fl p pr (ShScalar ni) nu f m seed = Ret (seed', Ok d) /\ 1 <= ni /\ l = LDense d.

Theorem C51_built : forall Fl os rs (n : network Fl), built Fl os rs n -> n <> [] ->
  (forall o, In o os -> match o with AddInput l | Add l => dense_made l end) ->
  exists ls w, n = map LDense ls /\ widths_fit Fl ls w /\
    net_input_shape Fl n = Ok (ShScalar w) /\ net_output_shape Fl n = Ret (Ok (ShScalar (out_width Fl ls w))).
Proof.
  intros Fl os rs n B NE HO. destruct (C49_invariant Fl os rs n B) as (EA & CH & _).
  assert (DM : forall l, In l n -> dense_made l).
  { subst n. clear - HO. revert rs. induction os as [|o os IH]; intros [|r rs] l Hl; cbn [accepted] in Hl; try contradiction.
    apply in_app_or in Hl as [Hl|Hl].
    - destruct r as [u|e]; [|contradiction]. destruct Hl as [<- | []]. specialize (HO o (or_introl eq_refl)). destruct o; exact HO.
    - eapply IH; eauto. intros o' Ho'. apply HO. now right. }
  assert (G : forall w n, n <> [] -> chained Fl n -> (forall l, In l n -> dense_made l) ->
            (forall l, nth_error n 0 = Some l -> layer_input_shape Fl l = ShScalar w) ->
            exists ls, n = map LDense ls /\ widths_fit Fl ls w /\
              net_output_shape Fl n = Ret (Ok (ShScalar (out_width Fl ls w)))).
  { clear. intros w n. revert w. induction n as [|l n IH]; intros w NE CH DM H0; [congruence|].
    destruct (DM l (or_introl eq_refl)) as (p & pr & ni & nu & f & m & seed & seed' & d & E & N1 & ->).
    destruct (C39_init _ _ _ _ _ _ _ _ _ _ E) as (Wd & E0 & E1 & B & _ & _ & OSd & _).
    assert (WF : dense_wf Fl d).
    { split; [exact Wd|]. split; [rewrite B, repeat_length; now rewrite E0|]. rewrite E1. lia. }
    specialize (H0 _ eq_refl) as H1. cbn in H1. assert (Iw : inputs Fl d = w) by (unfold dense_input_shape in H1; unfold inputs; congruence).
    destruct n as [|l' n].
    - exists [d]. split; [reflexivity|]. split; [exact (conj WF (conj Iw I))|].
      cbn. rewrite OSd. unfold out_width, units. cbn. now rewrite E0.
    - destruct (IH (units Fl d)) as (ls & EQ & Wls & OS).
      + discriminate.
      + intros k a b Ka Kb. apply (CH (S k) a b); auto.
      + intros q Hq. apply DM. now right.
      + intros q Hq. cbn in Hq. injection Hq as <-. rewrite <- (CH 0 (LDense d) l' eq_refl eq_refl). cbn. rewrite OSd. unfold units. now rewrite E0.
      + exists (d :: ls). rewrite EQ. split; [reflexivity|]. split; [exact (conj WF (conj Iw Wls))|].
        rewrite EQ in OS. destruct ls as [|d' ls]; [discriminate|].
        unfold net_output_shape in *. cbn [map length Nat.eqb] in *.
        replace (S (S (length (map LDense ls))) - 1) with (S (S (length (map (@LDense Fl) ls)) - 1)) by lia. cbn [nth_error].
        exact OS. }
  destruct n as [|l n]; [congruence|].
  assert (L0 : exists w, layer_input_shape Fl l = ShScalar w).
  { destruct (DM l (or_introl eq_refl)) as (p & pr & ni & nu & f & m & seed & seed' & d & _ & _ & ->). eexists. reflexivity. }
  destruct L0 as (w & L0). destruct (G w (l :: n) NE CH DM) as (ls & E & W & OS).
  { intros q Hq. cbn in Hq. injection Hq as <-. exact L0. }
  exists ls, w. repeat split; auto. cbn. now rewrite L0.
Qed.
Print Assumptions C51_built.

Example C51_ex : widths_fit ZFl [ex_dense; ex_dense; ex_dense] 2 /\ (forall l, In l [ex_dense; ex_dense; ex_dense] -> d_func l <> ModZ).
Proof. split; [repeat split; discriminate|]. intros l [<- | [<- | [<- | []]]]; discriminate. Qed.
