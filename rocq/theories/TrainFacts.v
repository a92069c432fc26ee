(** * Facts about training: structure of the backward sweep *)
From Coq Require Import Permutation.
From Verif Require Import Base BaseFacts Float Matrix Cplx Random Act Input Loss Dense Conv Layer Dataset Network SpecMatrix MatrixFacts
  SpecLayer SpecConv SpecNet DenseFacts LayerFacts NetFacts.

Section Train.
Context (Fl : FloatOps) (p : prec).
Local Notation C := (cplx (F Fl)).
Local Notation O := (cops Fl).

(** Elementwise accumulation of one point's gradients. *)
Fixpoint addv (W ws : list (list C)) : outcome (list (list C)) :=
  match W, ws with
  | w :: W', d :: ws' => y <- unwrap (add_slice_mut O w d) ;; r <- addv W' ws' ;; Ret (y :: r)
  | _, _ => Ret W
  end.

(** The backward sweep by recursion from the first layer on: gradients of each
    layer and the gradient at the input. *)
Fixpoint bp (xs : list (IOType C * clayer Fl)) (g gc : list C)
  : outcome (list (list C) * list (list C) * list C * list C) :=
  match xs with
  | [] => Ret ([], [], g, gc)
  | (x, l) :: rest =>
      r <- bp rest g gc ;;
      let '(ws, bs, h, hc) := r in
      if layer_propagates Fl l then
        d <-! layer_derivatives Fl p l x h hc ;;
        let '(dw, db, h', hc') := d in Ret (dw :: ws, db :: bs, h', hc')
      else Ret ([] :: ws, [] :: bs, h, hc)
  end.

(** One accumulator per layer, empty for the layers that are skipped. *)
Definition slots (n : list (clayer Fl)) (W : list (list C)) : Prop :=
  Forall2 (fun l w => layer_propagates Fl l = false -> w = []) n W.

Lemma set_nth_app : forall {A} (u v : list A) a b, set_nth (u ++ a :: v) (length u) b = u ++ b :: v.
Proof. intros A u v a b. induction u as [|c u IH]; cbn; [reflexivity|]. now rewrite IH. Qed.

Lemma acc_at_app : forall U w V d i, i = length U ->
  acc_at Fl (U ++ w :: V) i d = (y <- unwrap (add_slice_mut O w d) ;; Ret (U ++ y :: V)).
Proof.
  intros U w V d i ->. unfold acc_at, index. rewrite nth_error_app2, Nat.sub_diag by lia. cbn [nth_error unwrap_opt obind].
  destruct (unwrap _) as [y|]; cbn [obind]; [|reflexivity]. now rewrite set_nth_app.
Qed.

Lemma bp_length : forall xs g gc ws bs h hc, bp xs g gc = Ret (ws, bs, h, hc) -> length ws = length xs /\ length bs = length xs.
Proof.
  induction xs as [|[x l] xs IH]; intros g gc ws bs h hc E; cbn [bp] in E.
  - injection E as <- <- <- <-. auto.
  - apply obind_inv in E as ((((ws0 & bs0) & h0) & hc0) & E0 & E). destruct (IH _ _ _ _ _ _ E0).
    destruct (layer_propagates Fl l).
    + apply obind_inv in E as (r & E1 & E). destruct r as [d|e]; cbn [unwrap obind] in E; [|discriminate].
      destruct d as (((dw & db) & h1) & hc1). injection E as <- <- <- <-. cbn. auto.
    + injection E as <- <- <- <-. cbn. auto.
Qed.

Lemma back_fold : forall xs N Wp Bp W B g gc, slots (map snd xs) W -> slots (map snd xs) B ->
  length Bp = length Wp -> N = length Wp + length xs ->
  foldM (back_step Fl p N) (rev xs) (mkB Fl (Wp ++ W) (Bp ++ B) g gc 0) =
  (r <- bp xs g gc ;; let '(ws, bs, h, hc) := r in
   W' <- addv W ws ;; B' <- addv B bs ;; Ret (mkB Fl (Wp ++ W') (Bp ++ B') h hc (length xs))).
Proof.
  induction xs as [|[x l] xs IH]; intros N Wp Bp W B g gc SW SB LP LN.
  - cbn [map] in *. inversion SW; subst. inversion SB; subst. reflexivity.
  - cbn [map snd] in SW, SB. inversion SW as [|? w ? W0 Hw SW0]; subst. inversion SB as [|? b ? B0 Hb SB0]; subst.
    cbn [rev bp]. rewrite foldM_app.
    specialize (IH (length Wp + length ((x, l) :: xs)) (Wp ++ [w]) (Bp ++ [b]) W0 B0 g gc SW0 SB0).
    rewrite <- !app_assoc in IH. cbn [app] in IH. rewrite IH; [|rewrite !app_length; cbn; lia | rewrite app_length; cbn; lia]. clear IH.
    destruct (bp xs g gc) as [(((ws & bs) & h) & hc)|] eqn:EB; cbn [obind]; [|reflexivity].
    assert (STEP : forall W' B', foldM (back_step Fl p (length Wp + length ((x, l) :: xs))) [(x, l)]
        (mkB Fl (Wp ++ w :: W') (Bp ++ b :: B') h hc (length xs)) =
       (if layer_propagates Fl l then
          d <-! layer_derivatives Fl p l x h hc ;; let '(dw, db, h', hc') := d in
          w' <- unwrap (add_slice_mut O w dw) ;; b' <- unwrap (add_slice_mut O b db) ;;
          Ret (mkB Fl (Wp ++ w' :: W') (Bp ++ b' :: B') h' hc' (S (length xs)))
        else Ret (mkB Fl (Wp ++ w :: W') (Bp ++ b :: B') h hc (S (length xs))))).
    { intros W' B'. cbn [foldM]. unfold back_step. cbn [b_w b_b b_dlda b_dldac b_l].
      destruct (layer_propagates Fl l); [|reflexivity].
      destruct (layer_derivatives Fl p l x h hc) as [[(((dw & db) & h') & hc')|e]|]; cbn [obind unwrap]; try reflexivity.
      cbn [length]. rewrite usub_ok by lia. cbn [obind]. rewrite usub_ok by lia. cbn [obind].
      rewrite acc_at_app by lia. destruct (unwrap (add_slice_mut O w dw)) as [w'|]; cbn [obind]; [|reflexivity].
      rewrite acc_at_app by lia. destruct (unwrap (add_slice_mut O b db)) as [b'|]; cbn [obind]; reflexivity. }
    assert (A1 : forall (Wp : list (list C)) w W', (Wp ++ [w]) ++ W' = Wp ++ w :: W') by (intros; now rewrite <- app_assoc).
    destruct (layer_propagates Fl l) eqn:PR.
    + destruct (layer_derivatives Fl p l x h hc) as [[(((dw & db) & h') & hc')|e]|]; cbn [obind unwrap] in STEP |- *; cbn [addv];
        (destruct (addv W0 ws) as [W'|] eqn:AW; cbn [obind];
          [destruct (addv B0 bs) as [B'|] eqn:AB; cbn [obind]; [rewrite !A1, STEP|]|]); try reflexivity;
        (destruct (unwrap (add_slice_mut O w dw)); cbn [obind]; try reflexivity);
        (destruct (unwrap (add_slice_mut O b db)); cbn [obind]; reflexivity).
    + rewrite (Hw eq_refl) in *. rewrite (Hb eq_refl) in *. cbn [addv]. unfold add_slice_mut. cbn [length Nat.eqb negb unwrap obind zip_assign].
      destruct (addv W0 ws) as [W'|] eqn:AW; cbn [obind]; [|reflexivity]. destruct (addv B0 bs) as [B'|] eqn:AB; cbn [obind]; [|reflexivity].
      rewrite !A1, STEP. reflexivity.
Qed.

(** The gradients of a single point. *)
Definition pgrad (n : network Fl) (f : ComplexLossFunc) (it : IOType C * IOType C) : outcome (list (list C) * list (list C)) :=
  acts <-! net_collect_acts Fl p n (fst it) ;;
  g <- unwrap (d_loss Fl (snd it) (last acts (fst it)) f) ;;
  r <- bp (combine acts n) g (map (c_conj Fl) g) ;;
  let '(ws, bs, _, _) := r in Ret (ws, bs).

Lemma combine_rev : forall {A B} (l : list A) (m : list B), length l = length m -> combine (rev l) (rev m) = rev (combine l m).
Proof.
  intros A B l. induction l as [|a l IH]; intros [|b m] H; try discriminate; [reflexivity|].
  cbn [rev combine]. cbn [length] in H. rewrite combine_app' by (rewrite !rev_length; lia). rewrite IH by lia. reflexivity.
Qed.

Lemma combine_fst_snd : forall {A B} (l : list A) (m : list B), length l = length m -> map fst (combine l m) = l /\ map snd (combine l m) = m.
Proof.
  intros A B l. induction l as [|a l IH]; intros [|b m] H; try discriminate; [split; reflexivity|].
  cbn [length] in H. destruct (IH m ltac:(lia)) as (E1 & E2). cbn [combine map fst snd]. now rewrite E1, E2.
Qed.

Lemma combine_longer : forall {A B} (l e : list A) (m : list B), length l = length m -> combine (l ++ e) m = combine l m.
Proof.
  intros A B l. induction l as [|a l IH]; intros e [|b m] H; try discriminate; [destruct e; reflexivity|].
  cbn [app combine]. cbn [length] in H. rewrite IH by lia. reflexivity.
Qed.

Lemma collect_length : forall n x acts, net_collect_acts Fl p n x = Ret (Ok acts) -> length acts = S (length n).
Proof.
  intros n x acts E. destruct n as [|l n]; [discriminate|]. unfold net_collect_acts in E.
  destruct (trace_cases Fl p (l :: n) x) as [(vs & T)|T].
  - pose proof (collect_fold Fl p _ _ _ [] T) as CF. cbn [app] in CF. rewrite CF in E. cbn [obind app] in E. assert (acts = vs) as -> by congruence. eapply trace_length; eauto.
  - pose proof (collect_fold_panic Fl p _ _ [] T) as CF. cbn [app] in CF. rewrite CF in E. discriminate.
Qed.

Lemma point_step_eq : forall n f W B it, slots n W -> slots n B ->
  point_step Fl p n f (W, B) it =
  (r <- pgrad n f it ;; let '(ws, bs) := r in W' <- addv W ws ;; B' <- addv B bs ;; Ret (W', B')).
Proof.
  intros n f W B [x t] SW SB. unfold point_step, pgrad. cbn [fst snd].
  destruct (net_collect_acts Fl p n x) as [[acts|e]|] eqn:E; cbn [obind unwrap]; try reflexivity.
  pose proof (collect_length _ _ _ E) as LA.
  destruct acts as [|y acts _] using rev_ind; [discriminate|]. rewrite app_length in LA. cbn [length] in LA.
  assert (LA' : length acts = length n) by lia.
  rewrite rev_app_distr. cbn [rev app]. rewrite last_last.
  destruct (unwrap (d_loss Fl t y f)) as [g|]; cbn [obind]; [|reflexivity].
  rewrite combine_rev by exact LA'. rewrite combine_longer by exact LA'.
  destruct (combine_fst_snd acts n LA') as (_ & SN).
  pose proof (back_fold (combine acts n) (length n) [] [] W B g (map (c_conj Fl) g)) as H. rewrite SN in H. cbn [app] in H.
  rewrite H; auto; [|rewrite combine_length; cbn; lia].
  destruct (bp _ _ _) as [(((ws & bs) & h) & hc)|]; cbn [obind]; [|reflexivity].
  destruct (addv W ws); cbn [obind]; [|reflexivity]. destruct (addv B bs); cbn [obind]; reflexivity.
Qed.

(** Accumulation keeps the shape. *)
Lemma add_slice_mut_length : forall (l r x : list C), add_slice_mut O l r = Ok x -> length x = length l /\ length r = length l.
Proof.
  intros l r x. unfold add_slice_mut. destruct (Nat.eqb_spec (length l) (length r)); cbn [negb]; [|discriminate].
  intros H. injection H as <-. now rewrite zip_assign_length.
Qed.

Lemma addv_lengths : forall W ws W', addv W ws = Ret W' -> map (@length C) W' = map (@length C) W.
Proof.
  induction W as [|w W IH]; intros [|d ws] W' E; cbn [addv] in E; try (injection E as <-; reflexivity).
  apply obind_inv in E as (y & E1 & E). apply obind_inv in E as (r & E2 & E). assert (y :: r = W') by congruence. subst W'. cbn [map]. rewrite (IH _ _ E2).
  destruct (add_slice_mut O w d) as [y'|] eqn:A; cbn [unwrap] in E1; [|discriminate]. assert (y' = y) by congruence. subst y'.
  apply add_slice_mut_length in A as (-> & _). reflexivity.
Qed.

Lemma slots_lengths : forall n W W', map (@length C) W' = map (@length C) W -> slots n W -> slots n W'.
Proof.
  intros n W W' E S. revert W' E. induction S as [|l w n W H S IH]; intros [|w' W'] E; try discriminate; [constructor|].
  cbn [map] in E. assert (length w' = length w /\ map (@length C) W' = map (@length C) W) as (E1 & E2) by (split; congruence).
  constructor; [|now apply IH]. intros HP. rewrite (H HP) in E1. destruct w'; [reflexivity|discriminate].
Qed.

Lemma grad_zero_slots : forall n, slots n (fst (grad_zero Fl n)) /\ slots n (snd (grad_zero Fl n)).
Proof.
  intros n. unfold grad_zero, slots. cbn [fst snd]. split; induction n as [|l n IH]; cbn [map]; constructor; auto; intros ->; reflexivity.
Qed.

Lemma point_step_lengths : forall n f W B it W' B', slots n W -> slots n B -> point_step Fl p n f (W, B) it = Ret (W', B') ->
  map (@length C) W' = map (@length C) W /\ map (@length C) B' = map (@length C) B.
Proof.
  intros n f W B it W' B' SW SB E. rewrite point_step_eq in E by auto.
  apply obind_inv in E as ((ws & bs) & E0 & E). apply obind_inv in E as (W1 & E1 & E). apply obind_inv in E as (B1 & E2 & E).
  assert (W1 = W' /\ B1 = B') as (<- & <-) by (split; congruence). split; eapply addv_lengths; eauto.
Qed.

Lemma gradient_lengths : forall n data f W B, net_gradient Fl p n data f = Ret (W, B) ->
  map (@length C) W = map (@length C) (fst (grad_zero Fl n)) /\ map (@length C) B = map (@length C) (snd (grad_zero Fl n)).
Proof.
  intros n data f W B E. unfold net_gradient, ds_points_iter in E. destruct (grad_zero_slots n) as (S1 & S2).
  destruct (grad_zero Fl n) as (W0, B0) eqn:GZ. cbn [fst snd] in *.
  assert (G : forall its W1 B1, slots n W1 -> slots n B1 -> foldM (point_step Fl p n f) its (W1, B1) = Ret (W, B) ->
     map (@length C) W = map (@length C) W1 /\ map (@length C) B = map (@length C) B1).
  { clear E. induction its as [|it its IH]; intros W1 B1 A1 A2 E; cbn [foldM] in E.
    - assert (W1 = W /\ B1 = B) as (-> & ->) by (split; congruence). auto.
    - apply obind_inv in E as ((W2 & B2) & E1 & E). destruct (point_step_lengths _ _ _ _ _ _ _ A1 A2 E1) as (L1 & L2).
      destruct (IH W2 B2) as (L3 & L4); auto; [eapply slots_lengths; eauto .. |]. split; congruence. }
  apply (G _ W0 B0 S1 S2 E).
Qed.

Lemma grad_zero_length : forall n, length (fst (grad_zero Fl n)) = length n /\ length (snd (grad_zero Fl n)) = length n.
Proof. intros n. unfold grad_zero. cbn [fst snd]. now rewrite !map_length. Qed.

(** A fold whose steps commute does not depend on the order. *)
Lemma foldM_perm : forall {A S} (I : S -> Prop) (f : S -> A -> outcome S),
  (forall s a b, I s -> (s' <- f s a ;; f s' b) = (s' <- f s b ;; f s' a)) ->
  (forall s a s', I s -> f s a = Ret s' -> I s') ->
  forall l l', Permutation l l' -> forall s, I s -> foldM f l s = foldM f l' s.
Proof.
  intros A S I f HC HI l l' P. induction P as [|a l l' P IH|a b l|l l' l'' P1 IH1 P2 IH2]; intros s Hs; [reflexivity| | |].
  - cbn [foldM]. destruct (f s a) as [s'|] eqn:E; cbn [obind]; [|reflexivity]. eauto.
  - cbn [foldM]. specialize (HC s a b Hs).
    destruct (f s a) as [sa|]; destruct (f s b) as [sb|]; cbn [obind] in *; [now rewrite HC | now rewrite HC | now rewrite <- HC | reflexivity].
  - rewrite IH1, IH2; auto.
Qed.

(** Layer updates keep the architecture. *)
Lemma update_arch : forall s g l l', update_layer Fl s (g, l) = Ret l' -> arch_of Fl l' = arch_of Fl l /\ (layer_full Fl l -> layer_full Fl l').
Proof.
  intros s [dw db] l l' E. unfold update_layer in E. destruct (layer_propagates Fl l); [|assert (l = l') as <- by congruence; auto].
  apply obind_inv in E as (r & E1 & E). destruct r as [l1|e]; cbn [unwrap obind] in E; [|discriminate]. assert (l1 = l') by congruence. subst l1.
  destruct l as [l|l|l|l]; cbn [layer_adjust] in E1; [| | |discriminate].
  - unfold dense_adjust in E1. destruct (negb _); [discriminate|]. destruct (negb _); [discriminate|]. cbn [map_ok] in E1.
    injection E1 as <-. cbn [arch_of d_weights d_biases d_func with_body sh0 sh1 cap0 cap1 body layer_full].
    rewrite !zip_assign_length. split; [reflexivity|]. intros HW. unfold wf in *. cbn [body sh0 sh1 with_body]. now rewrite zip_assign_length.
  - unfold conv_adjust in E1. destruct (conv_params_len Fl l) as (nw, nb). destruct (negb _); [discriminate|]. destruct (negb _); [discriminate|].
    cbn [map_ok] in E1. injection E1 as <-. cbn [arch_of k_in k_kernels k_biases k_func with_body sh0 sh1 cap0 cap1 body layer_full].
    rewrite zip_assign_length.
    generalize (slice_mul_mut_scalar O dw s) as d. intros d.
    assert (G : forall ks d, map (fun m => (sh0 m, sh1 m, cap0 m, cap1 m, length (body m))) (adjust_kernels Fl ks d) =
                map (fun m => (sh0 m, sh1 m, cap0 m, cap1 m, length (body m))) ks /\
                (Forall wf ks -> Forall wf (adjust_kernels Fl ks d))).
    { clear. induction ks as [|k ks IH]; intros d; cbn [adjust_kernels map]; [auto|].
      destruct (IH (skipn (length (body k)) d)) as (E1 & E2). rewrite E1. cbn [with_body sh0 sh1 cap0 cap1 body].
      rewrite zip_assign_length. split; [reflexivity|]. intros H. inversion H; subst. constructor; auto.
      unfold wf in *. cbn [body sh0 sh1 with_body]. now rewrite zip_assign_length. }
    destruct (G (body (k_kernels l)) d) as (-> & G2). auto.
  - assert (l' = LReduce l) by (cbn in E1; congruence). subst. auto.
Qed.
End Train.
