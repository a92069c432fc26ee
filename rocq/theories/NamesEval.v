(** * Facts about evaluation under a new numbering *)
From Coq Require Import Permutation Reals Lra.
From Verif Require Import Base BaseFacts Float Matrix Cplx Random Act Input Loss Dense Conv Layer Dataset Network SpecMatrix MatrixFacts
  SpecLayer SpecConv SpecNet SpecEval SpecLoss LossFacts DenseFacts NetFacts PropDense SpecPerm PermFacts SpecNames NamesFacts RFloat CFacts PropEval.
Local Open Scope nat_scope.

Lemma seq_perm : forall s N, reorders s N -> Permutation (map s (seq 0 N)) (seq 0 N).
Proof.
  intros s N (H1 & H2). apply NoDup_Permutation_bis.
  - assert (ND : forall l, NoDup l -> (forall i, In i l -> i < N) -> NoDup (map s l)).
    { induction l as [|a l IH]; intros D HI; cbn; [constructor|]. inversion D; subst. constructor.
      - intros HA. apply in_map_iff in HA as (b & E & Hb). assert (b = a) by (apply H2; auto; [apply HI; now right | apply HI; now left]). subst. contradiction.
      - apply IH; auto. intros; apply HI; now right. }
    apply ND; [apply seq_NoDup|]. intros i Hi. apply in_seq in Hi. lia.
  - rewrite map_length. lia.
  - intros a Ha. apply in_map_iff in Ha as (b & <- & Hb). apply in_seq in Hb. apply in_seq. specialize (H1 b). lia.
Qed.

Lemma rsum_perm : forall (f : nat -> R) s N, reorders s N -> rsum (fun i => f (s i)) N = rsum f N.
Proof.
  intros f s N H. unfold sum_from. pose proof (seq_perm s N H) as P.
  assert (G : forall l l' a, Permutation l l' -> fold_left (fun acc i => (acc + f i)%R) l a = fold_left (fun acc i => (acc + f i)%R) l' a).
  { intros l l' a Pm. revert a. induction Pm as [|x l l' Pm IH|x y l|l1 l2 l3 P1 I1 P2 I2]; intros a; cbn [fold_left]; auto.
    - f_equal. ring.
    - now rewrite I1. }
  rewrite <- (G _ _ _ P). clear. generalize (seq 0 N) as l, 0%R as a. induction l as [|x l IH]; intros a; cbn [map fold_left]; auto.
Qed.
Lemma rsum_ext' : forall (f g : nat -> R) N, (forall i, i < N -> f i = g i) -> rsum f N = rsum g N.
Proof. intros f g N H. unfold sum_from. apply fold_left_ext. intros a q Hq. apply in_seq in Hq. now rewrite H by lia. Qed.

Section Eval.
Context (p : prec).
Local Notation z := (c_default ROps).

Lemma mean_sq_at : forall (a b : list RC) N, length a = N -> length b = N ->
  mean_sq_loss ROps a b = fdiv ROps (rsum (fun k => c_norm_sq ROps (nth k a z - nth k b z)%RC) N) (fofnat ROps (N - 1)).
Proof. intros a b N LA LB. rewrite mean_sq_spec. assert (Q : Nat.min (length a) (length b) = N) by lia. rewrite Q. reflexivity. Qed.

Lemma ce_perm : forall (v w v' w' : list RC) s, length w' = length w -> reorders s (length w) ->
  (forall i, i < length w -> nth i v' z = nth (s i) v z) -> (forall i, i < length w -> nth i w' z = nth (s i) w z) ->
  (- rsum (fun k => re (nth k v' 0%RC) * ln (softmax w' k)) (length w') = - rsum (fun k => re (nth k v 0%RC) * ln (softmax w k)) (length w))%R.
Proof.
  intros v w v' w' s L RE V1 V2. rewrite L. f_equal.
  transitivity (rsum (fun i => (fun k => re (nth k v z) * ln (softmax w k))%R (s i)) (length w)).
  - apply rsum_ext'. intros i Hi. unfold softmax. rewrite V1, V2 by exact Hi. do 3 f_equal. rewrite L.
    transitivity (rsum (fun i => (fun k => exp (c_norm_sq ROps (nth k w z))) (s i)) (length w)).
    + apply rsum_ext'. intros j Hj. rewrite V2 by exact Hj. reflexivity.
    + apply (rsum_perm (fun k => exp (c_norm_sq ROps (nth k w z)))). exact RE.
  - apply (rsum_perm (fun k => re (nth k v z) * ln (softmax w k))%R). exact RE.
Qed.

Lemma loss_renamed : forall r t t' y y' f, renamed ROps r t t' -> renamed ROps r y y' -> loss ROps t' y' f = loss ROps t y f.
Proof.
  intros [[N s]|] t t' y y' f HT HY; cbn in HT, HY; [|subst; reflexivity].
  destruct HT as (v & v' & -> & -> & (N1 & RE) & L1 & V1). destruct HY as (w & w' & -> & -> & (N2 & _) & L2 & V2). subst N.
  assert (LV : length v = length w) by congruence. cbn [loss]. f_equal. destruct f; cbn [release_loss].
  - rewrite (mean_sq_at v' w' (length w)), (mean_sq_at v w (length w)) by (first [congruence | exact (eq_trans L1 LV) | exact L2 | exact LV | reflexivity]). f_equal.
    transitivity (rsum (fun i => (fun k => c_norm_sq ROps (nth k v z - nth k w z)%RC) (s i)) (length w)).
    + apply rsum_ext'. intros i Hi. rewrite V1 by (rewrite LV; exact Hi). rewrite V2 by exact Hi. reflexivity.
    + apply (rsum_perm (fun k => c_norm_sq ROps (nth k v z - nth k w z)%RC)). rewrite <- LV. exact RE.
  - rewrite (norm_ce_R v w LV), (norm_ce_R v' w' (eq_trans L1 (eq_trans LV (eq_sym L2)))). rewrite LV in RE. apply ce_perm with (s := s); auto.
    intros i Hi. apply V1. rewrite LV. exact Hi.
Qed.

Lemma net_loss_renamed : forall r r' n n' d d' f l, net_renamed ROps r r' n n' -> data_renamed ROps r r' d d' ->
  net_loss ROps p n d f = Ret (Ok l) -> net_loss ROps p n' d' f = Ret (Ok l).
Proof.
  intros r r' n n' d d' f l H (DX & DT) E. unfold net_loss, ds_points_iter in *. apply obind_inv in E as (vals & E1 & E).
  assert (E1' : mapM (fun it => pred <-! net_forward ROps p n' (fst it) ;; unwrap (loss ROps (snd it) pred f)) (combine (ds_inputs d') (ds_target d')) = Ret vals).
  { clear E. revert vals E1 DT. generalize (ds_target d) (ds_target d'). induction DX as [|x x' xs xs' RX DX IH]; intros ts ts' vals E1 DT; [exact E1|].
    destruct DT as [|t t' ts ts' RT DT]; [exact E1|]. cbn [combine mapM fst snd] in *. apply obind_inv in E1 as (a & E1 & E2). apply obind_inv in E2 as (q & E2 & E3).
    apply obind_inv in E1 as (o & F1 & E1). destruct o as [o|]; cbn [unwrap obind] in E1; [|discriminate].
    destruct (forward_renamed p r r' n n' x x' o H RX F1) as (o' & -> & RO). cbn [unwrap obind]. rewrite (loss_renamed r' t t' o o' f RT RO), E1. cbn [obind].
    rewrite (IH ts ts' q E2 DT). exact E3. }
  rewrite E1'. exact E.
Qed.

Lemma max_unique : forall (v : list RC) k, k < length v -> (forall j, j < length v -> j <> k -> fltb ROps (c_norm_sq ROps (nth j v z)) (c_norm_sq ROps (nth k v z)) = true) ->
  max_index ROps v = k.
Proof.
  intros v k Hk H. assert (NE : v <> []) by (intros ->; cbn in Hk; lia). destruct (C56_index_exact v NE) as (L & M & _).
  destruct (Nat.eq_dec (max_index ROps v) k) as [|ND]; [assumption|]. specialize (H _ L ND).
  rewrite (M k (nth k v z) (nth (max_index ROps v) v z)) in H by (apply nth_error_nth'; assumption). discriminate.
Qed.

Lemma max_renamed : forall N s v v', N = length v -> reorders s N -> length v' = length v -> (forall i, i < length v -> nth i v' z = nth (s i) v z) -> no_tie ROps v ->
  max_index ROps v' < N /\ s (max_index ROps v') = max_index ROps v.
Proof.
  intros N s v v' -> RE L V (k & Hk & H). destruct (reorders_inv s _ RE) as (t & (T1 & _) & T2 & T3).
  rewrite (max_unique v k Hk H). rewrite (max_unique v' (t k)); [split; [apply T1, Hk | apply T2, Hk] | rewrite L; apply T1, Hk|].
  intros j Hj NJ. rewrite L in Hj. rewrite !V by (auto; apply T1, Hk). rewrite T2 by exact Hk. apply H; [apply RE, Hj|]. intros E. apply NJ. rewrite <- E. symmetry. apply T3, Hj.
Qed.

Lemma accuracy_renamed : forall r r' n n' d d' a, net_renamed ROps r r' n n' -> data_renamed ROps r r' d d' ->
  (forall x v, In x (ds_inputs d) -> predicts ROps p n x v -> no_tie ROps v) -> (forall v, In (IOScalar v) (ds_target d) -> no_tie ROps v) ->
  net_max_pred_test ROps p n d = Ret a -> net_max_pred_test ROps p n' d' = Ret a.
Proof.
  intros r r' n n' d d' a H (DX & DT) NP NT E. unfold net_max_pred_test, ds_points_iter in *. apply obind_inv in E as (vals & E1 & E).
  rewrite <- (Forall2_len _ _ _ DT).
  assert (E1' : mapM (fun it => prediction <-! net_forward ROps p n' (fst it) ;; pred <- as_slice prediction ;; targ <- as_slice (snd it) ;;
               Ret (if max_index ROps targ =? max_index ROps pred then 1 else 0)) (combine (ds_inputs d') (ds_target d')) = Ret vals).
  { clear E. revert vals NP NT E1 DT. generalize (ds_target d) (ds_target d'). induction DX as [|x x' xs xs' RX DX IH]; intros ts ts' vals NP NT E1 DT; [exact E1|].
    destruct DT as [|t t' ts ts' RT DT]; [exact E1|]. cbn [combine mapM fst snd] in *. apply obind_inv in E1 as (b & E1 & E2). apply obind_inv in E2 as (q & E2 & E3).
    apply obind_inv in E1 as (o & F1 & E1). destruct o as [o|]; cbn [unwrap obind] in E1; [|discriminate].
    destruct (forward_renamed p r r' n n' x x' o H RX F1) as (o' & -> & RO). cbn [unwrap obind].
    destruct o as [y|]; [|discriminate]. destruct t as [w|]; [|discriminate]. cbn [as_slice obind] in E1.
    rewrite (IH ts ts' q); [|intros x0 v0 I0; apply NP; now right | intros v0 I0; apply NT; now right | exact E2 | exact DT]. cbn [obind].
    assert (TY : no_tie ROps y) by (apply (NP x); [now left | exact F1]). assert (TW : no_tie ROps w) by (apply NT; now left).
    destruct r' as [[N s]|]; cbn in RO, RT.
    - destruct RO as (y0 & y' & Q & -> & (Y1 & Y2) & Y3 & Y4). injection Q as <-. destruct RT as (w0 & w' & Q & -> & (X1 & X2) & X3 & X4). injection Q as <-. cbn [as_slice obind].
      destruct (max_renamed N s y y' Y1 ltac:(rewrite Y1; exact Y2) Y3 Y4 TY) as (M1 & M2). destruct (max_renamed N s w w' X1 ltac:(rewrite X1; exact X2) X3 X4 TW) as (M3 & M4).
      assert (Q : (max_index ROps w' =? max_index ROps y') = (max_index ROps w =? max_index ROps y)).
      { rewrite <- M2, <- M4. destruct (Nat.eqb_spec (max_index ROps w') (max_index ROps y')) as [->|ND]; symmetry; [apply Nat.eqb_refl|].
        apply Nat.eqb_neq. intros Q. apply ND. rewrite X1 in M1, M3. exact (proj2 X2 _ _ M3 M1 Q). }
      rewrite Q. injection E1 as <-. exact E3.
    - subst. cbn [as_slice obind]. injection E1 as <-. exact E3. }
  rewrite E1'. exact E.
Qed.
End Eval.

(** Renumbering the classes alone changes no bit of a prediction. *)
Lemma classes_forward : forall Fl p s front (l l' : dense Fl) x w, units_reordered Fl s l l' -> reorders s (units Fl l) ->
  net_forward Fl p (front ++ [LDense l]) x = Ret (Ok w) ->
  exists v v', w = IOScalar v /\ net_forward Fl p (front ++ [LDense l']) x = Ret (Ok (IOScalar v')) /\ length v = units Fl l /\ length v' = units Fl l /\
    forall i, i < units Fl l -> nth i v' (c_default Fl) = nth (s i) v (c_default Fl).
Proof.
  intros Fl p s front l l' x w (W1 & W2 & U & I & FN & HB & HW) RE E. assert (NE : forall k : clayer Fl, front ++ [k] <> []) by (intros k; destruct front; discriminate).
  rewrite forward_fold in * by apply NE. rewrite foldM_app in *. destruct (foldM (fun acc l => fwd Fl p l acc) front x) as [m|]; [|discriminate]. cbn [obind foldM] in *.
  destruct (fwd Fl p (LDense l) m) as [o|] eqn:FW; [|discriminate]. cbn [obind] in E. assert (o = w) by congruence. subst o. clear E.
  destruct (fwd_cases Fl p (LDense l) m) as [(y & E & EF) | (_ & EF)]; [|congruence]. assert (y = w) by congruence. subst y. clear EF. cbn [layer_forward] in E.
  destruct m as [m|ms]; [|cbn in E; discriminate].
  assert (X : length m = inputs Fl l).
  { destruct (Nat.eq_dec (length m) (inputs Fl l)) as [|NQ]; [assumption|]. rewrite (proj2 (C40_rejects Fl p l) m NQ) in E. discriminate. }
  assert (E' := E). rewrite dense_forward_ok in E' by auto. apply obind_inv in E' as (y & _ & E'). assert (w = IOScalar y) by congruence. subst w. clear E'.
  destruct (proj1 (C40_forward Fl p l m W1 X y) E) as (LY & AY).
  exists y, (map (fun i => nth (s i) y (c_default Fl)) (seq 0 (units Fl l))). split; [reflexivity|]. split; [|split; [exact LY|]; split; [now rewrite map_length, seq_length | intros i Hi; now rewrite nth_map_seq]].
  assert (E2 : dense_forward Fl p l' (IOScalar m) = Ret (Ok (IOScalar (map (fun i => nth (s i) y (c_default Fl)) (seq 0 (units Fl l)))))).
  { apply (C40_forward Fl p l' m W2 ltac:(congruence)). rewrite map_length, seq_length, U. split; [reflexivity|]. intros i Hi. rewrite FN, nth_map_seq by lia.
    assert (PR : pre Fl l' m i = pre Fl l m (s i)) by (unfold pre; rewrite HB, I by exact Hi; f_equal; unfold sum_from; apply fold_left_ext; intros a q Hq; apply in_seq in Hq; now rewrite HW by lia).
    rewrite PR. apply AY, RE, Hi. }
  rewrite (fwd_ok Fl p (LDense l') (IOScalar m) _ E2). reflexivity.
Qed.
