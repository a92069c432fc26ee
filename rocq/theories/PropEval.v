(** * Properties of the evaluation of a network: accuracy and mean loss (C56, C57) *)
From Coq Require Import Reals Lra ZArith.
From Flocq Require Import Core BinarySingleNaN.
From Verif Require Import Base BaseFacts Float Matrix Cplx Random Act Input Loss Dense Conv Layer Dataset Network SpecMatrix MatrixFacts
  SpecLayer SpecConv SpecNet SpecEval DenseFacts LayerFacts NetFacts RFloat BFloat BFacts MaxFacts PropDense ExOps.
Local Notation P32 := Float.P32.
Local Notation P64 := Float.P64.
Local Open Scope nat_scope.

(** ** C56 *)
(** The index compared is the first one of maximal modulus, in exact arithmetic
    and in IEEE arithmetic without NaN. *)
Theorem C56_index_exact : forall l : list (cplx R), l <> [] -> first_max ROps l (max_index ROps l).
Proof.
  intros l NE.
  destruct (max_index_spec ROps _ l ordered_R I) as (L & M & FM); auto.
  { apply Forall_forall. intros e _. split; [exact I|]. apply Rltb_ge. unfold c_norm_sq, c_default. cbn. nra. }
  split; [exact L|]. split; [exact M | exact FM].
Qed.
Print Assumptions C56_index_exact.

Theorem C56_index_ieee : forall prec emax Hp He L (l : list (cplx (binary_float prec emax))), l <> [] ->
  (forall z, In z l -> is_nan (re z) = false /\ is_nan (im z) = false) ->
  first_max (BOps prec emax Hp He L) l (max_index (BOps prec emax Hp He L) l).
Proof.
  intros prec emax Hp He L l NE NN.
  destruct (max_index_spec (BOps prec emax Hp He L) _ l (ordered_B prec emax Hp He L)) as (A & M & FM); auto.
  { apply Forall_forall. intros e He'. destruct (NN e He'). apply norm_sq_B; auto. }
  split; [exact A|]. split; [exact M | exact FM].
Qed.
Print Assumptions C56_index_ieee.

(** Such an index is unique, and an empty vector gives 0. *)
Theorem C56_index_unique : forall (l : list (cplx (F ROps))) i j, first_max ROps l i -> first_max ROps l j -> i = j.
Proof.
  intros l i j (Li & Mi & Fi) (Lj & Mj & Fj).
  destruct (nth_error l i) as [a|] eqn:Ei; [|apply nth_error_None in Ei; lia].
  destruct (nth_error l j) as [b|] eqn:Ej; [|apply nth_error_None in Ej; lia].
  destruct (Nat.lt_trichotomy i j) as [H|[H|H]]; auto; exfalso.
  - specialize (Fj i a b H Ei eq_refl). specialize (Mi j b a Ej eq_refl). cbn [fltb ROps] in *. congruence.
  - specialize (Fi j b a H Ej eq_refl). specialize (Mj i a b Ei eq_refl). cbn [fltb ROps] in *. congruence.
Qed.
Print Assumptions C56_index_unique.

Lemma combine_nth_error : forall {A B} (l : list A) (m : list B) k a b,
  nth_error l k = Some a -> nth_error m k = Some b -> nth_error (combine l m) k = Some (a, b).
Proof.
  intros A B l. induction l as [|x l IH]; intros [|y m] [|k] a b Ha Hb; try discriminate; cbn in *.
  - congruence.
  - eauto.
Qed.

(** The accuracy is the number of points where prediction and target agree on
    that index, divided by the number of points, both converted to floats. *)
Theorem C56_accuracy : forall Fl p (n : network Fl) data preds targs,
  Forall2 (predicts Fl p n) (ds_inputs data) preds -> ds_target data = map (@IOScalar _) targs -> length targs = length preds ->
  net_max_pred_test Fl p n data =
    Ret (fdiv Fl (fofnat Fl (agreements (map (max_index Fl) preds) (map (max_index Fl) targs))) (fofnat Fl (length targs))).
Proof.
  intros Fl p n data preds targs FP ET LT. unfold net_max_pred_test, ds_points_iter. rewrite ET, map_length.
  assert (G : forall ins acc, Forall2 (predicts Fl p n) ins preds ->
     exists rs, mapM (fun it => prediction <-! net_forward Fl p n (fst it) ;; pred <- as_slice prediction ;; targ <- as_slice (snd it) ;;
        Ret (if max_index Fl targ =? max_index Fl pred then 1 else 0)) (combine ins (map (@IOScalar _) targs)) = Ret rs /\
        fold_left Nat.add rs acc = acc + agreements (map (max_index Fl) preds) (map (max_index Fl) targs)).
  { clear FP ET data. revert targs LT. induction preds as [|v preds IH]; intros [|t targs] LT ins acc FP; try discriminate.
    - inversion FP; subst. exists []. split; [reflexivity|]. cbn. lia.
    - inversion FP as [|x ? ins' ? H1 H2]; subst. cbn [length] in LT.
      destruct (IH targs (eq_add_S _ _ LT) ins' (acc + if max_index Fl t =? max_index Fl v then 1 else 0) H2) as (rs & E & S).
      exists ((if max_index Fl t =? max_index Fl v then 1 else 0) :: rs). cbn [map combine mapM fst snd].
      rewrite H1. cbn [unwrap obind as_slice]. rewrite E. cbn [obind]. split; [reflexivity|].
      cbn [fold_left agreements map]. rewrite S. rewrite (Nat.eqb_sym (max_index Fl v)). lia. }
  destruct (G (ds_inputs data) 0 FP) as (rs & -> & S). cbn [obind]. rewrite S. reflexivity.
Qed.
Print Assumptions C56_accuracy.

(** It panics as soon as one point fails to evaluate or is not a vector. *)
Theorem C56_panics : forall Fl p (n : network Fl) data k x t,
  nth_error (ds_inputs data) k = Some x -> nth_error (ds_target data) k = Some t ->
  (forall v, ~ predicts Fl p n x v) \/ (forall v, t <> IOScalar v) ->
  net_max_pred_test Fl p n data = Panic.
Proof.
  intros Fl p n data k x t Hx Ht H. unfold net_max_pred_test, ds_points_iter.
  rewrite (mapM_panic _ _ (x, t)); [reflexivity | eapply nth_error_In, combine_nth_error; eauto |]. cbn [fst snd].
  destruct (net_forward Fl p n x) as [[y|e]|] eqn:E; cbn [unwrap obind]; auto.
  destruct y as [v|ms]; cbn [as_slice obind]; auto.
  destruct H as [H|H]; [exfalso; eapply H; exact E|]. destruct t as [w|ms]; [exfalso; eapply H; reflexivity|]. reflexivity.
Qed.
Print Assumptions C56_panics.

(** In exact arithmetic, with the indices given by their specification: the
    fraction of agreeing points; between 0 and 1; 1 only when every point agrees. *)
Theorem C56_range : forall p (n : network ROps) data preds targs ips its,
  Forall2 (predicts ROps p n) (ds_inputs data) preds -> ds_target data = map (@IOScalar _) targs -> length targs = length preds ->
  targs <> [] -> Forall2 (first_max ROps) preds ips -> Forall2 (first_max ROps) targs its ->
  exists a : R, net_max_pred_test ROps p n data = Ret a /\ (a * INR (length targs) = INR (agreements ips its))%R /\ (0 <= a <= 1)%R /\
    (a = 1%R <-> ips = its).
Proof.
  intros p n data preds targs ips its FP ET LT NE F1 F2.
  rewrite (C56_accuracy ROps p n data preds targs FP ET LT).
  assert (IX : forall l is, Forall2 (first_max ROps) l is -> map (max_index ROps) l = is).
  { clear. intros l is H. induction H as [|v i l is H _ IH]; [reflexivity|]. cbn [map]. f_equal; [|exact IH].
    apply (C56_index_unique v); [|exact H]. apply C56_index_exact. destruct H as (L & _). intros ->. inversion L. }
  rewrite (IX _ _ F1), (IX _ _ F2). eexists. split; [reflexivity|].
  assert (IFN : forall m, (fofnat ROps m : R) = INR m).
  { intros m. unfold fofnat. cbn [fofN ROps]. rewrite nat_N_Z. symmetry. apply INR_IZR_INZ. }
  cbn [fdiv ROps]. rewrite !IFN.
  assert (P : (0 < INR (length targs))%R) by (apply lt_0_INR; destruct targs; [congruence|cbn; lia]).
  assert (L1 : length ips = length targs) by (apply Forall2_len in F1; congruence).
  assert (L2 : length its = length targs) by (apply Forall2_len in F2; congruence).
  assert (B : forall xs ys, agreements xs ys <= length ys).
  { induction xs as [|v ps IH]; intros [|t ts]; cbn; try lia. specialize (IH ts). destruct (_ =? _); lia. }
  assert (ALL : forall xs ys, length xs = length ys -> (agreements xs ys = length ys <-> xs = ys)).
  { clear - B. induction xs as [|x xs IH]; intros [|y ys] L; try discriminate.
    - split; reflexivity.
    - cbn [length] in L. specialize (IH ys (eq_add_S _ _ L)). pose proof (B xs ys) as BB. cbn [agreements length].
      destruct (x =? y) eqn:E.
      + apply Nat.eqb_eq in E. split.
        * intros H. f_equal; [exact E|]. apply IH. lia.
        * intros H. assert (EQ : xs = ys) by congruence. apply IH in EQ. lia.
      + apply Nat.eqb_neq in E. split; [lia|]. congruence. }
  pose proof (B ips its) as B1. rewrite L2 in B1. apply le_INR in B1. pose proof (pos_INR (agreements ips its)) as B0.
  assert (Q : (0 < / INR (length targs))%R) by now apply Rinv_0_lt_compat.
  assert (Q1 : (INR (length targs) * / INR (length targs) = 1)%R) by (apply Rinv_r; lra).
  unfold Rdiv. split; [|split; [split; nra|]].
  { rewrite Rmult_assoc, (Rmult_comm (/ _)), Q1. apply Rmult_1_r. }
  rewrite <- ALL by congruence. rewrite L2. split.
  - intros H. apply INR_eq. apply (Rmult_eq_reg_r (/ INR (length targs))); lra.
  - intros ->. exact Q1.
Qed.
Print Assumptions C56_range.

Definition ex_data : dataset (cplx Z) (cplx Z) :=
  mkData [IOScalar [mkC 1 0; mkC 1 1]; IOScalar [mkC 0 0; mkC 1 1]]%Z [IOScalar [mkC 3 0; mkC 0 (-9)]; IOScalar [mkC 7 0; mkC 0 1]]%Z.
Example C56_ex :
  Forall2 (predicts ZFl P32 [LDense ex_dense]) (ds_inputs ex_data)
    [[mkC 1 2; mkC 5 3]; [mkC 0 2; mkC 3 3]]%Z /\
  map (max_index ZFl) [[mkC 1 2; mkC 5 3]; [mkC 0 2; mkC 3 3]]%Z = [1; 1] /\
  map (max_index ZFl) [[mkC 3 0; mkC 0 (-9)]; [mkC 7 0; mkC 0 1]]%Z = [1; 0] /\ agreements [1; 1] [1; 0] = 1.
Proof. split; [repeat (constructor; [reflexivity|]); constructor | repeat split]. Qed.

(** ** C57 *)
(** Vectors or feature maps: whatever the loss function accepts. *)
Theorem C57_mean : forall Fl p (n : network Fl) data f preds v vs,
  Forall2 (fun x y => net_forward Fl p n x = Ret (Ok y)) (ds_inputs data) preds ->
  length (ds_target data) = length (ds_inputs data) ->
  Forall2 (fun q v => loss Fl (fst q) (snd q) f = Ok v) (combine (ds_target data) preds) (v :: vs) ->
  net_loss Fl p n data f = Ret (Ok (fdiv Fl (fold_left (fadd Fl) vs v) (fofnat Fl (ds_n_points data)))).
Proof.
  intros Fl p n [ins tgs] f preds v vs FP LT FL. unfold net_loss, ds_n_points. cbn [ds_points_iter ds_inputs ds_target] in *.
  assert (G : forall ins ls preds tgs, Forall2 (fun x y => net_forward Fl p n x = Ret (Ok y)) ins preds -> length tgs = length ins ->
     Forall2 (fun q v => loss Fl (fst q) (snd q) f = Ok v) (combine tgs preds) ls ->
     mapM (fun it => pred <-! net_forward Fl p n (fst it) ;; unwrap (loss Fl (snd it) pred f)) (combine ins tgs) = Ret ls).
  { clear. intros ins ls preds tgs FP. revert tgs ls. induction FP as [|x v ins preds H FP IH]; intros [|t tgs] ls LT FL; try discriminate.
    - inversion FL; reflexivity.
    - inversion FL as [|? l ? ls' E FL']; subst. cbn [combine mapM fst snd] in *. rewrite H. cbn [unwrap obind]. rewrite E. cbn [unwrap obind].
      cbn [length] in LT. rewrite (IH tgs ls'); auto. }
  rewrite (G _ _ _ _ FP LT FL). cbn [obind reduce unwrap_opt].
  replace (length (v :: vs)) with (length ins); [reflexivity|].
  apply Forall2_len in FL. rewrite <- FL, combine_length. apply Forall2_len in FP. lia.
Qed.
Print Assumptions C57_mean.

(** Everything else is a panic: no data, a point that does not evaluate, a target
    and a prediction of different kinds.  The call never returns an error. *)
Theorem C57_otherwise : forall Fl p (n : network Fl) data f,
  length (ds_target data) = length (ds_inputs data) ->
  (exists preds v vs, Forall2 (fun x y => net_forward Fl p n x = Ret (Ok y)) (ds_inputs data) preds /\
     Forall2 (fun q v => loss Fl (fst q) (snd q) f = Ok v) (combine (ds_target data) preds) (v :: vs)) \/
  (net_loss Fl p n data f = Panic /\
   (ds_inputs data = [] \/
    exists k x t, nth_error (ds_inputs data) k = Some x /\ nth_error (ds_target data) k = Some t /\
      forall y, net_forward Fl p n x = Ret (Ok y) -> loss Fl t y f = Err InconsistentIO)).
Proof.
  intros Fl p n [ins tgs] f. cbn [ds_inputs ds_target]. intros LL.
  unfold net_loss. cbn [ds_points_iter ds_inputs ds_target].
  assert (G : forall ins tgs, length tgs = length ins ->
    (exists preds vs, Forall2 (fun x y => net_forward Fl p n x = Ret (Ok y)) ins preds /\
     Forall2 (fun q v => loss Fl (fst q) (snd q) f = Ok v) (combine tgs preds) vs) \/
    (mapM (fun it => pred <-! net_forward Fl p n (fst it) ;; unwrap (loss Fl (snd it) pred f)) (combine ins tgs) = Panic /\
     exists k x t, nth_error ins k = Some x /\ nth_error tgs k = Some t /\
      forall y, net_forward Fl p n x = Ret (Ok y) -> loss Fl t y f = Err InconsistentIO)).
  { clear. induction ins as [|x ins IH]; intros [|t tgs] LL; try discriminate.
    - left. exists [], []. repeat split; constructor.
    - cbn [length] in LL. cbn [combine mapM fst snd].
      destruct (net_forward Fl p n x) as [[y|e]|] eqn:EF; cbn [unwrap obind];
        try (right; split; [reflexivity|]; exists 0, x, t; repeat split; auto; intros y' H; congruence).
      destruct (loss Fl t y f) as [l|e] eqn:EL; cbn [unwrap obind].
      + destruct (IH tgs (eq_add_S _ _ LL)) as [(preds & vs & F1 & F2) | (PP & k & x' & t' & K1 & K2 & D)].
        * left. exists (y :: preds), (l :: vs). split; constructor; auto.
        * right. split; [|exists (S k), x', t'; auto]. rewrite PP. reflexivity.
      + right. split; [reflexivity|]. exists 0, x, t. repeat split; auto. intros y' H. replace y' with y by congruence.
        rewrite EL. destruct y, t; cbn [loss] in EL; congruence. }
  destruct (G ins tgs LL) as [(preds & vs & F1 & F2) | (PP & W)].
  - destruct vs as [|v vs].
    + right. destruct ins as [|x ins]; [destruct tgs; [cbn; auto | discriminate]|]. exfalso. inversion F1; subst. destruct tgs; [discriminate|]. inversion F2.
    + left. exists preds, v, vs. auto.
  - right. rewrite PP. cbn [obind]. auto.
Qed.
Print Assumptions C57_otherwise.

Example C57_ex :
  Forall2 (fun q v => loss ZFl (fst q) (snd q) MeanSquare = Ok v)
    (combine (ds_target ex_data) [IOScalar [mkC 1 2; mkC 5 3]; IOScalar [mkC 0 2; mkC 3 3]])%Z [177; 66]%Z /\
  net_loss ZFl P32 [LDense ex_dense] ex_data MeanSquare = Ret (Ok 121%Z).
Proof. split; [repeat (constructor; [reflexivity|]); constructor | reflexivity]. Qed.
