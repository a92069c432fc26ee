(** * Property C107: testing on every batch before training on it *)
From Coq Require Import Reals Lra.
From Verif Require Import Base BaseFacts Float Matrix Cplx Random Act Input Loss Dense Conv Layer Dataset Network SpecMatrix RFloat CFacts SpecLayer SpecConv SpecNet SpecLoss SpecEval PropTrain PropEval
  SpecGeom SpecDead SpecFit FitFacts FitNet PropFit SpecError ErrorFacts SpecOnline OnlineFacts.
Local Open Scope R_scope.

(** Batches arrive one after the other; the network is measured on each before
    it is trained on it.  If some weights [lo] of the last layer solve all the
    batches, the losses seen add up to a bounded amount, however many batches
    there are, in whatever order. *)
Theorem C107_loss : forall p (feat : network ROps) g d m l lo f (lr : R) bs,
  feat <> [] -> Forall no_params feat -> fit_all ROps feat g (Vec d) -> Forall (trainable ROps) feat ->
  linear d m l -> linear d m lo -> (2 <= m)%nat -> 0 < lr ->
  (forall b, In b bs -> b <> [] /\ lr * sizes_of p feat b <= INR (length b) /\
     (forall x t, In (x, t) b -> has_geom g x /\ exists v, t = IOScalar v /\ length v = m) /\
     net_loss ROps p (feat ++ [LDense lo]) (batch b) MeanSquare = Ret (Ok 0)) ->
  exists l' vs,
    train_steps ROps p (feat ++ [LDense l]) (map (fun b => (batch b, f, mkC lr 0)) bs) = Ret (feat ++ [LDense l']) /\ linear d m l' /\
    before (square_score p) p (feat ++ [LDense l]) f lr (map batch bs) = Ret vs /\ length vs = length bs /\ Forall (Rle 0) vs /\
    dist_sq l' lo + (INR m - 1) * (lr * total_of vs) <= dist_sq l lo.
Proof. intros p feat g d m l lo f lr bs FN FP FF FT L LO M LR H. exact (online_loss p feat g d m FN FP FF FT M lo LO f lr LR bs l L H). Qed.
Print Assumptions C107_loss.

(** A classifier: the error rates seen add up to at most 2 dist^2 / rate, and if
    no batch has more than [N] points, at most 2 N dist^2 / rate batches are
    met with an error; dist is the distance from the weights at the start to
    the solving ones. *)
Theorem C107_mistakes : forall p (feat : network ROps) g d m l lo f (lr : R) bs,
  feat <> [] -> Forall no_params feat -> fit_all ROps feat g (Vec d) -> Forall (trainable ROps) feat ->
  linear d m l -> linear d m lo -> (2 <= m)%nat -> 0 < lr ->
  (forall b, In b bs -> b <> [] /\ lr * sizes_of p feat b <= INR (length b) /\
     (forall x t, In (x, t) b -> has_geom g x /\ exists k, (k < m)%nat /\ t = IOScalar (one_hot m k)) /\
     net_loss ROps p (feat ++ [LDense lo]) (batch b) MeanSquare = Ret (Ok 0)) ->
  exists us, before (accuracy_score p) p (feat ++ [LDense l]) f lr (map batch bs) = Ret us /\ length us = length bs /\ Forall (fun a => a <= 1) us /\
    lr * total_of (map (fun a => 1 - a) us) <= 2 * dist_sq l lo /\
    forall N, (forall b, In b bs -> (length b <= N)%nat) -> lr * INR (imperfect us) <= 2 * INR N * dist_sq l lo.
Proof.
  intros p feat g d m l lo f lr bs FN FP FF FT L LO M LR H.
  assert (H' : forall b, In b bs -> fed p feat g m lo lr b /\ labels m b).
  { intros b I. destruct (H b I) as (NB & SM & OK & Z). split; [|intros x t J; exact (proj2 (OK x t J))]. split; [exact NB|]. split; [exact SM|]. split; [|exact Z].
    intros x t J. destruct (OK x t J) as (G & k & K & ->). split; [exact G|]. exists (one_hot m k). split; [reflexivity | apply one_hot_length]. }
  destruct (online_accuracy p feat g d m FN FP FF FT M lo LO f lr LR bs l L H') as (l' & us & _ & _ & E & LU & FU & C & CN).
  exists us. split; [exact E|]. split; [exact LU|]. split; [exact FU|]. pose proof (dist_nonneg l' lo) as D0. split; [lra|]. intros N HN. specialize (CN N HN). pose proof (pos_INR N).
  assert (0 <= dist_sq l' lo * (2 * INR N)) by (apply Rmult_le_pos; lra). lra.
Qed.
Print Assumptions C107_mistakes.

(** On an endless stream of such batches there is an end to the errors. *)
Theorem C107_eventually : forall p (feat : network ROps) g d m l lo f (lr : R) N (s : nat -> list (IOType RC * IOType RC)),
  feat <> [] -> Forall no_params feat -> fit_all ROps feat g (Vec d) -> Forall (trainable ROps) feat ->
  linear d m l -> linear d m lo -> (2 <= m)%nat -> 0 < lr ->
  (forall T, s T <> [] /\ (length (s T) <= N)%nat /\ lr * sizes_of p feat (s T) <= INR (length (s T)) /\
     (forall x t, In (x, t) (s T) -> has_geom g x /\ exists k, (k < m)%nat /\ t = IOScalar (one_hot m k)) /\
     net_loss ROps p (feat ++ [LDense lo]) (batch (s T)) MeanSquare = Ret (Ok 0)) ->
  exists T0, forall T, (T0 <= T)%nat -> exists n',
    train_steps ROps p (feat ++ [LDense l]) (map (fun i => (batch (s i), f, mkC lr 0)) (seq 0 T)) = Ret n' /\
    net_max_pred_test ROps p n' (batch (s T)) = Ret 1.
Proof.
  intros p feat g d m l lo f lr N s FN FP FF FT L LO M LR H.
  assert (H' : forall T, fed p feat g m lo lr (s T) /\ labels m (s T) /\ (length (s T) <= N)%nat).
  { intros T. destruct (H T) as (NB & HN & SM & OK & Z). split; [|split; [intros x t J; exact (proj2 (OK x t J)) | exact HN]]. split; [exact NB|]. split; [exact SM|]. split; [|exact Z].
    intros x t J. destruct (OK x t J) as (G & k & K & ->). split; [exact G|]. exists (one_hot m k). split; [reflexivity | apply one_hot_length]. }
  assert (exists K, dist_sq l lo * (2 * INR N) < lr * INR K) as (K & HK).
  { destruct (archimed (dist_sq l lo * (2 * INR N) / lr)) as (A & _). exists (Z.to_nat (up (dist_sq l lo * (2 * INR N) / lr))).
    assert (P : 0 <= dist_sq l lo * (2 * INR N) / lr).
    { apply Rmult_le_pos; [apply Rmult_le_pos; [apply dist_nonneg | pose proof (pos_INR N); lra] | apply Rlt_le, Rinv_0_lt_compat; exact LR]. }
    rewrite (INR_IZR_INZ (Z.to_nat _)), Z2Nat.id by (apply le_IZR; lra). apply (Rmult_lt_compat_l lr) in A; [|exact LR].
    replace (lr * (dist_sq l lo * (2 * INR N) / lr)) with (dist_sq l lo * (2 * INR N)) in A by (field; lra). exact A. }
  destruct (eventually p feat g d m FN FP FF FT M lo LO f lr LR N K l s L H' HK) as (T0 & G). exists T0. intros T HT. destruct (G T HT) as (l' & E & A). exists (feat ++ [LDense l']). split; [|exact A].
  unfold first_of in E. rewrite map_map in E. exact E.
Qed.
Print Assumptions C107_eventually.

(** Without weights that solve the batches there is no end: a batch showing one
    input with two classes is met with an error by every network. *)
Theorem C107_noise_refuted : forall p (n : network ROps) x, (exists v, predicts ROps p n x v /\ length v = 2%nat) ->
  net_max_pred_test ROps p n (labelled 2 [x; x] [0; 1]%nat) = Ret (1 / 2).
Proof.
  intros p n x (v & P & LV). assert (NV : v <> []) by (destruct v; discriminate).
  destruct (C56_range p n (labelled 2 [x; x] [0; 1]%nat) [v; v] [one_hot 2 0; one_hot 2 1] [max_index ROps v; max_index ROps v] [0; 1]%nat) as (a & E & A & _).
  - repeat constructor; exact P.
  - reflexivity.
  - reflexivity.
  - discriminate.
  - repeat constructor; apply C56_index_exact; exact NV.
  - assert (OH : forall k, (k < 2)%nat -> first_max ROps (one_hot 2 k) k) by (intros k K; rewrite <- (max_one_hot 2 k K) at 2; apply C56_index_exact; discriminate).
    apply Forall2_cons; [apply OH; lia|]. apply Forall2_cons; [apply OH; lia | apply Forall2_nil].
  - rewrite E. f_equal. pose proof (max_lt v NV) as H. rewrite LV in H. destruct (max_index ROps v) as [|[|]]; [| |lia]; cbn in A; change (F ROps) with R in *; lra.
Qed.
Print Assumptions C107_noise_refuted.

(** ** A concrete case *)
(** A stream of the inputs 1, of class 0, and -1, of class 1, in any order. *)
Definition on_pt (b : bool) : IOType RC * IOType RC := if b then (one_map (mkC 1 0), IOScalar (one_hot 2 0)) else (one_map (mkC (-1) 0), IOScalar (one_hot 2 1)).
Definition on_best : dense ROps := mkDense ROps (from_body [mkC (1 / 2) 0; mkC (- 1 / 2) 0] 2 1) [mkC (1 / 2) 0; mkC (1 / 2) 0] ActNone.

Example C107_ex : forall p (s : nat -> bool), fit_feat <> [] /\ Forall no_params fit_feat /\ fit_all ROps fit_feat (Maps 1 1 1) (Vec 1) /\ Forall (trainable ROps) fit_feat /\
  linear 1 2 fit_layer /\ linear 1 2 on_best /\ dist_sq fit_layer on_best = 1 /\
  forall T, 1 / 2 * sizes_of p fit_feat [on_pt (s T)] <= INR (length [on_pt (s T)]) /\
    (forall x t, In (x, t) [on_pt (s T)] -> has_geom (Maps 1 1 1) x /\ exists k, (k < 2)%nat /\ t = IOScalar (one_hot 2 k)) /\
    net_loss ROps p (fit_feat ++ [LDense on_best]) (batch [on_pt (s T)]) MeanSquare = Ret (Ok 0).
Proof.
  intros p s. split; [discriminate|]. split; [repeat constructor|]. split; [exact fit_fits|]. split; [repeat constructor|]. split; [exact fit_linear|].
  assert (LB : linear 1 2 on_best) by (repeat split; discriminate). split; [exact LB|]. split; [unfold dist_sq; cbn; unfold fsq; cbn; field|]. intros T.
  assert (OK : forall x t, In (x, t) [on_pt (s T)] -> has_geom (Maps 1 1 1) x /\ exists k, (k < 2)%nat /\ t = IOScalar (one_hot 2 k)).
  { intros x t [E|[]]. destruct (s T); cbn [on_pt] in E; injection E as <- <-; (split; [cbn [has_geom one_map]; split; [reflexivity|]; intros mt [<-|[]]; repeat split|]); [exists 0%nat | exists 1%nat]; (split; [lia | reflexivity]). }
  split; [destruct (s T); unfold sizes_of, size_of; cbn; unfold fsq; cbn; lra|]. split; [exact OK|].
  rewrite (lin_loss p fit_feat (Maps 1 1 1) 1 2); [| discriminate | repeat constructor | exact fit_fits | repeat constructor | exact LB | discriminate | lia |].
  - do 2 f_equal. destruct (s T); cbn; unfold nsq; cbn; field.
  - intros [x t] I. destruct (OK x t I) as (G & k & K & E). split; [exact G|]. exists (one_hot 2 k). split; [exact E | apply one_hot_length].
Qed.
