(** * Property C108: data that determine the weights make training fast *)
From Coq Require Import Reals Lra Psatz.
From Verif Require Import Base BaseFacts Float Matrix Cplx Random Act Input Loss Dense Conv Layer Dataset Network SpecMatrix RFloat CFacts SpecLayer SpecConv SpecNet SpecLoss LossFacts LayerCalc PropTrain TrainLaws
  SpecGeom SpecDead SpecFit FitFacts FitNet PropFit OnlineFacts SpecGeometric GeometricFacts GeometricEx RunsEx.
Local Open Scope R_scope.

(** A training step leaves a layer alone exactly when no other one has a
    smaller loss. *)
Theorem C108_fixed : forall p (feat : network ROps) g d m lo pts (lr : R),
  feat <> [] -> Forall no_params feat -> fit_all ROps feat g (Vec d) -> Forall (trainable ROps) feat ->
  linear d m lo -> (2 <= m)%nat -> pts <> [] ->
  (forall x t, In (x, t) pts -> has_geom g x /\ exists v, t = IOScalar v /\ length v = m) -> lr <> 0 ->
  net_gradient_opt ROps p (feat ++ [LDense lo]) (batch pts) MeanSquare (mkC lr 0) = Ret (feat ++ [LDense lo], Ok tt) <-> best p feat d m pts lo.
Proof. exact fixed_best. Qed.
Print Assumptions C108_fixed.

(** Data that tell all units apart by [mu]: after [T] steps the squared distance
    to the best layer is at most (1 - rate mu)^T times what it was, and the loss
    exceeds the smallest one by at most that over rate (m - 1).  The targets
    need not be met. *)
Theorem C108_geometric : forall p (feat : network ROps) g d m l lo pts (lr mu : R) T,
  feat <> [] -> Forall no_params feat -> fit_all ROps feat g (Vec d) -> Forall (trainable ROps) feat ->
  linear d m l -> best p feat d m pts lo -> (2 <= m)%nat -> pts <> [] ->
  (forall x t, In (x, t) pts -> has_geom g x /\ exists v, t = IOScalar v /\ length v = m) ->
  0 < lr -> lr * sizes_of p feat pts <= INR (length pts) -> 0 <= mu -> spread p feat d pts mu ->
  exists l' a b, train_steps ROps p (feat ++ [LDense l]) (repeat (batch pts, MeanSquare, mkC lr 0) T) = Ret (feat ++ [LDense l']) /\ linear d m l' /\
    net_loss ROps p (feat ++ [LDense l']) (batch pts) MeanSquare = Ret (Ok a) /\
    net_loss ROps p (feat ++ [LDense lo]) (batch pts) MeanSquare = Ret (Ok b) /\
    0 <= 1 - lr * mu <= 1 /\
    dist_sq l' lo <= (1 - lr * mu) ^ T * dist_sq l lo /\
    a <= b + (1 - lr * mu) ^ T * dist_sq l lo / (lr * (INR m - 1)).
Proof. exact geometric. Qed.
Print Assumptions C108_geometric.

(** The best layer is then the only one. *)
Theorem C108_unique : forall p (feat : network ROps) g d m lo lo' pts (mu : R),
  feat <> [] -> Forall no_params feat -> fit_all ROps feat g (Vec d) -> Forall (trainable ROps) feat ->
  best p feat d m pts lo -> best p feat d m pts lo' -> (2 <= m)%nat -> pts <> [] ->
  (forall x t, In (x, t) pts -> has_geom g x /\ exists v, t = IOScalar v /\ length v = m) ->
  0 < mu -> spread p feat d pts mu ->
  (forall i, nth i (d_biases lo) 0%RC = nth i (d_biases lo') 0%RC) /\ body (d_weights lo) = body (d_weights lo').
Proof. exact unique. Qed.
Print Assumptions C108_unique.

(** Such a layer always exists. *)
Theorem C108_exists : forall p (feat : network ROps) g d m,
  feat <> [] -> Forall no_params feat -> fit_all ROps feat g (Vec d) -> Forall (trainable ROps) feat -> (2 <= m)%nat -> (0 < d)%nat ->
  forall pts, pts <> [] -> (forall x t, In (x, t) pts -> has_geom g x /\ exists v, t = IOScalar v /\ length v = m) ->
  forall mu : R, 0 < mu -> spread p feat d pts mu -> exists lo, best p feat d m pts lo.
Proof. exact best_exists. Qed.
Print Assumptions C108_exists.

(** From any start training ends up as close to it as one likes. *)
Theorem C108_limit : forall p (feat : network ROps) g d m l lo pts (lr mu e : R),
  feat <> [] -> Forall no_params feat -> fit_all ROps feat g (Vec d) -> Forall (trainable ROps) feat ->
  linear d m l -> best p feat d m pts lo -> (2 <= m)%nat -> pts <> [] ->
  (forall x t, In (x, t) pts -> has_geom g x /\ exists v, t = IOScalar v /\ length v = m) ->
  0 < lr -> lr * sizes_of p feat pts <= INR (length pts) -> 0 < mu -> spread p feat d pts mu -> 0 < e ->
  exists T0, forall T, (T0 <= T)%nat -> exists l',
    train_steps ROps p (feat ++ [LDense l]) (repeat (batch pts, MeanSquare, mkC lr 0) T) = Ret (feat ++ [LDense l']) /\ dist_sq l' lo < e.
Proof. exact limit. Qed.
Print Assumptions C108_limit.

(** Without that the weights need not come any closer to other best ones: two
    layers with no loss at all, of which training never moves the one. *)
Theorem C108_flat_refuted : exists (feat : network ROps) l lo pts, best P64 feat 1 2 pts l /\ best P64 feat 1 2 pts lo /\ dist_sq l lo = 25 /\
  forall (lr : R) T, lr <> 0 -> train_steps ROps P64 (feat ++ [LDense l]) (repeat (batch pts, MeanSquare, mkC lr 0) T) = Ret (feat ++ [LDense l]).
Proof. exact flat. Qed.
Print Assumptions C108_flat_refuted.

(** ** A concrete case: four points with contradicting targets *)
Example C108_ex : fit_all ROps fit_feat (Maps 1 1 1) (Vec 1) /\ (forall x t, In (x, t) four_pts -> has_geom (Maps 1 1 1) x /\ exists v, t = IOScalar v /\ length v = 2%nat) /\
  best P64 fit_feat 1 2 four_pts four_best /\ spread P64 fit_feat 1 four_pts 1 /\ 1 / 2 * sizes_of P64 fit_feat four_pts <= INR (length four_pts) /\
  dist_sq fit_layer four_best = 1 / 4 /\ net_loss ROps P64 (fit_feat ++ [LDense four_best]) (batch four_pts) MeanSquare = Ret (Ok (1 / 4)).
Proof. exact four. Qed.
