(** * Property C110: disturbances do not build up, and one example has limited weight *)
From Coq Require Import Reals Lra Psatz.
From Verif Require Import Base BaseFacts Float Matrix Cplx Random Act Input Loss Dense Conv Layer Dataset Network SpecMatrix RFloat CFacts SpecLayer SpecConv SpecNet SpecLoss PropTrain
  SpecGeom SpecDead SpecFit PropFit SpecGeometric GeometricEx SpecNoise NoiseFacts NoiseEx.
Local Open Scope R_scope.

(** Any batches in any order, with rates small enough for them: a run whose
    steps are disturbed ends no further from the undisturbed one than it started,
    plus the sum of the disturbances. *)
Theorem C110_sum : forall p (feat : network ROps) g d m (bs : noisy_run) l k l',
  feat <> [] -> Forall no_params feat -> fit_all ROps feat g (Vec d) -> Forall (trainable ROps) feat ->
  linear d m l -> linear d m k ->
  (forall pts lr mu e, In (pts, lr, mu, e) bs -> pts <> [] /\ 0 < lr /\ lr * sizes_of p feat pts <= INR (length pts) /\
     (forall x t, In (x, t) pts -> has_geom g x /\ exists v, t = IOScalar v /\ length v = m)) ->
  disturbed p feat d m l bs l' ->
  exists k', train_steps ROps p (feat ++ [LDense k]) (steps_of bs) = Ret (feat ++ [LDense k']) /\ linear d m k' /\ linear d m l' /\ dist l' k' <= dist l k + total_noise bs.
Proof. exact noisy_total. Qed.
Print Assumptions C110_sum.

(** Batches that tell all units apart make the earlier disturbances fade. *)
Theorem C110_fades : forall p (feat : network ROps) g d m,
  feat <> [] -> Forall no_params feat -> fit_all ROps feat g (Vec d) -> Forall (trainable ROps) feat ->
  forall (bs : noisy_run) l k l', linear d m l -> linear d m k ->
  (forall pts lr mu e, In (pts, lr, mu, e) bs -> pts <> [] /\ 0 < lr /\ lr * sizes_of p feat pts <= INR (length pts) /\ spread p feat d pts mu /\
     (forall x t, In (x, t) pts -> has_geom g x /\ exists v, t = IOScalar v /\ length v = m)) ->
  disturbed p feat d m l bs l' ->
  exists k', train_steps ROps p (feat ++ [LDense k]) (steps_of bs) = Ret (feat ++ [LDense k']) /\ linear d m k' /\ linear d m l' /\ dist l' k' <= carried (dist l k) bs.
Proof. exact noisy. Qed.
Print Assumptions C110_fades.

(** However many steps: disturbances of at most [e] each leave the layer within
    2 e / (rate mu) of the best one, apart from a start that is forgotten. *)
Theorem C110_ball : forall p (feat : network ROps) g d m,
  feat <> [] -> Forall no_params feat -> fit_all ROps feat g (Vec d) -> Forall (trainable ROps) feat -> (2 <= m)%nat ->
  forall l lo l' pts (lr mu e : R) T, linear d m l -> best p feat d m pts lo -> pts <> [] ->
  (forall x t, In (x, t) pts -> has_geom g x /\ exists v, t = IOScalar v /\ length v = m) ->
  0 < lr -> lr * sizes_of p feat pts <= INR (length pts) -> 0 < mu -> spread p feat d pts mu -> 0 <= e ->
  disturbed p feat d m l (repeat (pts, lr, mu, e) T) l' ->
  sqrt (1 - lr * mu) < 1 /\ dist l' lo <= sqrt (1 - lr * mu) ^ T * dist l lo + 2 * e / (lr * mu).
Proof. exact ball. Qed.
Print Assumptions C110_ball.

(** Two training sets that differ in one example, trained on from the same
    start for any number of steps: the layers differ by at most 2 B / (N mu),
    where N is the size of the sets and B bounds how hard the two examples pull
    along the second run. *)
Theorem C110_example : forall p (feat : network ROps) g d m,
  feat <> [] -> Forall no_params feat -> fit_all ROps feat g (Vec d) -> Forall (trainable ROps) feat -> (2 <= m)%nat ->
  forall a b it it',
  (forall x t, In (x, t) (a ++ it :: b) -> has_geom g x /\ exists v, t = IOScalar v /\ length v = m) ->
  (forall x t, In (x, t) (a ++ it' :: b) -> has_geom g x /\ exists v, t = IOScalar v /\ length v = m) ->
  forall mu : R, 0 < mu -> spread p feat d (a ++ it :: b) mu ->
  forall l (lr B : R) T, linear d m l -> 0 < lr -> lr * sizes_of p feat (a ++ it :: b) <= INR (length (a ++ it :: b)) -> 0 <= B ->
  (forall t h, (t < T)%nat -> train_steps ROps p (feat ++ [LDense l]) (repeat (batch (a ++ it' :: b), MeanSquare, mkC lr 0) t) = Ret (feat ++ [LDense h]) ->
     pull p feat h it + pull p feat h it' <= B) ->
  exists l1 l2, train_steps ROps p (feat ++ [LDense l]) (repeat (batch (a ++ it :: b), MeanSquare, mkC lr 0) T) = Ret (feat ++ [LDense l1]) /\
    train_steps ROps p (feat ++ [LDense l]) (repeat (batch (a ++ it' :: b), MeanSquare, mkC lr 0) T) = Ret (feat ++ [LDense l2]) /\ linear d m l1 /\ linear d m l2 /\
    dist l1 l2 <= 2 * B / (INR (length (a ++ it :: b)) * mu).
Proof. exact one_example. Qed.
Print Assumptions C110_example.

(** The same for the best layers of the two sets, and for what they answer to
    any input: no run comes into it. *)
Theorem C110_best : forall p (feat : network ROps) g d m,
  feat <> [] -> Forall no_params feat -> fit_all ROps feat g (Vec d) -> Forall (trainable ROps) feat -> (2 <= m)%nat ->
  forall a b it it',
  (forall x t, In (x, t) (a ++ it :: b) -> has_geom g x /\ exists v, t = IOScalar v /\ length v = m) ->
  (forall x t, In (x, t) (a ++ it' :: b) -> has_geom g x /\ exists v, t = IOScalar v /\ length v = m) ->
  forall mu : R, 0 < mu -> spread p feat d (a ++ it :: b) mu ->
  forall lo lo', best p feat d m (a ++ it :: b) lo -> best p feat d m (a ++ it' :: b) lo' ->
  dist lo lo' <= 2 * (pull p feat lo' it + pull p feat lo' it') / (INR (length (a ++ it :: b)) * mu).
Proof. exact best_layers. Qed.
Print Assumptions C110_best.

Theorem C110_answers : forall p (feat : network ROps) g d m,
  feat <> [] -> Forall no_params feat -> fit_all ROps feat g (Vec d) -> Forall (trainable ROps) feat -> (2 <= m)%nat ->
  forall a b it it',
  (forall x t, In (x, t) (a ++ it :: b) -> has_geom g x /\ exists v, t = IOScalar v /\ length v = m) ->
  (forall x t, In (x, t) (a ++ it' :: b) -> has_geom g x /\ exists v, t = IOScalar v /\ length v = m) ->
  forall mu : R, 0 < mu -> spread p feat d (a ++ it :: b) mu ->
  forall lo lo' x, best p feat d m (a ++ it :: b) lo -> best p feat d m (a ++ it' :: b) lo' -> has_geom g x -> exists u v,
  net_forward ROps p (feat ++ [LDense lo]) x = Ret (Ok (IOScalar u)) /\ net_forward ROps p (feat ++ [LDense lo']) x = Ret (Ok (IOScalar v)) /\ length u = m /\ length v = m /\
  rsum (fun i => c_norm_sq ROps (nth i u 0 - nth i v 0)%RC) m <=
    size_of p feat x * (2 * (pull p feat lo' it + pull p feat lo' it') / (INR (length (a ++ it :: b)) * mu)) ^ 2.
Proof. exact best_answers. Qed.
Print Assumptions C110_answers.

(** On data that do not tell all units apart the disturbances can pile up
    without end. *)
Theorem C110_piles_up_refuted : exists (feat : network ROps) l pts, best P64 feat 1 2 pts l /\
  forall (lr e : R) T, lr <> 0 -> 0 <= e -> exists l', disturbed P64 feat 1 2 l (repeat (pts, lr, 0, e) T) l' /\ dist l' l = INR T * e.
Proof. exact piles_up. Qed.
Print Assumptions C110_piles_up_refuted.

(** ** A concrete case: four points, of which one gets another target; the best
    layers are then as far apart as the root of 1/2, where the bound allows twice
    as much. *)
Example C110_ex : four_pts = [] ++ first_pt :: tl four_pts /\ best P64 fit_feat 1 2 four_pts four_best /\ best P64 fit_feat 1 2 ([] ++ other_pt :: tl four_pts) other_best /\
  spread P64 fit_feat 1 four_pts 1 /\ dist_sq four_best other_best = 1 / 2 /\ pull P64 fit_feat other_best first_pt = sqrt (1 / 2) /\ pull P64 fit_feat other_best other_pt = sqrt (9 / 2).
Proof. exact other. Qed.

(** And a run on them that is disturbed in one weight, by 1, after its only step. *)
Example C110_ex_run : exists l', disturbed P64 fit_feat 1 2 four_best [(four_pts, 1 / 2, 1, 1)] l' /\ dist l' four_best = 1 /\ 1 / 2 * sizes_of P64 fit_feat four_pts <= INR (length four_pts).
Proof. exact disturbed_four. Qed.
