(** * Property C109: two training runs on the same data come together *)
From Coq Require Import Reals Lra Psatz.
From Verif Require Import Base BaseFacts Float Matrix Cplx Random Act Input Loss Dense Conv Layer Dataset Network SpecMatrix RFloat CFacts SpecLayer SpecConv SpecNet SpecLoss PropTrain
  SpecGeom SpecDead SpecFit PropFit SpecGeometric GeometricEx SpecRuns RunsFacts RunsEx.
Local Open Scope R_scope.

(** Any batches in any order, with rates small enough for them: two runs never
    move apart, wherever they start. *)
Theorem C109_no_drift : forall p (feat : network ROps) g d m l k (bs : list (list (IOType RC * IOType RC) * R)),
  feat <> [] -> Forall no_params feat -> fit_all ROps feat g (Vec d) -> Forall (trainable ROps) feat ->
  linear d m l -> linear d m k ->
  (forall pts lr, In (pts, lr) bs -> pts <> [] /\ 0 < lr /\ lr * sizes_of p feat pts <= INR (length pts) /\
     (forall x t, In (x, t) pts -> has_geom g x /\ exists v, t = IOScalar v /\ length v = m)) ->
  let steps := map (fun b => (batch (fst b), MeanSquare, mkC (snd b) 0 : RC)) bs in
  exists l' k', train_steps ROps p (feat ++ [LDense l]) steps = Ret (feat ++ [LDense l']) /\ train_steps ROps p (feat ++ [LDense k]) steps = Ret (feat ++ [LDense k']) /\
    linear d m l' /\ linear d m k' /\ dist_sq l' k' <= dist_sq l k.
Proof. exact no_drift. Qed.
Print Assumptions C109_no_drift.

(** Batches that tell all units apart bring them together: every step takes the
    factor 1 - rate mu off their squared distance. *)
Theorem C109_together : forall p (feat : network ROps) g d m,
  feat <> [] -> Forall no_params feat -> fit_all ROps feat g (Vec d) -> Forall (trainable ROps) feat ->
  forall (bs : run) l k, linear d m l -> linear d m k ->
  (forall pts lr mu, In (pts, lr, mu) bs -> pts <> [] /\ 0 < lr /\ lr * sizes_of p feat pts <= INR (length pts) /\ 0 <= mu /\ spread p feat d pts mu /\
     (forall x t, In (x, t) pts -> has_geom g x /\ exists v, t = IOScalar v /\ length v = m)) ->
  exists l' k', train_steps ROps p (feat ++ [LDense l]) (run_of bs) = Ret (feat ++ [LDense l']) /\ train_steps ROps p (feat ++ [LDense k]) (run_of bs) = Ret (feat ++ [LDense k']) /\
    linear d m l' /\ linear d m k' /\ 0 <= shrink bs <= 1 /\ dist_sq l' k' <= shrink bs * dist_sq l k.
Proof. exact two_runs. Qed.
Print Assumptions C109_together.

(** The same for what the two networks answer to any input. *)
Theorem C109_answers : forall p (feat : network ROps) g d m l k (bs : run) x,
  feat <> [] -> Forall no_params feat -> fit_all ROps feat g (Vec d) -> Forall (trainable ROps) feat ->
  linear d m l -> linear d m k -> has_geom g x ->
  (forall pts lr mu, In (pts, lr, mu) bs -> pts <> [] /\ 0 < lr /\ lr * sizes_of p feat pts <= INR (length pts) /\ 0 <= mu /\ spread p feat d pts mu /\
     (forall x t, In (x, t) pts -> has_geom g x /\ exists v, t = IOScalar v /\ length v = m)) ->
  exists n n' u v, train_steps ROps p (feat ++ [LDense l]) (run_of bs) = Ret n /\ train_steps ROps p (feat ++ [LDense k]) (run_of bs) = Ret n' /\
    net_forward ROps p n x = Ret (Ok (IOScalar u)) /\ net_forward ROps p n' x = Ret (Ok (IOScalar v)) /\ length u = m /\ length v = m /\
    rsum (fun i => c_norm_sq ROps (nth i u 0 - nth i v 0)%RC) m <= size_of p feat x * (shrink bs * dist_sq l k).
Proof. exact answers_runs. Qed.
Print Assumptions C109_answers.

(** A rate too large for the data drives them apart. *)
Theorem C109_large_rate_refuted : exists (feat : network ROps) l k pts l' k', linear 1 2 l /\ linear 1 2 k /\ pts <> [] /\
  net_gradient_opt ROps P64 (feat ++ [LDense l]) (batch pts) MeanSquare (mkC 2 0) = Ret (feat ++ [LDense l'], Ok tt) /\
  net_gradient_opt ROps P64 (feat ++ [LDense k]) (batch pts) MeanSquare (mkC 2 0) = Ret (feat ++ [LDense k'], Ok tt) /\
  dist_sq l k = 2 /\ dist_sq l' k' = 10.
Proof. exact drift. Qed.
Print Assumptions C109_large_rate_refuted.

(** ** A concrete run: three batches, one of which brings nothing *)
Definition some_run : run := [(four_pts, 1 / 2, 1); (fit_pts, 1 / 4, 0); (four_pts, 1 / 2, 1)].
Example C109_ex : fit_all ROps fit_feat (Maps 1 1 1) (Vec 1) /\ linear 1 2 fit_layer /\ linear 1 2 four_best /\ shrink some_run = 1 / 4 /\ dist_sq fit_layer four_best = 1 / 4 /\
  forall pts lr mu, In (pts, lr, mu) some_run -> pts <> [] /\ 0 < lr /\ lr * sizes_of P64 fit_feat pts <= INR (length pts) /\ 0 <= mu /\ spread P64 fit_feat 1 pts mu /\
     (forall x t, In (x, t) pts -> has_geom (Maps 1 1 1) x /\ exists v, t = IOScalar v /\ length v = 2%nat).
Proof.
  destruct four as (A & OK & (L & _) & SP & SM & DD & _). split; [exact A|]. split; [exact fit_linear|]. split; [exact L|]. split; [cbn; field|]. split; [exact DD|].
  intros pts lr mu [E|[E|[E|[]]]]; injection E as <- <- <-.
  - split; [discriminate|]. split; [lra|]. split; [exact SM|]. split; [lra|]. split; [exact SP | exact OK].
  - split; [discriminate|]. split; [lra|]. split; [rewrite fit_size; cbn; lra|]. split; [lra|]. split; [apply spread_zero | exact fit_ok].
  - split; [discriminate|]. split; [lra|]. split; [exact SM|]. split; [lra|]. split; [exact SP | exact OK].
Qed.
