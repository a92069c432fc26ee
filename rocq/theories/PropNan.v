(** * Properties of NaN in a network (C71) *)
From Coq Require Import ZArith.
From Flocq Require Import Core BinarySingleNaN.
From Verif Require Import Base BaseFacts Float Matrix Cplx Act Input Loss Dense Conv Layer Dataset Network SpecMatrix SpecLayer SpecConv SpecNet SpecEval
  PropTrain PropGeom BFloat SpecNan NanFacts NanCalc.
Local Open Scope nat_scope.
Local Notation re := Cplx.re. Local Notation im := Cplx.im.

(** ** C71 *)
(** The forward pass succeeds.  A NaN in one part of one input, or of one weight
    or bias below the last layer, makes both parts of every output NaN; a NaN in
    the last layer reaches at least one output. *)
Theorem C71_forward : forall prec emax Hp He (L : libm (binary_float prec emax)) p ls w x, nan_in_nan_out L ->
  smooth_net prec emax Hp He L ls w -> length x = w ->
  exists y, net_forward (BOps prec emax Hp He L) p (map LDense ls) (IOScalar x) = Ret (Ok (IOScalar y)) /\
    length y = out_width (BOps prec emax Hp He L) ls w /\
    (Exists tainted x \/ Exists (layer_tainted prec emax Hp He L) (removelast ls) -> Forall ruined y) /\
    (Exists (layer_tainted prec emax Hp He L) ls -> Exists tainted y).
Proof. intros prec emax Hp He L p ls w x HL. exact (forward_poison prec emax Hp He L p HL ls w x). Qed.
Print Assumptions C71_forward.

(** The loss of a batch is NaN as soon as one parameter or one input is. *)
Theorem C71_loss : forall prec emax Hp He (L : libm (binary_float prec emax)) p ls w pts f, nan_in_nan_out L ->
  smooth_net prec emax Hp He L ls w -> batch_fits prec emax Hp He L ls w pts ->
  Exists (layer_tainted prec emax Hp He L) ls \/ Exists (fun q => Exists tainted (fst q)) pts ->
  exists v, net_loss (BOps prec emax Hp He L) p (map LDense ls) (batch_of prec emax pts) f = Ret (Ok v) /\ is_nan v = true.
Proof. intros prec emax Hp He L p ls w pts f HL. exact (loss_poison prec emax Hp He L p HL ls w pts f). Qed.
Print Assumptions C71_loss.

(** The accuracy is an ordinary number all the same: the fraction of the points
    whose target is class 0. *)
Theorem C71_accuracy : forall prec emax Hp He (L : libm (binary_float prec emax)) p ls w pts its, nan_in_nan_out L ->
  smooth_net prec emax Hp He L ls w -> batch_fits prec emax Hp He L ls w pts ->
  Exists (layer_tainted prec emax Hp He L) (removelast ls) \/ Forall (fun q => Exists tainted (fst q)) pts ->
  Forall (fun q => Forall (fun z => is_nan (re z) = false /\ is_nan (im z) = false) (snd q)) pts ->
  Forall2 (first_max (BOps prec emax Hp He L)) (map snd pts) its ->
  net_max_pred_test (BOps prec emax Hp He L) p (map LDense ls) (batch_of prec emax pts) =
    Ret (fdiv (BOps prec emax Hp He L) (fofnat (BOps prec emax Hp He L) (count_occ Nat.eq_dec its 0)) (fofnat (BOps prec emax Hp He L) (length pts))).
Proof. intros prec emax Hp He L p ls w pts its HL. exact (accuracy_poison prec emax Hp He L p HL ls w pts its). Qed.
Print Assumptions C71_accuracy.

(** One step is enough to lose the network: it reports success, and one NaN in
    one input of the batch, or in one parameter below the last layer, makes both
    parts of every parameter NaN; one NaN in a target, or in the last layer, does
    so to every layer but the last. *)
Theorem C71_step : forall prec emax Hp He (L : libm (binary_float prec emax)) p ls w pts f lr n r, nan_in_nan_out L ->
  smooth_net prec emax Hp He L ls w -> batch_fits prec emax Hp He L ls w pts ->
  net_gradient_opt (BOps prec emax Hp He L) p (map LDense ls) (batch_of prec emax pts) f lr = Ret (n, r) -> 2 <= length ls ->
  exists ls', n = map LDense ls' /\ r = Ok tt /\ smooth_net prec emax Hp He L ls' w /\ length ls' = length ls /\
    out_width (BOps prec emax Hp He L) ls' w = out_width (BOps prec emax Hp He L) ls w /\
    (Exists (layer_tainted prec emax Hp He L) (removelast ls) \/ Exists (fun q => Exists tainted (fst q)) pts ->
       Forall (layer_ruined prec emax Hp He L) ls') /\
    (Exists (layer_tainted prec emax Hp He L) ls \/
     Exists (fun q => Exists tainted (firstn (out_width (BOps prec emax Hp He L) ls w) (snd q))) pts ->
       Forall (layer_ruined prec emax Hp He L) (removelast ls')).
Proof. intros prec emax Hp He L p ls w pts f lr n r HL. exact (step_poison prec emax Hp He L p HL ls w pts f lr n r). Qed.
Print Assumptions C71_step.

(** Wherever the first NaN was, two steps lose every parameter. *)
Theorem C71_two_steps : forall prec emax Hp He (L : libm (binary_float prec emax)) p ls w pts pts' f f' lr lr' n n' r r', nan_in_nan_out L ->
  smooth_net prec emax Hp He L ls w -> 2 <= length ls ->
  batch_fits prec emax Hp He L ls w pts -> batch_fits prec emax Hp He L ls w pts' ->
  Exists (layer_tainted prec emax Hp He L) ls \/
  Exists (fun q => Exists tainted (fst q) \/ Exists tainted (firstn (out_width (BOps prec emax Hp He L) ls w) (snd q))) pts ->
  net_gradient_opt (BOps prec emax Hp He L) p (map LDense ls) (batch_of prec emax pts) f lr = Ret (n, r) ->
  net_gradient_opt (BOps prec emax Hp He L) p n (batch_of prec emax pts') f' lr' = Ret (n', r') ->
  Forall ruined (net_values (BOps prec emax Hp He L) n').
Proof. intros prec emax Hp He L p ls w pts pts' f f' lr lr' n n' r r' HL. exact (two_steps prec emax Hp He L p HL ls w pts pts' f f' lr lr' n n' r r'). Qed.
Print Assumptions C71_two_steps.

(** And no training brings anything back, in any network: a part of a parameter
    that is NaN is NaN ever after. *)
Theorem C71_forever : forall prec emax Hp He (L : libm (binary_float prec emax)) p n n', trained (BOps prec emax Hp He L) p n n' ->
  Forall2 (fun z z' => (is_nan (re z) = true -> is_nan (re z') = true) /\ (is_nan (im z) = true -> is_nan (im z') = true))
    (net_values (BOps prec emax Hp He L) n) (net_values (BOps prec emax Hp He L) n').
Proof. exact forever. Qed.
Print Assumptions C71_forever.

(** What the rectifiers do instead: a NaN part whose sign bit is clear passes
    through, one whose sign bit is set becomes zero. *)
Theorem C71_rectifier : forall prec emax Hp He (L : libm (binary_float prec emax)) p z, ruined z ->
  exists y, activate (BOps prec emax Hp He L) p RITReLU z = Ret y /\
    re y = (if l_nansign L (re z) then B754_zero false else re z) /\ im y = (if l_nansign L (im z) then B754_zero false else im z) /\
    activate (BOps prec emax Hp He L) p ZReLU z =
      Ret (if l_nansign L (re z) || l_nansign L (im z) then mkC (B754_zero false) (B754_zero false) else z).
Proof.
  intros prec emax Hp He L p [a b] (H1 & H2). cbn [re im] in H1, H2. destruct a; try discriminate. destruct b; try discriminate.
  eexists. split; [reflexivity|]. cbn [re im]. unfold ritrelu, relu, activate, zrelu. cbn [re im fsignneg fzero flit BOps is_nan]. destruct (l_nansign L B754_nan); auto.
Qed.
Print Assumptions C71_rectifier.

(** Two layers of two units, one weight of the first holding a NaN; the library
    answers NaN to everything. *)
Definition nan_libm : libm b32 :=
  mkLibm b32 (fun _ => B754_nan) (fun _ => B754_nan) (fun _ => B754_nan) (fun _ => B754_nan) (fun _ => B754_nan) (fun _ => B754_nan)
    (fun _ => B754_nan) (fun _ _ => B754_nan) (fun _ => false).
Definition z32 : cplx b32 := mkC (B754_zero false) (B754_zero false).
Definition nan_dense (z : cplx b32) : dense (B32Ops nan_libm) := mkDense (B32Ops nan_libm) (from_body [z; z32; z32; z32] 2 2) [z32; z32] ActNone.
Example C71_ex : nan_in_nan_out nan_libm /\
  smooth_net 24 128 prec24 emax128 nan_libm [nan_dense (mkC B754_nan (B754_zero false)); nan_dense z32] 2 /\
  batch_fits 24 128 prec24 emax128 nan_libm [nan_dense (mkC B754_nan (B754_zero false)); nan_dense z32] 2 [([z32; z32], [z32; z32])] /\
  Exists (layer_tainted 24 128 prec24 emax128 nan_libm) (removelast [nan_dense (mkC B754_nan (B754_zero false)); nan_dense z32]) /\
  exists n, net_gradient_opt (B32Ops nan_libm) Float.P32 (map LDense [nan_dense (mkC B754_nan (B754_zero false)); nan_dense z32])
    (batch_of 24 128 [([z32; z32], [z32; z32])]) MeanSquare (mkC (B754_zero false) (B754_zero false)) = Ret (n, Ok tt).
Proof.
  split; [split; [intros; repeat split | reflexivity]|].
  assert (W : forall z, dense_wf (B32Ops nan_libm) (nan_dense z)) by (intros z; repeat split; discriminate).
  split; [split; [discriminate|]; split; [split; [apply W | split; [reflexivity | split; [apply W | split; [reflexivity | exact Logic.I]]]]|]|].
  { intros l [<-|[<-|[]]]; (split; [left; reflexivity | apply Nat.lt_0_succ]). }
  split; [split; [discriminate|]; intros x t [H|[]]; injection H as <- <-; split; [reflexivity | apply le_n]|].
  split; [left; left; left; reflexivity|].
  destruct (C62_rate 1) as (_ & RT & _); [discriminate|]. destruct (RT nan_libm z32) as (s & ES).
  destruct (C53_dense (B32Ops nan_libm) Float.P32 [nan_dense (mkC B754_nan (B754_zero false)); nan_dense z32] 2 [[z32; z32]] [[z32; z32]] MeanSquare z32 s)
    as (ls' & E & _).
  - apply le_n.
  - split; [apply W | split; [reflexivity | split; [apply W | split; [reflexivity | exact Logic.I]]]].
  - intros l [<-|[<-|[]]]; discriminate.
  - intros x [<-|[]]. reflexivity.
  - intros x [<-|[]]. apply le_n.
  - exact ES.
  - exists (map LDense ls'). exact E.
Qed.
