(** * Property C106: the step on a batch and the steps on its parts *)
From Coq Require Import Reals Lra Permutation.
From Verif Require Import Base BaseFacts Float Matrix Cplx Act Input Loss Dense Conv Layer Dataset Network SpecMatrix RFloat CFacts SpecLayer SpecConv SpecNet PropTrain TrainLaws PropLaws
  SpecDead SpecFit PropFit FloorEx MiniFacts.
Local Open Scope nat_scope.

(** ** C106 *)
(** A training set cut into batches, or drawn from so that every point turns up
    equally often: the step on the whole set moves every parameter by the mean
    of the moves of the steps on the batches, each counted with its size; and
    it panics exactly when one of those steps does. *)
Theorem C106_weighted : forall p (n : network ROps) f (lr : R) pts bs k,
  Forall (layer_full ROps) n -> 2 <= length n -> pts <> [] -> 1 <= k ->
  bs <> [] -> Forall (fun b => b <> []) bs -> Permutation (concat bs) (concat (repeat pts k)) ->
  let step := fun b => net_gradient_opt ROps p n (batch b) f (mkC lr 0%R) in
  (step pts = Panic <-> Exists (fun b => step b = Panic) bs) /\
  (forall n', step pts = Ret (n', Ok tt) -> exists ms,
     Forall2 (fun b m => step b = Ret (m, Ok tt)) bs ms /\
     forall i, (param n' i - param n i)%RC =
       lsum (map (fun bm => mkC (INR (length (fst bm)) / INR (length (concat bs)))%R 0%R * (param (snd bm) i - param n i))%RC (combine bs ms))).
Proof.
  intros p n f lr pts bs k FU LN NP K NB FB P step. unfold step. rewrite <- (same_step p n f lr FU LN pts bs k NP K P). split; [now apply panic_parts|].
  intros n' E. now apply weighted.
Qed.
Print Assumptions C106_weighted.

(** With batches of one size the plain mean will do. *)
Theorem C106_mean : forall p (n : network ROps) f (lr : R) pts bs k s,
  Forall (layer_full ROps) n -> 2 <= length n -> pts <> [] -> 1 <= k ->
  bs <> [] -> 1 <= s -> Forall (fun b => length b = s) bs -> Permutation (concat bs) (concat (repeat pts k)) ->
  let step := fun b => net_gradient_opt ROps p n (batch b) f (mkC lr 0%R) in
  forall n', step pts = Ret (n', Ok tt) -> exists ms,
    Forall2 (fun b m => step b = Ret (m, Ok tt)) bs ms /\
    forall i, (param n' i - param n i)%RC = (mkC (/ INR (length bs))%R 0%R * lsum (map (fun m => param m i - param n i) ms))%RC.
Proof.
  intros p n f lr pts bs k s FU LN NP K NB S FS P step n' E. unfold step in *. rewrite <- (same_step p n f lr FU LN pts bs k NP K P) in E. now apply (equal_sizes p n f lr FU LN bs s n').
Qed.
Print Assumptions C106_mean.

(** Replacing one point of a batch changes every parameter after the step by
    one part in the size of the batch of what the two points do on their own. *)
Theorem C106_influence : forall p (n : network ROps) f (lr : R) a b it it' n1 n2,
  Forall (layer_full ROps) n -> 2 <= length n ->
  let step := fun b => net_gradient_opt ROps p n (batch b) f (mkC lr 0%R) in
  step (a ++ it :: b) = Ret (n1, Ok tt) -> step (a ++ it' :: b) = Ret (n2, Ok tt) ->
  exists m1 m2, step [it] = Ret (m1, Ok tt) /\ step [it'] = Ret (m2, Ok tt) /\
    forall i, (param n1 i - param n2 i)%RC = (mkC (/ INR (length a + 1 + length b))%R 0%R * (param m1 i - param m2 i))%RC.
Proof. intros p n f lr a b it it' n1 n2 FU LN step E1 E2. exact (one_replaced p n f lr FU LN a b it it' n1 n2 E1 E2). Qed.
Print Assumptions C106_influence.

(** Batches of different sizes make the plain mean wrong. *)
Theorem C106_sizes_refuted : exists (n : network ROps) bs, Forall (layer_full ROps) n /\ 2 <= length n /\ Forall (fun b => b <> []) bs /\ length bs = 2 /\
  forall p (lr : R), lr <> 0%R ->
  let step := fun b => net_gradient_opt ROps p n (batch b) MeanSquare (mkC lr 0%R) in
  exists n' m1 m2, step (concat bs) = Ret (n', Ok tt) /\ Forall2 (fun b m => step b = Ret (m, Ok tt)) bs [m1; m2] /\
    exists i, (param n' i - param n i)%RC <> (mkC (/ 2)%R 0%R * lsum (map (fun m => param m i - param n i) [m1; m2]))%RC.
Proof.
  exists (flat_net (mkC 0 0)%R), [map flat_pt [mkC 0 0]%R; map flat_pt [mkC 1 0; mkC 1 0]%R]. split; [apply flat_full|]. split; [cbn; lia|]. split; [repeat constructor; discriminate|]. split; [reflexivity|].
  intros p lr LR step. destruct (flat_step p [mkC 0 0; mkC 1 0; mkC 1 0]%R lr ltac:(discriminate)) as (n' & E & V).
  destruct (flat_step p [mkC 0 0]%R lr ltac:(discriminate)) as (m1 & E1 & V1). destruct (flat_step p [mkC 1 0; mkC 1 0]%R lr ltac:(discriminate)) as (m2 & E2 & V2).
  exists n', m1, m2. split; [exact E|]. split; [constructor; [exact E1 | constructor; [exact E2 | constructor]]|]. exists 2. rewrite flat_param. unfold lsum. cbn [map fold_right]. rewrite V, V1, V2.
  intros H. apply (f_equal (fun z : RC => (re z : R))) in H. cbn in H. apply LR. change (INR 3) with (1 + 1 + 1)%R in H. revert H. generalize lr. clear. intros lr H.
  field_simplify in H. lra.
Qed.
Print Assumptions C106_sizes_refuted.

Definition mini_pts : list (IOType RC * IOType RC) := map flat_pt [mkC 1 0; mkC 0 0; mkC 2 1; mkC 0 3]%R.
Definition mini_batches : list (list (IOType RC * IOType RC)) := [map flat_pt [mkC 0 3; mkC 1 0]%R; map flat_pt [mkC 2 1; mkC 0 0]%R].
Example C106_ex : forall p lr, Forall (layer_full ROps) (flat_net (mkC 0 0)%R) /\ 2 <= length (flat_net (mkC 0 0)%R) /\ Forall (fun b => length b = 2) mini_batches /\
  Permutation (concat mini_batches) (concat (repeat mini_pts 1)) /\
  exists n', net_gradient_opt ROps p (flat_net (mkC 0 0)%R) (batch mini_pts) MeanSquare (mkC lr 0%R) = Ret (n', Ok tt) /\ param n' 2 = mkC (lr / 4 * 3)%R (lr / 4 * 4)%R.
Proof.
  intros p lr. split; [apply flat_full|]. split; [cbn; lia|]. split; [repeat constructor|]. split.
  - cbn [repeat concat]. rewrite app_nil_r. unfold mini_batches, mini_pts. cbn [map concat app].
    apply (Permutation_trans (Permutation_cons_append _ _)). cbn [app]. apply perm_skip, perm_swap.
  - destruct (flat_step p [mkC 1 0; mkC 0 0; mkC 2 1; mkC 0 3]%R lr ltac:(discriminate)) as (n' & E & V). exists n'. split; [exact E|]. rewrite V. unfold lsum. apply c_ext; cbn; field.
Qed.
