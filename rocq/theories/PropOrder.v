(** * Property C55, in floating point: the order of the batch does matter *)
From Coq Require Import ZArith Reals Permutation.
From Flocq Require Import Core BinarySingleNaN.
From Verif Require Import Base BaseFacts Float Matrix Cplx Act Input Loss Dense Conv Layer Dataset Network BFloat SpecMatrix
  SpecLayer SpecConv SpecNet SpecRound SpecNan SpecDead SpecStill PropTrain PropStill.
Local Open Scope nat_scope.
Local Notation re := Cplx.re. Local Notation im := Cplx.im.

(** The exact statement C55_training is false in f32: there is a network and a
    batch of three finite points that, taken in another order, gives another
    trained network; both are finite, and they differ by more than the sign of
    a zero. *)
Definition o_point (t : Z) : IOType (cplx b32) * IOType (cplx b32) := (IOScalar [s_num 0 0], IOScalar [s_num t 0]).
Definition o_fin (c : cplx b32) : bool := is_finite (re c) && is_finite (im c).
Lemma o_finite : forall l, forallb o_fin l = true -> Forall cfinite l.
Proof. intros l H. apply Forall_forall. intros c I. apply (proj1 (forallb_forall _ _) H) in I. now apply andb_true_iff in I. Qed.
Lemma o_self : forall x : b32, is_finite x = true -> Beqb x x = true.
Proof. intros x H. rewrite (Beqb_correct _ _ x x H H). now apply Req_bool_true. Qed.
Lemma o_differ : forall l m : list (cplx b32), forallb o_fin l = true -> existsb (fun ab => negb (Beqb (re (fst ab)) (re (snd ab)))) (combine l m) = true -> ~ Forall2 csame l m.
Proof.
  intros l m T1 T3 H. revert T1 T3. induction H as [|a b l m (H & _) _ IH]; intros T1 T3; [discriminate|].
  cbn [combine existsb fst snd forallb] in T1, T3. apply andb_true_iff in T1 as (T1 & T1'). apply orb_true_iff in T3 as [T3|T3]; [|now apply IH]. apply negb_true_iff in T3.
  apply andb_true_iff in T1 as (T1 & _). destruct H as [H|(s & t & H1 & H2)].
  - rewrite <- H, (o_self _ T1) in T3. discriminate.
  - rewrite H1, H2 in T3. discriminate.
Qed.
Lemma o_case : forall L p n (d1 d2 : dataset (cplx b32) (cplx b32)) lr,
  match net_gradient_opt (B32Ops L) p n d1 MeanSquare lr, net_gradient_opt (B32Ops L) p n d2 MeanSquare lr with
    | Ret (a, Ok _), Ret (b, Ok _) => forallb o_fin (net_values (B32Ops L) a) && forallb o_fin (net_values (B32Ops L) b) &&
        existsb (fun ab => negb (Beqb (re (fst ab)) (re (snd ab)))) (combine (net_values (B32Ops L) a) (net_values (B32Ops L) b))
    | _, _ => false end = true ->
  exists n1 n2, net_gradient_opt (B32Ops L) p n d1 MeanSquare lr = Ret (n1, Ok tt) /\ net_gradient_opt (B32Ops L) p n d2 MeanSquare lr = Ret (n2, Ok tt) /\
    Forall cfinite (net_values (B32Ops L) n1) /\ Forall cfinite (net_values (B32Ops L) n2) /\ ~ Forall2 csame (net_values (B32Ops L) n1) (net_values (B32Ops L) n2).
Proof.
  intros L p n d1 d2 lr T.
  destruct (net_gradient_opt (B32Ops L) p n d1 MeanSquare lr) as [[n1 [[]|]]|]; try discriminate.
  destruct (net_gradient_opt (B32Ops L) p n d2 MeanSquare lr) as [[n2 [[]|]]|]; try discriminate.
  apply andb_true_iff in T as (T & T3). apply andb_true_iff in T as (T1 & T2). exists n1, n2.
  split; [reflexivity|]. split; [reflexivity|]. split; [now apply o_finite|]. split; [now apply o_finite | now apply o_differ].
Qed.
Theorem C55_floats_refuted : forall L p, exists n pts pts' n1 n2,
  Forall (layer_full (B32Ops L)) n /\ Forall cfinite (net_values _ n) /\ Permutation pts pts' /\
  Forall (fun q => Forall cfinite (vals (fst q)) /\ Forall cfinite (vals (snd q))) pts /\
  net_gradient_opt (B32Ops L) p n (batch pts) MeanSquare (s_num 1 0) = Ret (n1, Ok tt) /\
  net_gradient_opt (B32Ops L) p n (batch pts') MeanSquare (s_num 1 0) = Ret (n2, Ok tt) /\
  Forall cfinite (net_values _ n1) /\ Forall cfinite (net_values _ n2) /\
  ~ Forall2 csame (net_values _ n1) (net_values _ n2).
Proof.
  intros L p. destruct (o_case L p (s_net L (s_num 0 0) (s_num 0 0) (s_num 0 0) (s_num 0 0)) (batch [o_point (2 ^ 24); o_point 1; o_point 1]) (batch [o_point 1; o_point 1; o_point (2 ^ 24)]) (s_num 1 0))
    as (n1 & n2 & H); [vm_compute; reflexivity|].
  exists (s_net L (s_num 0 0) (s_num 0 0) (s_num 0 0) (s_num 0 0)), [o_point (2 ^ 24); o_point 1; o_point 1], [o_point 1; o_point 1; o_point (2 ^ 24)], n1, n2.
  split; [apply s_full|]. split; [apply o_finite; vm_compute; reflexivity|].
  split; [generalize (o_point (2 ^ 24)) (o_point 1); intros a b; exact (Permutation_cons_append [b; b] a)|].
  split; [repeat (constructor; [split; apply o_finite; vm_compute; reflexivity|]); constructor | exact H].
Qed.
Print Assumptions C55_floats_refuted.
