(** * Property C103: a small loss bounds the error rate *)
From Coq Require Import Reals Lra.
From Verif Require Import Base Float Matrix Cplx Random Act Input Loss Dense Conv Layer Dataset Network RFloat CFacts SpecEval SpecError ErrorFacts ErrorEx.
Local Open Scope nat_scope.

(** The targets are the ones [gen_pred] makes. *)
Theorem C103_targets : forall m k s, k < m -> c_gen_pred ROps m k s = Ret (Ok (one_hot m k)).
Proof. exact targets_one_hot. Qed.
Print Assumptions C103_targets.

(** Exact arithmetic, [m] outputs, one-hot targets.  The share of wrongly
    classified points is at most 2 (m - 1) times the reported mean-square loss,
    and no point is wrong if the loss is below 1 / (2 (m - 1)) per point. *)
Theorem C103_mean_square : forall p n m xs ks, 2 <= m -> classifies p n m xs ks ->
  exists L a : R, net_loss ROps p n (labelled m xs ks) MeanSquare = Ret (Ok L) /\ net_max_pred_test ROps p n (labelled m xs ks) = Ret a /\
    (1 - a <= 2 * (INR m - 1) * L)%R /\ ((2 * (INR m - 1) * INR (length xs) * L < 1)%R -> a = 1%R).
Proof. exact square_rate. Qed.
Print Assumptions C103_mean_square.

(** The share of wrongly classified points is at most the reported cross
    entropy divided by ln 2; without an error the cross entropy is at most ln m. *)
Theorem C103_cross_entropy : forall p n m xs ks, classifies p n m xs ks ->
  exists L a : R, net_loss ROps p n (labelled m xs ks) NormCrossEntropy = Ret (Ok L) /\ net_max_pred_test ROps p n (labelled m xs ks) = Ret a /\
    (1 - a <= L / ln 2)%R /\ ((INR (length xs) * L < ln 2)%R -> a = 1%R) /\ (a = 1%R -> (L <= ln (INR m))%R).
Proof. exact entropy_rate. Qed.
Print Assumptions C103_cross_entropy.

(** Both bounds are attained: a network that is wrong everywhere, with the loss
    that just allows it. *)
Theorem C103_attained : exists n xs ks, forall p, classifies p n 2 xs ks /\ net_max_pred_test ROps p n (labelled 2 xs ks) = Ret 0%R /\
  net_loss ROps p n (labelled 2 xs ks) MeanSquare = Ret (Ok (/ 2)%R) /\ net_loss ROps p n (labelled 2 xs ks) NormCrossEntropy = Ret (Ok (ln 2)).
Proof. exact bounds_attained. Qed.
Print Assumptions C103_attained.

(** There is no bound in the other direction: without a single error the
    mean-square loss can be as large as one likes. *)
Theorem C103_converse_refuted : forall B : R, exists n xs ks, forall p, classifies p n 2 xs ks /\ net_max_pred_test ROps p n (labelled 2 xs ks) = Ret 1%R /\
  exists L : R, net_loss ROps p n (labelled 2 xs ks) MeanSquare = Ret (Ok L) /\ (B < L)%R.
Proof. exact large_loss. Qed.
Print Assumptions C103_converse_refuted.

(** The hypotheses are met: every dense network without ModZ classifies every
    non-empty set of inputs of its width. *)
Example C103_ex : forall p (a b c d e g x y : RC), classifies p [LDense (mkDense ROps (from_body [a; b; c; d] 2 2) [e; g] RITTanh)] 2 [IOScalar [x; y]; IOScalar [y; x]] [1; 0].
Proof.
  intros. split; [discriminate|]. split; [reflexivity|]. split; [intros k [<-|[<-|[]]]; lia|]. intros q [<-|[<-|[]]]; eexists; (split; [reflexivity | reflexivity]).
Qed.
