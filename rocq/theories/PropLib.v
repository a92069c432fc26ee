(** * Property C84: where the platform's mathematical library matters *)
From Coq Require Import ZArith.
From Flocq Require Import Core BinarySingleNaN.
From Verif Require Import Base Float Matrix Cplx Act Input Loss Dense Conv Layer Dataset Network BFloat SpecDead SpecRel RelFacts RelNet SpecMirror MirrorIEEE MirrorNet.

(** The same program linked to two mathematical libraries: the answers of a
    network are the same bit for bit if the libraries agree on the functions
    that its activations call. *)
Theorem C84_forward : forall prec emax (Hp : Prec_gt_0 prec) (He : Prec_lt_emax prec emax) (L1 L2 : libm (binary_float prec emax)) p,
  let F1 := BOps prec emax Hp He L1 in let F2 := BOps prec emax Hp He L2 in let same := same_bits prec emax Hp He L1 L2 in
  forall n n' x x', net_rel F1 F2 same (lib_agree p L1 L2) n n' -> io_rel F1 F2 same x x' ->
  orel (rrel (io_rel F1 F2 same)) (net_forward F1 p n x) (net_forward F2 p n' x').
Proof. exact lib_forward. Qed.
Print Assumptions C84_forward.

(** So are the networks after training, with either loss function. *)
Theorem C84_training : forall prec emax (Hp : Prec_gt_0 prec) (He : Prec_lt_emax prec emax) (L1 L2 : libm (binary_float prec emax)) p,
  let F1 := BOps prec emax Hp He L1 in let F2 := BOps prec emax Hp He L2 in let same := same_bits prec emax Hp He L1 L2 in
  forall s s' n n', net_rel F1 F2 same (lib_agree p L1 L2) n n' -> Forall2 (step_rel F1 F2 same) s s' ->
  orel (net_rel F1 F2 same (lib_agree p L1 L2)) (train_steps F1 p n s) (train_steps F2 p n' s').
Proof. exact lib_training. Qed.
Print Assumptions C84_training.

(** The measured accuracy too, and the loss if they agree on what the loss calls. *)
Theorem C84_loss : forall prec emax (Hp : Prec_gt_0 prec) (He : Prec_lt_emax prec emax) (L1 L2 : libm (binary_float prec emax)) p f,
  let F1 := BOps prec emax Hp He L1 in let F2 := BOps prec emax Hp He L2 in let same := same_bits prec emax Hp He L1 L2 in
  forall n n' d d', lib_agree_loss L1 L2 f -> net_rel F1 F2 same (lib_agree p L1 L2) n n' -> data_rel F1 F2 same d d' ->
  (net_loss F1 p n d f : outcome (result (binary_float prec emax) LossCalcError)) = net_loss F2 p n' d' f.
Proof. exact lib_net_loss. Qed.
Print Assumptions C84_loss.
Theorem C84_accuracy : forall prec emax (Hp : Prec_gt_0 prec) (He : Prec_lt_emax prec emax) (L1 L2 : libm (binary_float prec emax)) p,
  let F1 := BOps prec emax Hp He L1 in let F2 := BOps prec emax Hp He L2 in let same := same_bits prec emax Hp He L1 L2 in
  forall n n' d d', net_rel F1 F2 same (lib_agree p L1 L2) n n' -> data_rel F1 F2 same d d' ->
  (net_max_pred_test F1 p n d : outcome (binary_float prec emax)) = net_max_pred_test F2 p n' d'.
Proof. exact lib_net_test. Qed.
Print Assumptions C84_accuracy.

(** Without activation or with [ModZ] any two libraries do. *)
Example C84_ex : forall (L1 L2 : libm b32) (a b c : b32), let F1 := B32Ops L1 in let F2 := B32Ops L2 in let same := same_bits 24 128 prec24 emax128 L1 L2 in
  net_rel F1 F2 same (lib_agree Float.P32 L1 L2)
    [LDense (mkDense F1 (from_body [mkC a b; mkC b c] 1 2) [mkC c a] ActNone); LDense (mkDense F1 (from_body [mkC a b] 1 1) [mkC c a] ModZ)]
    [LDense (mkDense F2 (from_body [mkC a b; mkC b c] 1 2) [mkC c a] ActNone); LDense (mkDense F2 (from_body [mkC a b] 1 1) [mkC c a] ModZ)].
Proof. intros. repeat constructor. Qed.
