(** * Property C92: a change of basis of the input space *)
From Coq Require Import Reals Lra.
From Verif Require Import Base Float Matrix Cplx Act Input Loss Dense Conv Layer Dataset Network RFloat SpecMatrix
  SpecLayer SpecConv SpecNet SpecGeom SpecDead SpecBasis CFacts GeomFacts GradFacts2 BasisFacts BasisEval.
Local Open Scope nat_scope.

(** Exact arithmetic.  A unitary change of basis of the inputs, made good in the
    weights of the first layer, changes no output.  The first layer is dense;
    the other layers are any. *)
Theorem C92_forward : forall p N U, unitary N U -> forall n n' x x' y, net_in_basis N U n n' -> in_basis N U x x' ->
  net_forward ROps p n x = Ret (Ok y) -> net_forward ROps p n' x' = Ret (Ok y).
Proof. exact net_forward_basis. Qed.
Print Assumptions C92_forward.

(** Training in the other basis is the same training: any number of steps with
    real rates gives the trained network in the other basis. *)
Theorem C92_training : forall p N U, unitary N U -> forall steps steps' n n' n1, net_in_basis N U n n' -> Forall2 (step_in_basis N U) steps steps' ->
  train_steps ROps p n steps = Ret n1 -> exists n1', train_steps ROps p n' steps' = Ret n1' /\ net_in_basis N U n1 n1'.
Proof. exact steps_basis. Qed.
Print Assumptions C92_training.

(** So are the reported loss and accuracy. *)
Theorem C92_loss : forall p N U, unitary N U -> forall n n' d d' f l, net_in_basis N U n n' -> Forall2 (in_basis N U) (ds_inputs d) (ds_inputs d') -> ds_target d' = ds_target d ->
  net_loss ROps p n d f = Ret (Ok l) -> net_loss ROps p n' d' f = Ret (Ok l).
Proof. exact net_loss_basis. Qed.
Print Assumptions C92_loss.

Theorem C92_accuracy : forall p N U, unitary N U -> forall n n' d d' a, net_in_basis N U n n' -> Forall2 (in_basis N U) (ds_inputs d) (ds_inputs d') -> ds_target d' = ds_target d ->
  net_max_pred_test ROps p n d = Ret a -> net_max_pred_test ROps p n' d' = Ret a.
Proof. exact accuracy_basis. Qed.
Print Assumptions C92_accuracy.

(** The discrete Fourier transform of any length is such a change of basis. *)
Theorem C92_fourier : forall N, N <> 0 -> unitary N (fourier N).
Proof. exact fourier_unitary. Qed.
Print Assumptions C92_fourier.

(** Every input and every dense first layer has its counterpart. *)
Theorem C92_input : forall N U (v : list RC), length v = N -> exists x', in_basis N U (IOScalar v) x'.
Proof. exact every_input. Qed.
Print Assumptions C92_input.

Theorem C92_layer : forall N U (l : dense ROps), dense_wf ROps l -> inputs ROps l = N -> exists l', layer_in_basis N U l l'.
Proof. exact every_layer. Qed.
Print Assumptions C92_layer.

(** ** The hypotheses are met: a network and one training step, with the inputs
    and with their Fourier transform *)
Example C92_ex : forall p f (lr : R) a b c d e g h x y t, let n := [LDense (mkDense ROps (from_body [a; b; c; d] 2 2) [e; g] RITTanh); LDense (mkDense ROps (from_body [h; h] 1 2) [e] ActNone)] in
  exists n' x', net_in_basis 2 (fourier 2) n n' /\ step_in_basis 2 (fourier 2) (mkData [IOScalar [x; y]] [IOScalar [t]], f, mkC lr 0%R) (mkData [x'] [IOScalar [t]], f, mkC lr 0%R) /\
  exists n1, train_steps ROps p n [(mkData [IOScalar [x; y]] [IOScalar [t]], f, mkC lr 0%R)] = Ret n1.
Proof.
  intros p f lr a b c d e g h x y t n. assert (W : dense_wf ROps (mkDense ROps (from_body [a; b; c; d] 2 2) [e; g] RITTanh)) by (repeat split; discriminate).
  destruct (every_layer 2 (fourier 2) _ W eq_refl) as (l' & HL). destruct (every_input 2 (fourier 2) [x; y] eq_refl) as (x' & HX).
  exists (LDense l' :: tl n), x'. split; [|split].
  - do 3 eexists. split; [reflexivity|]. split; [reflexivity | exact HL].
  - split; [constructor; [exact HX | constructor]|]. repeat split.
  - destruct (training_total ROps p n (Vec 2) (Vec 1) (mkData [IOScalar [x; y]] [IOScalar [t]]) f (mkC lr 0%R) (mkC (lr * / INR 1)%R 0%R)) as (n1 & E1 & _).
    + apply le_n.
    + apply fit_cons with (Vec 2); [apply (fits_dense ROps (mkDense ROps (from_body [a; b; c; d] 2 2) [e; g] RITTanh)); [exact W | discriminate]|].
      apply fit_cons with (Vec 1); [|apply fit_nil]. apply (fits_dense ROps (mkDense ROps (from_body [h; h] 1 2) [e] ActNone)); [repeat split; discriminate | discriminate].
    + repeat constructor.
    + split; [reflexivity|]. split; intros q [<-|[]]; [reflexivity | apply le_n].
    + apply (div_real lr 1). discriminate.
    + exists n1. cbn [train_steps]. rewrite E1. reflexivity.
Qed.

(** A rescaled feature is no such change of basis.  Doubling the input and
    halving its weight leaves the prediction as it was, but one training step
    later the two networks predict different values. *)
Theorem C92_scaling_refuted : exists (n n' n1 n1' : network ROps) (y z z' : RC) (t : IOType RC) (lr : R), forall p,
  let x := IOScalar [mkC 1%R 0%R] in let x' := IOScalar [mkC 2%R 0%R] in
  net_forward ROps p n x = Ret (Ok (IOScalar [y])) /\ net_forward ROps p n' x' = Ret (Ok (IOScalar [y])) /\
  net_gradient_opt ROps p n (mkData [x] [t]) MeanSquare (mkC lr 0%R) = Ret (n1, Ok tt) /\ net_gradient_opt ROps p n' (mkData [x'] [t]) MeanSquare (mkC lr 0%R) = Ret (n1', Ok tt) /\
  net_forward ROps p n1 x = Ret (Ok (IOScalar [z])) /\ net_forward ROps p n1' x' = Ret (Ok (IOScalar [z'])) /\ z <> z'.
Proof.
  pose (o := mkC 0%R 0%R : RC). pose (e := mkC 1%R 0%R : RC). pose (h := mkC (1 / 2)%R 0%R : RC). pose (w := mkC 2%R 0%R : RC).
  do 2 eexists. do 2 eexists. exists e. do 2 eexists. exists (IOScalar [o]), (1 / 2)%R. intros p x x'. subst x x'.
  split; [rewrite (tiny_forward p e o e o); do 4 f_equal; unfold tiny_out, e, o; apply c_ext; cbn; ring|].
  split; [rewrite (tiny_forward p h o e o); do 4 f_equal; unfold tiny_out, h, e, o; apply c_ext; cbn; field|].
  split; [apply (tiny_step p e o e o e o), over_one|]. split; [apply (tiny_step p h o e o w o), over_one|].
  split; [apply tiny_forward|]. split; [apply tiny_forward|].
  intros Q. apply (f_equal re) in Q. unfold tiny_out, moved, e, h, w, o, sub_conj, c_sub_assign, c_mul_assign, c_conj in Q. cbn in Q. lra.
Qed.
Print Assumptions C92_scaling_refuted.

(** The rate has to be real.  Turning the input by i is unitary; with the rate i
    the network does not move, and the turned network does (the [*=] of C02). *)
Theorem C92_complex_rate_refuted : exists (n n' n1 n1' : network ROps) (x x' t : IOType RC) (lr y y' : RC), forall p,
  let U := fun _ _ => mkC 0%R 1%R : RC in unitary 1 U /\ net_in_basis 1 U n n' /\ in_basis 1 U x x' /\
  net_gradient_opt ROps p n (mkData [x] [t]) MeanSquare lr = Ret (n1, Ok tt) /\ net_gradient_opt ROps p n' (mkData [x'] [t]) MeanSquare lr = Ret (n1', Ok tt) /\
  net_forward ROps p n1 x = Ret (Ok (IOScalar [y])) /\ net_forward ROps p n1' x' = Ret (Ok (IOScalar [y'])) /\ y <> y'.
Proof.
  pose (o := mkC 0%R 0%R : RC). pose (e := mkC 1%R 0%R : RC). pose (i := mkC 0%R 1%R : RC). pose (m := mkC 0%R (-1)%R : RC).
  exists (tiny e o e o), (tiny m o e o). do 2 eexists. exists (IOScalar [e]), (IOScalar [i]), (IOScalar [o]), i. do 2 eexists. intros p U.
  split; [intros [|j] [|k] Hj Hk; try lia; rewrite csum_S, csum_0; apply c_ext; cbn; ring|].
  split.
  { do 3 eexists. split; [reflexivity|]. split; [reflexivity|]. split; [repeat split; discriminate|]. split; [repeat split; discriminate|]. do 5 (split; [reflexivity|]).
    intros [|a] [|b] Ha Hb; try (cbn in Ha; lia); try lia. rewrite csum_S, csum_0. unfold weight, entry. cbn. apply c_ext; cbn; ring. }
  split; [exists [e], [i]; do 4 (split; [reflexivity|]); intros [|a] Ha; [|lia]; rewrite csum_S, csum_0; apply c_ext; cbn; ring|].
  split; [apply (tiny_step p e o e o e o), over_one|]. split; [apply (tiny_step p m o e o i o), over_one|].
  split; [apply tiny_forward|]. split; [apply tiny_forward|].
  intros Q. apply (f_equal re) in Q. unfold tiny_out, moved, e, i, m, o, sub_conj, c_sub_assign, c_mul_assign, c_conj in Q. cbn in Q. lra.
Qed.
Print Assumptions C92_complex_rate_refuted.
