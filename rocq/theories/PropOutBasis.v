(** * Property C93: a change of basis of the outputs *)
From Coq Require Import Reals Lra.
From Verif Require Import Base Float Matrix Cplx Act Input Loss Dense Conv Layer Dataset Network RFloat SpecMatrix
  SpecLayer SpecConv SpecNet SpecEval SpecGeom SpecDead SpecBasis CFacts GeomFacts GradFacts2 PropEval NamesEval BasisFacts BasisEval BasisOut.
Local Open Scope nat_scope.

(** Exact arithmetic.  A network whose linear last layer has its weights and
    biases multiplied by a table gives the outputs multiplied by that table. *)
Theorem C93_forward : forall p N V n n' x y, net_output_in_basis N V n n' -> net_forward ROps p n x = Ret (Ok y) ->
  exists y', net_forward ROps p n' x = Ret (Ok y') /\ in_basis N V y y'.
Proof. exact net_forward_out. Qed.
Print Assumptions C93_forward.

(** For a unitary table, training towards the targets in the other basis is the
    same training: any number of steps with real rates gives the trained network
    in the other basis, and all layers in front of the last are equal. *)
Theorem C93_training : forall p N V, unitary N V -> forall steps steps' n n' n1, net_output_in_basis N V n n' -> Forall2 (target_in_basis N V) steps steps' ->
  train_steps ROps p n steps = Ret n1 -> exists n1', train_steps ROps p n' steps' = Ret n1' /\ net_output_in_basis N V n1 n1'.
Proof. exact steps_out. Qed.
Print Assumptions C93_training.

(** The mean square loss is the same number. *)
Theorem C93_loss : forall p N V, unitary N V -> forall n n' d d' v, net_output_in_basis N V n n' -> ds_inputs d' = ds_inputs d -> Forall2 (in_basis N V) (ds_target d) (ds_target d') ->
  net_loss ROps p n d MeanSquare = Ret (Ok v) -> net_loss ROps p n' d' MeanSquare = Ret (Ok v).
Proof. exact net_loss_out. Qed.
Print Assumptions C93_loss.

(** Every linear last layer has its counterpart. *)
Theorem C93_layer : forall N V (l : dense ROps), dense_wf ROps l -> units ROps l = N -> d_func l = ActNone -> exists l', output_in_basis N V l l'.
Proof. exact every_output. Qed.
Print Assumptions C93_layer.

(** ** The hypotheses are met: one training step towards a target and towards its Fourier transform *)
Example C93_ex : forall p f (lr : R) a b c d e g h x s t, let n := [LDense (mkDense ROps (from_body [h; h] 2 1) [e; g] RITTanh); LDense (mkDense ROps (from_body [a; b; c; d] 2 2) [e; g] ActNone)] in
  exists n' t', net_output_in_basis 2 (fourier 2) n n' /\ target_in_basis 2 (fourier 2) (mkData [IOScalar [x]] [IOScalar [s; t]], f, mkC lr 0%R) (mkData [IOScalar [x]] [t'], f, mkC lr 0%R) /\
  unitary 2 (fourier 2) /\ exists n1, train_steps ROps p n [(mkData [IOScalar [x]] [IOScalar [s; t]], f, mkC lr 0%R)] = Ret n1.
Proof.
  intros p f lr a b c d e g h x s t n. assert (W : dense_wf ROps (mkDense ROps (from_body [a; b; c; d] 2 2) [e; g] ActNone)) by (repeat split; discriminate).
  destruct (every_output 2 (fourier 2) _ W eq_refl eq_refl) as (l' & HL). destruct (every_input 2 (fourier 2) [s; t] eq_refl) as (t' & HT).
  eexists ([_] ++ [LDense l']), t'. split; [|split; [|split]].
  - do 3 eexists. split; [|split; [reflexivity | exact HL]]. reflexivity.
  - split; [reflexivity|]. split; [constructor; [exact HT | constructor]|]. repeat split.
  - apply fourier_unitary. discriminate.
  - destruct (training_total ROps p n (Vec 1) (Vec 2) (mkData [IOScalar [x]] [IOScalar [s; t]]) f (mkC lr 0%R) (mkC (lr * / INR 1)%R 0%R)) as (n1 & E1 & _).
    + apply le_n.
    + apply fit_cons with (Vec 2); [apply (fits_dense ROps (mkDense ROps (from_body [h; h] 2 1) [e; g] RITTanh)); [repeat split; discriminate | discriminate]|].
      apply fit_cons with (Vec 2); [|apply fit_nil]. apply (fits_dense ROps (mkDense ROps (from_body [a; b; c; d] 2 2) [e; g] ActNone)); [exact W | discriminate].
    + repeat constructor.
    + split; [reflexivity|]. split; intros q [<-|[]]; [reflexivity | apply le_n].
    + apply (div_real lr 1). discriminate.
    + exists n1. cbn [train_steps]. rewrite E1. reflexivity.
Qed.

(** The accuracy depends on the basis: a rotation of the outputs and targets
    turns a network that is right on its only point into one that is wrong. *)
Definition turn (i j : nat) : RC := match i, j with 0, 0 => mkC (3 / 5) 0 | 0, _ => mkC (4 / 5) 0 | _, 0 => mkC (- (4 / 5)) 0 | _, _ => mkC (3 / 5) 0 end%R.
Theorem C93_accuracy_refuted : unitary 2 turn /\ exists (n n' : network ROps) d d', net_output_in_basis 2 turn n n' /\
  ds_inputs d' = ds_inputs d /\ Forall2 (in_basis 2 turn) (ds_target d) (ds_target d') /\
  forall p, net_max_pred_test ROps p n d = Ret 1%R /\ net_max_pred_test ROps p n' d' = Ret 0%R.
Proof.
  split; [intros [|[|j]] [|[|k]] Hj Hk; try lia; rewrite !csum_S, csum_0; cbn [Nat.eqb turn]; apply c_ext; cbn; field|].
  pose (o := mkC 0%R 0%R : RC). pose (y := [mkC 1%R 0%R; mkC 0%R 0%R] : list RC). pose (t := [mkC 1%R 0%R; mkC (1 / 2)%R 0%R] : list RC).
  pose (y' := [mkC (3 / 5)%R 0%R; mkC (- (4 / 5))%R 0%R] : list RC). pose (t' := [mkC 1%R 0%R; mkC (- (1 / 2))%R 0%R] : list RC).
  pose (l := fun b => mkDense ROps (from_body [o; o] 2 1) b ActNone : dense ROps).
  exists [LDense (l y)], [LDense (l y')], (mkData [IOScalar [o]] [IOScalar t]), (mkData [IOScalar [o]] [IOScalar t']).
  split; [|split; [reflexivity|]; split].
  - exists [], (l y), (l y'). split; [reflexivity|]. split; [reflexivity|]. split; [repeat split; discriminate|]. split; [repeat split; discriminate|]. do 5 (split; [reflexivity|]). split.
    + intros [|[|i]] Hi; try lia; rewrite !csum_S, csum_0; apply c_ext; cbn; field.
    + intros [|[|i]] [|j] Hi Hj; try lia; try (cbn in Hj; lia); rewrite !csum_S, csum_0; apply c_ext; cbn; field.
  - constructor; [|constructor]. exists t, t'. do 4 (split; [reflexivity|]). intros [|[|i]] Hi; try lia; rewrite !csum_S, csum_0; apply c_ext; cbn; field.
  - intros p.
    assert (P : forall b c, predicts ROps p [LDense (l [b; c])] (IOScalar [o]) [b; c]).
    { intros [b1 b2] [c1 c2]. unfold predicts. cbn. do 3 f_equal. unfold c_add_assign, c_add, c_mul. cbn. repeat f_equal; ring. }
    assert (M0 : forall a b : R, (b * b < a * a)%R -> max_index ROps [mkC a 0%R; mkC b 0%R] = 0).
    { intros a b H. apply max_unique; [cbn; lia|]. intros [|[|j]] Hj NJ; [congruence | | cbn in Hj; lia]. apply Rltb_lt. cbn [nth]. unfold c_norm_sq, fsq. cbn. lra. }
    assert (M1 : forall a b : R, (a * a < b * b)%R -> max_index ROps [mkC a 0%R; mkC b 0%R] = 1).
    { intros a b H. apply max_unique; [cbn; lia|]. intros [|[|j]] Hj NJ; [ | congruence | cbn in Hj; lia]. apply Rltb_lt. cbn [nth]. unfold c_norm_sq, fsq. cbn. lra. }
    split.
    + rewrite (C56_accuracy ROps p [LDense (l y)] _ [y] [t]); [|constructor; [apply P | constructor] | reflexivity | reflexivity].
      cbn [map agreements]. assert (max_index ROps y = 0) as -> by (apply M0; lra). assert (max_index ROps t = 0) as -> by (apply M0; lra). cbn. f_equal. field.
    + rewrite (C56_accuracy ROps p [LDense (l y')] _ [y'] [t']); [|constructor; [apply P | constructor] | reflexivity | reflexivity].
      cbn [map agreements]. assert (max_index ROps y' = 1) as -> by (apply M1; lra). assert (max_index ROps t' = 0) as -> by (apply M0; lra). cbn. f_equal. field.
Qed.
Print Assumptions C93_accuracy_refuted.
