(** * Property C102: what training keeps between two dense layers *)
From Coq Require Import Reals Lra.
From Verif Require Import Base Float Matrix Cplx Act Input Loss Dense Conv Layer Dataset Network RFloat CFacts SpecMatrix SpecLayer SpecLoss SpecSame SpecGeom SpecBalance
  GeomFacts GradFacts2 BasisEval BalanceFacts.
Local Open Scope nat_scope.

(** Exact arithmetic.  Layers [k] and [k + 1] are dense, the first with identity,
    rectifier or quadrant rectifier; the other layers are any.  At every unit the
    gradient of any batch is balanced: its product with the numbers going into
    the unit is its product with the weights going out. *)
Theorem C102_gradient : forall p n k l m data f W G, adjacent n k l m -> scalable (d_func l) -> net_gradient ROps p n data f = Ret (W, G) ->
  forall i, i < units ROps l ->
    let inward := (csum (fun j => w_in l i j * gw_in l W k i j) (inputs ROps l) + b_in l i * gb_in G k i)%RC in
    let outward := csum (fun o => w_out m i o * gw_out m W k i o)%RC (units ROps m) in
    re inward = re outward /\ (d_func l <> RITReLU -> inward = outward).
Proof. exact balance_gradient. Qed.
Print Assumptions C102_gradient.

(** A training step with a real rate changes the excess of a unit by the excess
    of its gradient, times the square of the rate per example. *)
Theorem C102_step : forall p n data f lr n' k l m, adjacent n k l m -> scalable (d_func l) -> im lr = 0%R -> net_gradient_opt ROps p n data f lr = Ret (n', Ok tt) ->
  exists W G l' m', net_gradient ROps p n data f = Ret (W, G) /\ adjacent n' k l' m' /\ units ROps l' = units ROps l /\ inputs ROps l' = inputs ROps l /\ units ROps m' = units ROps m /\ d_func l' = d_func l /\
    forall i, i < units ROps l ->
      excess (inputs ROps l) (units ROps m) (w_in l' i) (b_in l' i) (w_out m' i) =
      (excess (inputs ROps l) (units ROps m) (w_in l i) (b_in l i) (w_out m i) +
       (re lr / INR (length (ds_inputs data))) ^ 2 * excess (inputs ROps l) (units ROps m) (gw_in l W k i) (gb_in G k i) (gw_out m W k i))%R.
Proof. exact balance_step. Qed.
Print Assumptions C102_step.

(** Over any number of steps the excess moves by at most [B * T * eps]: however
    long the training, small enough steps keep it. *)
Theorem C102_training : forall p k i eps B T n n' l m, gentle p k i eps B T n n' -> adjacent n k l m -> scalable (d_func l) -> i < units ROps l ->
  exists l' m', adjacent n' k l' m' /\ units ROps l' = units ROps l /\ inputs ROps l' = inputs ROps l /\ units ROps m' = units ROps m /\ d_func l' = d_func l /\
    (Rabs (excess (inputs ROps l) (units ROps m) (w_in l' i) (b_in l' i) (w_out m' i) - excess (inputs ROps l) (units ROps m) (w_in l i) (b_in l i) (w_out m i)) <= B * T * eps)%R.
Proof. exact balance_training. Qed.
Print Assumptions C102_training.

(** The hypotheses are met: a network with two rectified units, and one step. *)
Example C102_ex : forall p f (lr : R) a b c d e g h x y t, let l := mkDense ROps (from_body [a; b; c; d] 2 2) [e; g] RITReLU in let m := mkDense ROps (from_body [h; e] 1 2) [g] RITTanh in
  let data := mkData [IOScalar [x; y]] [IOScalar [t]] in
  adjacent [LDense l; LDense m] 0 l m /\ scalable (d_func l) /\
  exists W G n', net_gradient ROps p [LDense l; LDense m] data f = Ret (W, G) /\ net_gradient_opt ROps p [LDense l; LDense m] data f (mkC lr 0%R) = Ret (n', Ok tt) /\
  forall i, (0 <= lr)%R -> gentle p 0 i lr (Rabs (excess (inputs ROps l) (units ROps m) (gw_in l W 0 i) (gb_in G 0 i) (gw_out m W 0 i))) lr [LDense l; LDense m] n'.
Proof.
  intros p f lr a b c d e g h x y t l m data. assert (AD : adjacent [LDense l; LDense m] 0 l m) by (repeat split; discriminate). split; [exact AD|]. split; [right; left; reflexivity|].
  destruct (training_total ROps p [LDense l; LDense m] (Vec 2) (Vec 1) data f (mkC lr 0%R) (mkC (lr * / INR 1)%R 0%R)) as (n1 & E1 & _).
  - apply le_n.
  - apply fit_cons with (Vec 2); [apply (fits_dense ROps l); [repeat split; discriminate | discriminate]|].
    apply fit_cons with (Vec 1); [|apply fit_nil]. apply (fits_dense ROps m); [repeat split; discriminate | discriminate].
  - repeat constructor.
  - split; [reflexivity|]. split; intros q [<-|[]]; [reflexivity | apply le_n].
  - apply (div_real lr 1). discriminate.
  - destruct (C102_step p [LDense l; LDense m] data f (mkC lr 0%R) n1 0 l m AD ltac:(right; left; reflexivity) eq_refl E1) as (W & G & _ & _ & EG & _).
    exists W, G, n1. split; [exact EG|]. split; [exact E1|]. intros i Hlr.
    assert (Q : (0 + lr / INR 1 = lr)%R) by (cbn [INR]; lra). match goal with |- gentle _ _ _ _ ?b _ ?n _ => refine (eq_ind _ (fun T => gentle p 0 i lr b T n n1) _ _ Q) end.
    apply (gentle_step p 0 i _ _ 0%R _ [LDense l; LDense m] n1 data f (mkC lr 0%R) l m W G); auto; [apply gentle_none | apply Rle_refl|].
    cbn [re ds_inputs data length INR]. split; lra.
Qed.

(** With a sigmoid the gradient is not balanced. *)
Theorem C102_sigmoid_refuted : exists n l m data W G, adjacent n 0 l m /\ d_func l = RITSigmoid /\ units ROps l = 1 /\ (forall p, net_gradient ROps p n data MeanSquare = Ret (W, G)) /\
  re (csum (fun j => w_in l 0 j * gw_in l W 0 0 j) (inputs ROps l) + b_in l 0 * gb_in G 0 0)%RC <> re (csum (fun o => w_out m 0 o * gw_out m W 0 0 o)%RC (units ROps m)).
Proof. exact sigmoid_unbalanced. Qed.
Print Assumptions C102_sigmoid_refuted.

(** With a rectifier the two sides share their real part only. *)
Theorem C102_phase_refuted : exists n l m data W G, adjacent n 0 l m /\ d_func l = RITReLU /\ units ROps l = 1 /\ (forall p, net_gradient ROps p n data MeanSquare = Ret (W, G)) /\
  (csum (fun j => w_in l 0 j * gw_in l W 0 0 j) (inputs ROps l) + b_in l 0 * gb_in G 0 0)%RC <> csum (fun o => w_out m 0 o * gw_out m W 0 0 o)%RC (units ROps m).
Proof. exact rectifier_phase. Qed.
Print Assumptions C102_phase_refuted.
