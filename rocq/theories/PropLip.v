(** * Property C88: how far outputs move when inputs move, and predictions that cannot change *)
From Coq Require Import Reals Lra Psatz.
From Verif Require Import Base BaseFacts Float Matrix Cplx Act Input Loss Dense Conv Layer Dataset Network Examples RFloat CFacts
  SpecMatrix SpecLayer SpecConv SpecNet SpecEval SpecGeom SpecRound SpecLoss SpecLip LipFacts PropSame LipNum.
Local Open Scope nat_scope.

(** Inputs no number of which differs by more than [e] give outputs no number of
    which differs by more than [net_spread p n e]: each layer multiplies by the
    largest total modulus of the weights of a unit (or of the kernels of a
    filter), the sigmoid divides by four and adds its cut-off. *)
Theorem C88_spread : forall p (n : network ROps) g g' e x x', n <> [] -> fit_all ROps n g g' -> Forall steady n -> (0 <= e)%R -> nearby g e x x' ->
  exists y y', net_forward ROps p n x = Ret (Ok y) /\ net_forward ROps p n x' = Ret (Ok y') /\ nearby g' (net_spread p n e) y y'.
Proof. exact forward_nearby. Qed.
Print Assumptions C88_spread.

(** No smaller factor would do for a dense layer without activation. *)
Theorem C88_attained : forall p (l : dense ROps) e, dense_wf ROps l -> 1 <= units ROps l -> d_func l = ActNone -> (0 <= e)%R ->
  exists x x' y y' i, nearby (Vec (inputs ROps l)) e (IOScalar x) (IOScalar x') /\ i < units ROps l /\
    net_forward ROps p [LDense l] (IOScalar x) = Ret (Ok (IOScalar y)) /\ net_forward ROps p [LDense l] (IOScalar x') = Ret (Ok (IOScalar y')) /\
    modulus (nth i y 0 - nth i y' 0)%RC = net_spread p [LDense l] e.
Proof. exact spread_attained. Qed.
Print Assumptions C88_attained.

(** Mean pooling, as the example program does it, is steady. *)
Theorem C88_mean_pool : forall (l : red ROps), 1 <= r_b0 l -> 1 <= r_b1 l -> r_func l = avg_block ROps -> steady (LReduce l).
Proof. exact mean_steady. Qed.
Print Assumptions C88_mean_pool.

(** A prediction whose modulus leads by more than twice the spread is the
    prediction for every input that near. *)
Theorem C88_certified : forall p (n : network ROps) g k e x y i, n <> [] -> fit_all ROps n g (Vec k) -> Forall steady n -> (0 <= e)%R ->
  has_geom g x -> predicts ROps p n x y -> i < k -> (forall j, j < k -> j <> i -> (modulus (nth j y 0%RC) + 2 * net_spread p n e < modulus (nth i y 0%RC))%R) ->
  max_index ROps y = i /\ forall x', nearby g e x x' -> exists y', predicts ROps p n x' y' /\ max_index ROps y' = i.
Proof. exact certified. Qed.
Print Assumptions C88_certified.

(** If that holds for every point of a data set, the accuracy is the same on
    every data set whose inputs are that near. *)
Theorem C88_accuracy : forall p (n : network ROps) g k e (d d' : dataset RC RC) targs, n <> [] -> fit_all ROps n g (Vec k) -> Forall steady n -> (0 <= e)%R ->
  ds_target d = map (@IOScalar _) targs -> ds_target d' = ds_target d -> length targs = length (ds_inputs d) ->
  (forall x, In x (ds_inputs d) -> exists y i, predicts ROps p n x y /\ i < k /\
     forall j, j < k -> j <> i -> (modulus (nth j y 0%RC) + 2 * net_spread p n e < modulus (nth i y 0%RC))%R) ->
  Forall2 (nearby g e) (ds_inputs d) (ds_inputs d') ->
  exists a, net_max_pred_test ROps p n d = Ret a /\ net_max_pred_test ROps p n d' = Ret a.
Proof. exact certified_accuracy. Qed.
Print Assumptions C88_accuracy.

(** No such bound holds with ZReLU, which jumps where a part changes its sign:
    arbitrarily near inputs can have outputs at distance 1. *)
Theorem C88_zrelu_refuted : forall p e, (0 < e)%R -> exists x x',
  nearby (Vec 1) e (IOScalar [x]) (IOScalar [x']) /\
  exists y y', predicts ROps p [LDense (one_one 1%RC 0%RC ZReLU)] (IOScalar [x]) [y] /\
    predicts ROps p [LDense (one_one 1%RC 0%RC ZReLU)] (IOScalar [x']) [y'] /\ (modulus (y - y')%RC = 1)%R.
Proof. exact zrelu_jumps. Qed.
Print Assumptions C88_zrelu_refuted.

(** Two layers ([certain], in LipNum.v): a certified prediction.  When the inputs
    move by at most 1/100, the outputs move by at most 1/50. *)
Example C88_ex : fit_all ROps certain (Vec 2) (Vec 2) /\ Forall steady certain /\ predicts ROps P64 certain (IOScalar [mkC 1 0; mkC 0 0]%R) [mkC 0 1; mkC 4 0]%R /\
  (net_spread P64 certain (1 / 100) = 1 / 50)%R /\ forall x', nearby (Vec 2) (1 / 100)%R (IOScalar [mkC 1 0; mkC 0 0]%R) x' ->
    exists y', predicts ROps P64 certain x' y' /\ max_index ROps y' = 1.
Proof. exact certain_case. Qed.
