(** * Vocabulary for training steps that are disturbed, and for a replaced example *)
From Coq Require Import Reals.
From Verif Require Import Base Float Matrix Cplx Act Input Loss Dense Conv Layer Dataset Network RFloat CFacts SpecMatrix SpecLayer SpecConv SpecNet SpecLoss PropTrain SpecFit.
Local Open Scope R_scope.

(** The distance between the weights and biases of two layers. *)
Definition dist (l l' : dense ROps) : R := sqrt (dist_sq l l').

(** A run: batches, each with its rate, with a number that says how well its
    points tell all units apart (nought will always do), and with a bound on the
    disturbance after the step on it. *)
Definition noisy_run : Type := list (list (IOType RC * IOType RC) * R * R * R).
Definition steps_of (bs : noisy_run) : list (dataset RC RC * ComplexLossFunc * RC) :=
  map (fun b => (batch (fst (fst (fst b))), MeanSquare, mkC (snd (fst (fst b))) 0)) bs.

(** Training a linear last layer behind the layers [feat], where after every
    step something moves the layer by at most the disturbance of that step:
    rounding, say, or a weight written by hand. *)
Inductive disturbed (p : prec) (feat : network ROps) (d m : nat) : dense ROps -> noisy_run -> dense ROps -> Prop :=
| disturbed_nil : forall l, disturbed p feat d m l [] l
| disturbed_cons : forall l l1 l2 l' pts lr mu e bs,
    net_gradient_opt ROps p (feat ++ [LDense l]) (batch pts) MeanSquare (mkC lr 0) = Ret (feat ++ [LDense l1], Ok tt) ->
    linear d m l2 -> dist l2 l1 <= e -> disturbed p feat d m l2 bs l' ->
    disturbed p feat d m l ((pts, lr, mu, e) :: bs) l'.

(** All disturbances together. *)
Definition total_noise (bs : noisy_run) : R := fold_right (fun b s => snd b + s) 0 bs.

(** What is left of a distance [a] and of the disturbances when every step takes
    the factor sqrt (1 - rate mu) off the distance before it adds its own. *)
Fixpoint carried (a : R) (bs : noisy_run) : R :=
  match bs with
  | [] => a
  | (_, lr, mu, e) :: rest => carried (sqrt (1 - lr * mu) * a + e) rest
  end.

(** How hard one example pulls at a layer: the root of (the squared error of the
    network at it) times (the size of what the layers [feat] make of it). *)
Definition pull (p : prec) (feat : network ROps) (l : dense ROps) (it : IOType RC * IOType RC) : R :=
  match net_forward ROps p (feat ++ [LDense l]) (fst it), snd it with
  | Ret (Ok (IOScalar y)), IOScalar t => sqrt (rsum (fun i => c_norm_sq ROps (nth i y 0 - nth i t 0)%RC) (length t) * size_of p feat (fst it))
  | _, _ => 0
  end.
