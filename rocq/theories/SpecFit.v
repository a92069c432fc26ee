(** * Vocabulary for training a single linear layer *)
From Coq Require Import Reals.
From Verif Require Import Base Float Matrix Cplx Act Input Loss Dense Conv Layer Dataset Network RFloat CFacts SpecMatrix SpecLayer SpecConv SpecNet SpecLoss.
Local Open Scope R_scope.

(** Layers without weights: pooling and flattening. *)
Definition no_params (l : clayer ROps) : Prop := match l with LReduce _ | LFlatten _ => True | _ => False end.

(** A linear dense layer with [d] inputs and [m] outputs. *)
Definition linear (d m : nat) (l : dense ROps) : Prop := dense_wf ROps l /\ inputs ROps l = d /\ units ROps l = m /\ d_func l = ActNone.

(** The squared distance between the weights and biases of two layers. *)
Definition dist_sq (l l' : dense ROps) : R :=
  rsum (fun i => c_norm_sq ROps (nth i (d_biases l) 0 - nth i (d_biases l') 0)%RC
                 + rsum (fun j => c_norm_sq ROps (weight ROps l i j - weight ROps l' i j)%RC) (inputs ROps l)) (units ROps l).

(** One plus the squared length of the vector that the layers [feat] make of an
    input; the sum of these over the points. *)
Definition size_of (p : prec) (feat : network ROps) (x : IOType RC) : R :=
  match net_forward ROps p feat x with
  | Ret (Ok (IOScalar v)) => 1 + rsum (fun j => c_norm_sq ROps (nth j v 0%RC)) (length v)
  | _ => 0
  end.
Definition sizes_of (p : prec) (feat : network ROps) (pts : list (IOType RC * IOType RC)) : R :=
  fold_right (fun it s => size_of p feat (fst it) + s) 0 pts.

(** The losses of a training run, each measured right after the step on the
    batch of that step and weighted with its rate, summed up. *)
Fixpoint paid (p : prec) (n : network ROps) (steps : list (dataset RC RC * ComplexLossFunc * RC)) : outcome R :=
  match steps with
  | [] => Ret 0
  | (d, f, lr) :: rest =>
      r <- net_gradient_opt ROps p n d f lr ;;
      v <-! net_loss ROps p (fst r) d f ;;
      s <- paid p (fst r) rest ;;
      Ret (re lr * v + s)
  end.
