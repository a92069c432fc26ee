(** * Vocabulary for data that determine the weights of a linear layer *)
From Coq Require Import Reals.
From Verif Require Import Base Float Matrix Cplx Act Input Loss Dense Conv Layer Dataset Network RFloat CFacts SpecMatrix SpecLayer SpecConv SpecNet SpecLoss PropTrain SpecFit.
Local Open Scope R_scope.

(** The squared modulus of what a unit with bias [b] and weights [w] makes of
    an input, behind the layers [feat]. *)
Definition answer_sq (p : prec) (feat : network ROps) (b : RC) (w : nat -> RC) (x : IOType RC) : R :=
  match net_forward ROps p feat x with
  | Ret (Ok (IOScalar v)) => c_norm_sq ROps (sum_from (c_add ROps) 0%RC (fun j => w j * nth j v 0)%RC (length v) + b)%RC
  | _ => 0
  end.

(** The data tell all units apart, by at least [mu]: the mean squared answer of
    a unit is at least [mu] times the squared length of its weights and bias. *)
Definition spread (p : prec) (feat : network ROps) (d : nat) (pts : list (IOType RC * IOType RC)) (mu : R) : Prop :=
  forall b w, mu * (c_norm_sq ROps b + rsum (fun j => c_norm_sq ROps (w j)) d) * INR (length pts) <= fold_right (fun it s => answer_sq p feat b w (fst it) + s) 0 pts.

(** No linear layer has a smaller mean-square loss on the points than [lo]. *)
Definition best (p : prec) (feat : network ROps) (d m : nat) (pts : list (IOType RC * IOType RC)) (lo : dense ROps) : Prop :=
  linear d m lo /\
  forall l a b, linear d m l -> net_loss ROps p (feat ++ [LDense lo]) (batch pts) MeanSquare = Ret (Ok a) ->
    net_loss ROps p (feat ++ [LDense l]) (batch pts) MeanSquare = Ret (Ok b) -> a <= b.
