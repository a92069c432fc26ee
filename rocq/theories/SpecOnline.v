(** * Vocabulary for testing on every batch before training on it *)
From Coq Require Import Reals.
From Verif Require Import Base Float Matrix Cplx Act Input Loss Dense Conv Layer Dataset Network RFloat CFacts SpecMatrix SpecLayer SpecConv SpecNet.
Local Open Scope R_scope.

(** What [score] says of the network and the batch just before each step of a
    training run. *)
Fixpoint before (score : network ROps -> dataset RC RC -> outcome R) (p : prec) (n : network ROps) (f : ComplexLossFunc) (lr : R) (ds : list (dataset RC RC)) : outcome (list R) :=
  match ds with
  | [] => Ret []
  | d :: rest =>
      v <- score n d ;;
      r <- net_gradient_opt ROps p n d f (mkC lr 0) ;;
      vs <- before score p (fst r) f lr rest ;;
      Ret (v :: vs)
  end.

(** Two scores: the mean-square loss and the accuracy. *)
Definition square_score (p : prec) (n : network ROps) (d : dataset RC RC) : outcome R := v <- net_loss ROps p n d MeanSquare ;; unwrap v.
Definition accuracy_score (p : prec) (n : network ROps) (d : dataset RC RC) : outcome R := net_max_pred_test ROps p n d.
Definition total_of (vs : list R) : R := fold_right Rplus 0 vs.

(** How many numbers of a list are below one. *)
Definition imperfect (vs : list R) : nat := length (filter (fun v => if Rlt_dec v 1 then true else false) vs).
