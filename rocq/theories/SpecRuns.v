(** * Vocabulary for two training runs side by side *)
From Coq Require Import Reals.
From Verif Require Import Base Float Matrix Cplx Act Input Loss Dense Conv Layer Dataset Network RFloat CFacts SpecMatrix SpecLayer SpecConv SpecNet PropTrain.
Local Open Scope R_scope.

(** A run: batches, each with its rate and with a number that says how well its
    points tell all units apart (nought will always do). *)
Definition run : Type := list (list (IOType RC * IOType RC) * R * R).
Definition run_of (bs : run) : list (dataset RC RC * ComplexLossFunc * RC) := map (fun b => (batch (fst (fst b)), MeanSquare, mkC (snd (fst b)) 0)) bs.

(** The product of 1 - rate mu over the run. *)
Fixpoint shrink (bs : run) : R :=
  match bs with
  | [] => 1
  | (_, lr, mu) :: rest => (1 - lr * mu) * shrink rest
  end.
