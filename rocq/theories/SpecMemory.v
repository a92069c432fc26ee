(** * Vocabulary for fitting a training set exactly *)
From Verif Require Import Base Float Matrix Cplx Act Input Loss Dense Conv Layer Dataset Network RFloat CFacts SpecLayer.

(** A training set given as (input, target) pairs of vectors. *)
Definition samples (pts : list (list RC * list RC)) : dataset RC RC :=
  mkData (map (fun q => IOScalar (fst q)) pts) (map (fun q => IOScalar (snd q)) pts).

(** [N] input numbers and [M] target numbers everywhere, at least one sample,
    and no input twice. *)
Definition consistent (N M : nat) (pts : list (list RC * list RC)) : Prop :=
  N <> 0 /\ pts <> [] /\ (forall x t, In (x, t) pts -> length x = N /\ length t = M) /\ NoDup (map fst pts).

(** A dense network of one hidden layer of [H] rectifier units and [M] linear
    outputs. *)
Definition two_layers (N H M : nat) (n : network ROps) : Prop :=
  exists l1 l2, n = [LDense l1; LDense l2] /\ dense_wf ROps l1 /\ inputs ROps l1 = N /\ units ROps l1 = H /\ d_func l1 = RITReLU /\
    dense_wf ROps l2 /\ inputs ROps l2 = H /\ units ROps l2 = M /\ d_func l2 = ActNone.
