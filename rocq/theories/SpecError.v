(** * Vocabulary for the error rate of a classifier *)
From Coq Require Import Reals.
From Verif Require Import Base Float Matrix Cplx Input Loss Dense Conv Layer Dataset Network RFloat CFacts SpecEval.

(** The target vector of class [k] out of [m]: 1 at [k], 0 elsewhere (C12). *)
Definition one_hot (m k : nat) : list RC := map (fun i => if i =? k then mkC 1%R 0%R else mkC 0%R 0%R) (seq 0 m).

(** The inputs [xs] with the classes [ks], as a dataset. *)
Definition labelled (m : nat) (xs : list (IOType RC)) (ks : list nat) : dataset RC RC :=
  mkData xs (map (fun k => IOScalar (one_hot m k)) ks).

(** A non-empty set of inputs, each with one of [m] classes, on each of which
    the network returns [m] numbers. *)
Definition classifies (p : prec) (n : network ROps) (m : nat) (xs : list (IOType RC)) (ks : list nat) : Prop :=
  xs <> [] /\ length ks = length xs /\ (forall k, In k ks -> k < m) /\
  (forall x, In x xs -> exists v, predicts ROps p n x v /\ length v = m).
