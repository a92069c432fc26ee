(** * Vocabulary for the level of the cross entropy *)
From Coq Require Import Reals.
From Verif Require Import Base.

(** The cross entropy of a network that returns the target itself, with [m]
    classes: softmax of one 1 and [m - 1] zeros, ln (1 + (m - 1) / e). *)
Definition ce_floor (m : nat) : R := ln (1 + (INR m - 1) / exp 1).
