(** * Vocabulary for matrices of real numbers *)
From Coq Require Import Reals.
From Verif Require Import Base Float Matrix Cplx RFloat SpecRel.
(** A real number as a complex one. *)
Definition embeds (x : R) (z : RC) : Prop := z = mkC (x : F ROps) 0%R.
