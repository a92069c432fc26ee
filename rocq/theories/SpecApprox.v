(** * Vocabulary for approximating functions of several variables *)
From Coq Require Import Reals.
From Verif Require Import Base Float Matrix Cplx Act Input Loss Dense Conv Layer Dataset Network RFloat CFacts SpecLayer SpecNet.
Local Open Scope nat_scope.

(** A dense network of [N] inputs and [M] outputs: rectifier units in all hidden
    layers, no activation in the last one. *)
Definition rectifier_net (N M : nat) (n : network ROps) : Prop :=
  exists ls l, n = map LDense (ls ++ [l]) /\ widths_fit ROps (ls ++ [l]) N /\ out_width ROps (ls ++ [l]) N = M /\
    Forall (fun k => d_func k = RITReLU) ls /\ d_func l = ActNone.

(** [N] complex numbers with real and imaginary parts between -B and B. *)
Definition in_box (B : R) (N : nat) (x : list RC) : Prop :=
  length x = N /\ forall k, k < N -> (Rabs (re (nth k x 0%RC)) <= B /\ Rabs (im (nth k x 0%RC)) <= B)%R.

(** Closer than [d] in every real and imaginary part. *)
Definition near (d : R) (N : nat) (x y : list RC) : Prop :=
  forall k, k < N -> (Rabs (re (nth k x 0%RC) - re (nth k y 0%RC)) < d /\ Rabs (im (nth k x 0%RC) - im (nth k y 0%RC)) < d)%R.

(** [f] is continuous at [x], as a function on the box. *)
Definition continuous_at (B : R) (N : nat) (f : list RC -> RC) (x : list RC) : Prop :=
  forall e, (0 < e)%R -> exists d, (0 < d)%R /\ forall y, in_box B N y -> near d N x y ->
    (Rabs (re (f y) - re (f x)) < e /\ Rabs (im (f y) - im (f x)) < e)%R.
