(** * Vocabulary for networks without activations *)
From Coq Require Import Reals.
From Verif Require Import Base Float Matrix Cplx Act Input Loss Dense Conv Layer Dataset Network RFloat CFacts SpecMatrix SpecLayer SpecConv SpecNet SpecGeom SpecRound.
Local Open Scope nat_scope.

(** Dense and convolutional layers without activation, pooling that takes a
    weighted sum of each block, and flattening. *)
Definition plain (l : clayer ROps) : Prop :=
  match l with
  | LDense l => d_func l = ActNone
  | LConv l => k_func l = ActNone
  | LReduce l => exists f : nat -> RC, forall b, length b = r_b0 l * r_b1 l -> r_func l b = Ret (csum (fun k => f k * nth k b 0)%RC (length b))
  | LFlatten _ => True
  end.

(** [w] is the mixture s x + (1 - s) y of two values of geometry [g]. *)
Definition mixes (g : geometry) (s : RC) (x y w : IOType RC) : Prop :=
  has_geom g x /\ has_geom g y /\ has_geom g w /\
  forall k, k < gsize g -> nth k (vals w) 0%RC = (s * nth k (vals x) 0 + (1 - s) * nth k (vals y) 0)%RC.

(** The network gives the exclusive or of two bits. *)
Definition bit (b : bool) : RC := if b then 1%RC else 0%RC.
Definition computes_xor (p : prec) (n : network ROps) : Prop :=
  forall a b, net_forward ROps p n (IOScalar [bit a; bit b]) = Ret (Ok (IOScalar [bit (xorb a b)])).
