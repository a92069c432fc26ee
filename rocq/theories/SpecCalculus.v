(** * Vocabulary for stating derivatives of complex functions of a complex
    variable that need not be holomorphic. *)
From Coq Require Import Reals.
From Coquelicot Require Import Coquelicot.
From Coq Require Import List.
From Verif Require Import Base Float Matrix Cplx RFloat SpecMatrix.
Local Open Scope R_scope.

(** [g = u + i v] is (totally) differentiable at [z = x + i y] as a function of
    two real variables, and [d], [dc] are its Wirtinger derivatives
      d  = dg/dz       = 1/2 (dg/dx - i dg/dy),
      dc = dg/d(conj z) = 1/2 (dg/dx + i dg/dy). *)
Definition wirtinger (g : RC -> RC) (z d dc : RC) : Prop :=
  exists ux uy vx vy : R,
    differentiable_pt_lim (fun x y => re (g (mkC x y))) (re z) (im z) ux uy /\
    differentiable_pt_lim (fun x y => im (g (mkC x y))) (re z) (im z) vx vy /\
    d = mkC ((ux + vy) / 2) ((vx - uy) / 2) /\
    dc = mkC ((ux - vy) / 2) ((vx + uy) / 2).

(** The same for a Rust function that may panic: it does not around [z]. *)
Definition wirtinger_at (f : RC -> outcome RC) (z d dc : RC) : Prop :=
  exists g, locally_2d (fun x y => f (mkC x y) = Ret (g (mkC x y))) (re z) (im z) /\ wirtinger g z d dc.

(** A curve of complex numbers with velocity [v] at time 0. *)
Definition cderiv (q : R -> RC) (v : RC) : Prop :=
  is_derive (fun t => re (q t) : R) 0 (re v : R) /\ is_derive (fun t => im (q t) : R) 0 (im v : R).

(** A moving vector with velocity [v] at time 0. *)
Definition vderiv (q : R -> list RC) (v : list RC) : Prop :=
  (forall t, length (q t) = length v) /\
  forall k, (k < length v)%nat ->
    cderiv (fun t => nth k (q t) (c_default ROps)) (nth k v (c_default ROps)).

(** 2 Re(sum_k g_k v_k): the rate of change that the Wirtinger gradient [g]
    of a real function predicts for a point moving with velocity [v]. *)
Definition rate (g v : list RC) : R :=
  sum_from Rplus 0 (fun k => 2 * re (c_mul ROps (nth k g (c_default ROps)) (nth k v (c_default ROps)) : RC)) (length v).
