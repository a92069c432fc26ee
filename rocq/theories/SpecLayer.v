(** * Vocabulary for stating properties of layers *)
From Verif Require Import Base Float Matrix Cplx Random Act Input Dense SpecMatrix.

(** [draws g s l s']: starting in state [s], [length l] successive calls of the
    generator [g] return the values of [l] in order and end in state [s']. *)
Inductive draws {S A : Type} (g : S -> outcome (S * A)) : S -> list A -> S -> Prop :=
| draws_nil : forall s, draws g s [] s
| draws_cons : forall s s1 s2 a l, g s = Ret (s1, a) -> draws g s1 l s2 -> draws g s (a :: l) s2.

(** A seed from which the generators never overflow. *)
Definition seed_ok (pr : profile) (seed : N) : Prop := pr = Release \/ (1103515245 * seed + 12345 < 2 ^ 128)%N.

Section SpecDense.
Context (Fl : FloatOps).
Local Notation C := (cplx (F Fl)).
Local Notation z := (c_default Fl).

(** A dense layer as its constructor builds it: a full matrix of weights, one
    bias per row. *)
Definition dense_wf (l : dense Fl) : Prop :=
  wf (d_weights l) /\ length (d_biases l) = sh0 (d_weights l) /\ sh1 (d_weights l) <> 0.

(** Number of units and inputs. *)
Definition units (l : dense Fl) : nat := sh0 (d_weights l).
Definition inputs (l : dense Fl) : nat := sh1 (d_weights l).
Definition weight (l : dense Fl) (i j : nat) : C := entry z (d_weights l) i j.

(** Value of unit [i] before the activation, in evaluation order:
    (((0 + w_i0 x_0) + w_i1 x_1) + ...) + b_i. *)
Definition pre (l : dense Fl) (x : list C) (i : nat) : C :=
  c_add Fl (sum_from (c_add Fl) z (fun j => c_mul Fl (weight l i j) (nth j x z)) (inputs l))
           (nth i (d_biases l) z).
End SpecDense.

(** ** Motions (exact arithmetic) *)
From Coq Require Import Reals.
From Verif Require Import RFloat SpecCalculus.

(** The activation [f] is differentiable at [q], and d_activate and
    d_conj_activate return its Wirtinger derivatives there. *)
Definition act_diff (p : prec) (f : ComplexActFunc) (q : RC) : Prop :=
  exists d dc, wirtinger_at (activate ROps p f) q d dc /\
    d_activate ROps p f q = Ret d /\ d_conj_activate ROps p f q = Ret dc.

(** A dense layer whose weights and biases move with velocities [vw], [vb]
    (row-major), its architecture staying the same. *)
Definition dense_moves (L : R -> dense ROps) (vw vb : list RC) : Prop :=
  (forall t, dense_wf ROps (L t) /\ units ROps (L t) = units ROps (L 0%R) /\ inputs ROps (L t) = inputs ROps (L 0%R) /\
             d_func (L t) = d_func (L 0%R)) /\
  vderiv (fun t => body (d_weights (L t))) vw /\ vderiv (fun t => d_biases (L t)) vb.
