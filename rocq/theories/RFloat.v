(** * Exact arithmetic: the [FloatOps] of Coq's real numbers.

    Divisions by zero and square roots or logarithms of negative numbers have
    junk values here (IEEE has inf/NaN); theorems over [ROps] exclude them. *)
From Coq Require Import Reals Lra.
From Verif Require Import Base Float Matrix Cplx.
Local Open Scope R_scope.

Definition Reqb (x y : R) : bool := if Req_EM_T x y then true else false.
Definition Rltb (x y : R) : bool := if Rlt_dec x y then true else false.
Definition Rleb (x y : R) : bool := if Rle_dec x y then true else false.

(** The four-quadrant arctangent. *)
Definition Ratan2 (y x : R) : R :=
  if Rlt_dec 0 x then atan (y / x)
  else if Rlt_dec x 0 then
    (if Rle_dec 0 y then atan (y / x) + PI else atan (y / x) - PI)
  else if Rlt_dec 0 y then PI / 2
  else if Rlt_dec y 0 then - (PI / 2)
  else 0.

Definition Rlit (z : Z) (d : positive) : R :=
  match d with xH => IZR z | _ => IZR z / IZR (Zpos d) end.

Definition ROps : FloatOps :=
  mkFloatOps R Rlit (fun n => IZR (Z.of_N n)) Rplus Rminus Rmult Rdiv Ropp
    sqrt exp ln sin cos tanh cosh atan Ratan2 Reqb Rltb Rleb (fun x => Rltb x 0) PI.

Lemma Reqb_eq : forall x y, Reqb x y = true <-> x = y.
Proof. intros x y. unfold Reqb. destruct (Req_EM_T x y); split; congruence. Qed.
Lemma Reqb_neq : forall x y, Reqb x y = false <-> x <> y.
Proof. intros x y. unfold Reqb. destruct (Req_EM_T x y); split; congruence. Qed.
Lemma Rltb_lt : forall x y, Rltb x y = true <-> x < y.
Proof. intros x y. unfold Rltb. destruct (Rlt_dec x y); split; congruence. Qed.
Lemma Rltb_ge : forall x y, Rltb x y = false <-> y <= x.
Proof. intros x y. unfold Rltb. destruct (Rlt_dec x y); split; try congruence; lra. Qed.
Lemma Rleb_le : forall x y, Rleb x y = true <-> x <= y.
Proof. intros x y. unfold Rleb. destruct (Rle_dec x y); split; congruence. Qed.
Lemma Rleb_gt : forall x y, Rleb x y = false <-> y < x.
Proof. intros x y. unfold Rleb. destruct (Rle_dec x y); split; try congruence; lra. Qed.

(** The complex numbers the crate computes with, in exact arithmetic. *)
Notation RC := (cplx (F ROps)).
