(** * A small exact scalar type used only in the non-vacuity examples. *)
From Verif Require Import Base Matrix.

Definition Zdiv_checked (a b : Z) : outcome Z := if (b =? 0)%Z then Panic else Ret (a / b)%Z.
Definition Zops : BasicOps Z :=
  mkBasicOps 0%Z Z.add Z.add Z.sub Z.sub Z.mul Z.mul Zdiv_checked Zdiv_checked.

From Verif Require Import Float.
(** Integers as a [FloatOps], so that examples of statements that hold for every
    [FloatOps] compute.  Not a model of the crate's arithmetic. *)
Definition ZFl : FloatOps :=
  mkFloatOps Z (fun n d => (n / Zpos d)%Z) Z.of_N Z.add Z.sub Z.mul Z.div Z.opp Z.sqrt
    (fun x => x) (fun x => x) (fun x => x) (fun x => x) (fun x => x) (fun x => x) (fun x => x) (fun x _ => x)
    Z.eqb Z.ltb Z.leb (fun x => (x <? 0)%Z) 3%Z.
