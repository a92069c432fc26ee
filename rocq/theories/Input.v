(** * Model of src/input/mod.rs *)
From Verif Require Import Base Matrix.

(** input/mod.rs:6-8 *)
Inductive ReleaseError := Rel_InvalidType.

(** input/mod.rs:12-15 *)
Inductive IOType (T : Type) :=
| IOScalar (v : list T)
| IOMatrix (ms : list (matrix T)).
Arguments IOScalar {T} v.
Arguments IOMatrix {T} ms.

(** input/mod.rs:73-77 *)
Inductive IOShape :=
| ShScalar (n : nat)
| ShMatrix (n : nat).

(** input/mod.rs:72, derived [PartialEq]. *)
Definition shape_eqb (a b : IOShape) : bool :=
  match a, b with
  | ShScalar n, ShScalar m => n =? m
  | ShMatrix n, ShMatrix m => n =? m
  | _, _ => false
  end.

Section IO.
Context {T : Type}.

(** input/mod.rs:19-24 *)
Definition release_vec (x : IOType T) : result (list T) ReleaseError :=
  match x with IOScalar v => Ok v | _ => Err Rel_InvalidType end.

(** input/mod.rs:27-32 *)
Definition release_maps (x : IOType T) : result (list (matrix T)) ReleaseError :=
  match x with IOMatrix m => Ok m | _ => Err Rel_InvalidType end.

(** input/mod.rs:35-40 *)
Definition as_slice (x : IOType T) : outcome (list T) :=
  match x with IOScalar v => Ret v | IOMatrix _ => Panic end.

(** input/mod.rs:43-48 [as_mut]: the slice handed out, overwritten with [w]. *)
Definition as_mut_write (x : IOType T) (w : list T) : outcome (IOType T) :=
  match x with
  | IOScalar v => Ret (IOScalar (zip_assign (fun _ b => b) v w))
  | IOMatrix _ => Panic
  end.

(** input/mod.rs:53-58 *)
Definition to_vec (x : IOType T) : outcome (list T) :=
  match x with IOScalar v => Ret v | IOMatrix _ => Panic end.

End IO.
