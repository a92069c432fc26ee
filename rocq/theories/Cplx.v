(** * Model of src/math/cfloat/mod.rs and of the arithmetic part of the
    [Complex] trait in src/math/mod.rs. *)
From Verif Require Import Base Float Matrix.

(** cfloat/mod.rs:13-23, structs [Cf32] and [Cf64]. *)
Record cplx (A : Type) := mkC { re : A; im : A }.
Arguments mkC {A} re im.
Arguments re {A} _.
Arguments im {A} _.

Section Ops.
Context (Fl : FloatOps) (p : prec).
Local Notation C := (cplx (F Fl)).
Local Notation "a + b" := (fadd Fl a b).
Local Notation "a - b" := (fsub Fl a b).
Local Notation "a * b" := (fmul Fl a b).
Local Notation "a / b" := (fdiv Fl a b).

(** cfloat/mod.rs:55-71 *)
Definition c_default : C := mkC (fzero Fl) (fzero Fl).

(** src/math/mod.rs:189-191, 345-347 *)
Definition c_new (x y : F Fl) : C := mkC x y.

(** src/math/mod.rs:193-195, 349-351 *)
Definition c_newe (a ph : F Fl) : C := mkC (a * fcos Fl ph) (a * fsin Fl ph).

(** src/math/mod.rs:197-199, 353-355 *)
Definition c_of_nat (n : nat) : C := mkC (fofnat Fl n) (fzero Fl).

(** src/math/mod.rs:201-207, 357-363 *)
Definition c_unit : C := mkC (fone Fl) (fzero Fl).
Definition c_iunit : C := mkC (fzero Fl) (fone Fl).

(** src/math/mod.rs:217-223, 373-379 *)
Definition c_norm_sq (z : C) : F Fl := fsq Fl (re z) + fsq Fl (im z).
Definition c_norm (z : C) : F Fl := fsqrt Fl (fsq Fl (re z) + fsq Fl (im z)).

(** src/math/mod.rs:225-227 ([Cf32]: [atan2]) and 381-383 ([Cf64]: [atan(y/x)]). *)
Definition c_phase (z : C) : F Fl :=
  match p with
  | P32 => fatan2 Fl (im z) (re z)
  | P64 => fatan Fl (im z / re z)
  end.

(** src/math/mod.rs:229-231, 385-390 *)
Definition c_conj (z : C) : C := mkC (re z) (fneg Fl (im z)).

(** cfloat/mod.rs:150-159, 284-293; by reference 232-241, 367-376 *)
Definition c_add (a b : C) : C := mkC (re a + re b) (im a + im b).

(** cfloat/mod.rs:161-170, 295-304; by reference 243-252, 378-387 *)
Definition c_sub (a b : C) : C := mkC (re a - re b) (im a - im b).

(** cfloat/mod.rs:172-181, 306-315; by reference 254-263, 389-398 *)
Definition c_mul (a b : C) : C :=
  mkC (re a * re b - im a * im b) (re a * im b + im a * re b).

(** cfloat/mod.rs:183-196, 317-330; by reference 265-278, 400-413 *)
Definition c_div (a b : C) : outcome C :=
  let den := fsq Fl (re b) + fsq Fl (im b) in
  if feqb Fl den (fzero Fl) then Panic
  else Ret (mkC ((re a * re b + im a * im b) / den) ((im a * re b - re a * im b) / den)).

(** cfloat/mod.rs:199-211, 333-346 *)
Definition c_add_assign (a b : C) : C := mkC (re a + re b) (im a + im b).
Definition c_sub_assign (a b : C) : C := mkC (re a - re b) (im a - im b).

(** cfloat/mod.rs:213-218, 348-353: [self.x] is overwritten first and the new
    value is used for [self.y]. *)
Definition c_mul_assign (a b : C) : C :=
  let x := re a * re b - im a * im b in
  mkC x (x * im b + im a * re b).

(** cfloat/mod.rs:220-229, 355-364: same order of assignments. *)
Definition c_div_assign (a b : C) : outcome C :=
  let den := fsq Fl (re b) + fsq Fl (im b) in
  if feqb Fl den (fzero Fl) then Panic
  else let x := (re a * re b + im a * im b) / den in
       Ret (mkC x ((im a * re b - x * im b) / den)).

(** cfloat/mod.rs:13,19, derived [PartialEq]. *)
Definition c_eqb (a b : C) : bool := feqb Fl (re a) (re b) && feqb Fl (im a) (im b).

(** cfloat/mod.rs:73-145, [PartialOrd]. *)
Definition c_ge (a b : C) : bool := fleb Fl (c_norm_sq b) (c_norm_sq a).
Definition c_gt (a b : C) : bool := fltb Fl (c_norm_sq b) (c_norm_sq a).
Definition c_le (a b : C) : bool := fleb Fl (c_norm_sq a) (c_norm_sq b).
Definition c_lt (a b : C) : bool := fltb Fl (c_norm_sq a) (c_norm_sq b).
Definition c_partial_cmp (a b : C) : option comparison := fcmp Fl (c_norm_sq a) (c_norm_sq b).

End Ops.

(** The operator dictionaries the generic matrix code is instantiated with. *)
Definition cops (Fl : FloatOps) : BasicOps (cplx (F Fl)) :=
  mkBasicOps (c_default Fl) (c_add Fl) (c_add_assign Fl) (c_sub Fl) (c_sub_assign Fl)
             (c_mul Fl) (c_mul_assign Fl) (c_div Fl) (c_div_assign Fl).
Definition fops (Fl : FloatOps) : BasicOps (F Fl) :=
  mkBasicOps (fzero Fl) (fadd Fl) (fadd Fl) (fsub Fl) (fsub Fl)
             (fmul Fl) (fmul Fl) (fun a b => Ret (fdiv Fl a b)) (fun a b => Ret (fdiv Fl a b)).
