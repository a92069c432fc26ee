(** * Abstract floating point.

    The crate computes with [f32]/[f64] and the [libm] functions behind them.
    The model is written once, for any implementation of these operations; it
    is instantiated with IEEE 754 numbers (Flocq, BFloat.v) for statements
    about rounding, overflow, NaN and signed zeros, and with the real numbers
    (RFloat.v) for statements of algebra and calculus.  Theorems quantified over
    every [FloatOps] hold bit for bit of the compiled program, whatever the
    platform's [libm] returns. *)
From Verif Require Import Base.

Record FloatOps := mkFloatOps {
  F : Type;
  flit : Z -> positive -> F;       (* literal  z / d, e.g. 0.5 = 5/10 *)
  fofN : N -> F;                   (* [n as f32] / [n as f64], [std::f32::consts::PI] below *)
  fadd : F -> F -> F;
  fsub : F -> F -> F;
  fmul : F -> F -> F;
  fdiv : F -> F -> F;
  fneg : F -> F;
  fsqrt : F -> F;
  fexp : F -> F;
  fln : F -> F;
  fsin : F -> F;
  fcos : F -> F;
  ftanh : F -> F;
  fcosh : F -> F;
  fatan : F -> F;
  fatan2 : F -> F -> F;
  feqb : F -> F -> bool;
  fltb : F -> F -> bool;
  fleb : F -> F -> bool;
  fsignneg : F -> bool;            (* [is_sign_negative] *)
  fpi : F;
}.

(** Which of the two float types the code is instantiated with: the crate has
    a copy of each function for [f32]/[Cf32] and [f64]/[Cf64], and in a few
    places the copies differ. *)
Inductive prec := P32 | P64.

Section Derived.
Context (Fl : FloatOps).

Definition fzero : F Fl := flit Fl 0 1.
Definition fone : F Fl := flit Fl 1 1.
Definition ftwo : F Fl := flit Fl 2 1.
Definition fhalf : F Fl := flit Fl 5 10.

(** [x.powi(2)].  Both LLVM's constant expansion and compiler-rt's loop
    compute [x * x]. *)
Definition fsq (x : F Fl) : F Fl := fmul Fl x x.

(** [usize as f32]/[f64]; src/math/mod.rs:48-50, 77-79 [usize_to_real]. *)
Definition fofnat (n : nat) : F Fl := fofN Fl (N.of_nat n).

(** core's [PartialOrd for f32/f64]: [partial_cmp] is defined from [<=] and [>=]. *)
Definition fcmp (a b : F Fl) : option comparison :=
  match fleb Fl a b, fleb Fl b a with
  | false, false => None
  | false, true => Some Gt
  | true, false => Some Lt
  | true, true => Some Eq
  end.

End Derived.
