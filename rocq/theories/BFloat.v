(** * IEEE 754 arithmetic: [FloatOps] over Flocq's binary floats.

    The libm functions are arbitrary; every theorem holds for all of them.
    NaN payloads are not modelled, and the sign of a NaN ([is_sign_negative])
    is arbitrary.  A literal z/d is the rounded quotient of the two integers.
    The literals the code uses at [f32] have numerator and denominator below
    2^24 and those it uses at [f64] below 2^53, so both integers are exact and
    the quotient is the correctly rounded decimal. *)
From Coq Require Import ZArith Reals Lra.
From Flocq Require Import Core BinarySingleNaN.
From Verif Require Import Base Float.
Local Open Scope Z_scope.

(** The platform's mathematical library. *)
Record libm (T : Type) := mkLibm {
  l_exp : T -> T; l_ln : T -> T; l_sin : T -> T; l_cos : T -> T; l_tanh : T -> T; l_cosh : T -> T;
  l_atan : T -> T; l_atan2 : T -> T -> T; l_nansign : T -> bool }.
Arguments l_exp {T}. Arguments l_ln {T}. Arguments l_sin {T}. Arguments l_cos {T}. Arguments l_tanh {T}.
Arguments l_cosh {T}. Arguments l_atan {T}. Arguments l_atan2 {T}. Arguments l_nansign {T}.

Section BF.
Context (prec emax : Z) (Hp : Prec_gt_0 prec) (He : Prec_lt_emax prec emax).
Local Notation B := (binary_float prec emax).

Definition Bofz (z : Z) : B := binary_normalize prec emax Hp He mode_NE z 0 false.
(** PI as z/d with enough digits for both formats. *)
Definition Bpi : B := Bdiv mode_NE (binary_normalize prec emax Hp He mode_NE 884279719003555 0 false)
                                   (binary_normalize prec emax Hp He mode_NE 281474976710656 0 false).

Definition BOps (L : libm B) : FloatOps :=
  mkFloatOps B
    (fun z d => match d with xH => Bofz z | _ => Bdiv mode_NE (Bofz z) (Bofz (Zpos d)) end)
    (fun n => Bofz (Z.of_N n))
    (Bplus mode_NE) (Bminus mode_NE) (Bmult mode_NE) (Bdiv mode_NE) Bopp
    (Bsqrt mode_NE) (l_exp L) (l_ln L) (l_sin L) (l_cos L) (l_tanh L) (l_cosh L) (l_atan L) (l_atan2 L)
    Beqb Bltb Bleb
    (fun x => if is_nan x then l_nansign L x else Bsign x) Bpi.
End BF.

Global Instance prec24 : Prec_gt_0 24 := eq_refl.
Global Instance prec53 : Prec_gt_0 53 := eq_refl.
Global Instance emax128 : Prec_lt_emax 24 128 := eq_refl.
Global Instance emax1024 : Prec_lt_emax 53 1024 := eq_refl.
Notation b32 := (binary_float 24 128).
Notation b64 := (binary_float 53 1024).
Definition B32Ops : libm b32 -> FloatOps := BOps 24 128 prec24 emax128.
Definition B64Ops : libm b64 -> FloatOps := BOps 53 1024 prec53 emax1024.
