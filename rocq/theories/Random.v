(** * Model of src/math/random/mod.rs and of the random generators in
    src/math/mod.rs and src/init/mod.rs.  A [&mut u128] seed is threaded. *)
From Verif Require Import Base Float Matrix Cplx.

(** Cargo profile: with overflow checks (dev) [u128] arithmetic panics on
    overflow, without (release) it wraps. *)
Inductive profile := Dev | Release.

Definition u128_max1 : N := 2 ^ 128.

(** [a * b + c] on [u128]. *)
Definition u128_muladd (pr : profile) (a b c : N) : outcome N :=
  match pr with
  | Dev => let ab := (a * b)%N in
           if (ab <? u128_max1)%N
           then (if (ab + c <? u128_max1)%N then Ret (ab + c)%N else Panic)
           else Panic
  | Release => Ret (((a * b) mod u128_max1 + c) mod u128_max1)%N
  end.

(** random/mod.rs:21-23, 51-53, 85-87 *)
Definition lcg_a : N := 1103515245.
Definition lcg_b : N := 12345.
Definition lcg_m : N := 2 ^ 31.

(** random/mod.rs:25 = 55 = 89: the seed update all three functions share. *)
Definition lcg_next (pr : profile) (seed : N) : outcome N :=
  t <- u128_muladd pr lcg_a seed lcg_b ;; Ret (t mod (lcg_m - 1))%N.

(** random/mod.rs:83-92.  Both divisions panic on zero.  The final cast to
    [usize] is the identity: the quotient is below [2^31]. *)
Definition lcgi (pr : profile) (seed limit : N) : outcome (N * N) :=
  s <- lcg_next pr seed ;;
  if (limit =? 0)%N then Panic
  else let q := ((lcg_m - 1) / limit)%N in
       if (q =? 0)%N then Panic else Ret (s, (s / q)%N).

(** src/init/mod.rs:43-45 *)
Inductive PredictModel := Sparse.

(** src/err/mod.rs:38-41 *)
Inductive PredicionError := CriticalIndexOverflow.

(** src/init/mod.rs:6-17 *)
Inductive InitMethod :=
| Uniform (scale : nat)
| XavierGlorotU (io_units : nat)
| XavierGlorotN (io_units : nat)
| Xavier (i_units : nat)
| HeInit (i_units : nat).

Section Gen.
Context (Fl : FloatOps) (p : prec) (pr : profile).
Local Notation C := (cplx (F Fl)).
Local Notation "a + b" := (fadd Fl a b).
Local Notation "a - b" := (fsub Fl a b).
Local Notation "a * b" := (fmul Fl a b).
Local Notation "a / b" := (fdiv Fl a b).

(** random/mod.rs:19-29 and 49-59 *)
Definition lcgf (seed : N) : outcome (N * F Fl) :=
  s <- lcg_next pr seed ;; Ret (s, fofN Fl s / fofN Fl lcg_m).

(** src/math/mod.rs:52-56, 81-85 *)
Definition r_gen (seed : N) (scale : nat) : outcome (N * F Fl) :=
  let fs := fofnat Fl scale in
  '(s, u) <- lcgf seed ;;
  Ret (s, ftwo Fl * fs * u - fs).

(** src/math/mod.rs:58-69, 87-98 (reals, [one] = 1.0) and 296-307, 456-467
    (complex, [one] = [unit()]); [op] is the [+=] of the type. *)
Definition gen_pred {A : Type} (zero one : A) (add_assign : A -> A -> A)
    (size k : nat) (_ : PredictModel) : outcome (result (list A) PredicionError) :=
  if (size <? k)%nat then Ret (Err CriticalIndexOverflow)
  else let v := repeat zero size in
       x <- index v k ;;
       Ret (Ok (set_nth v k (add_assign x one))).
Definition r_gen_pred := gen_pred (fzero Fl) (fone Fl) (fadd Fl).
Definition c_gen_pred := gen_pred (c_default Fl) (c_unit Fl) (c_add_assign Fl).

(** [2.0 * lcgf(seed) * PI], the phase drawn by every complex generator. *)
Definition draw_phase (seed : N) : outcome (N * F Fl) :=
  '(s, u) <- lcgf seed ;; Ret (s, ftwo Fl * u * fpi Fl).

(** src/math/mod.rs:233-240 and 392-399 *)
Definition c_gen (seed : N) (scale : nat) : outcome (N * C) :=
  let fs := fofnat Fl scale in
  '(s1, u) <- lcgf seed ;;
  let r := match p with P32 => fs * u | P64 => ftwo Fl * fs * u - fs end in
  '(s2, phi) <- draw_phase s1 ;;
  Ret (s2, mkC (r * fcos Fl phi) (r * fsin Fl phi)).

(** src/math/mod.rs:242-259, 282-294 and 401-418, 441-454: [gen_he] and
    [gen_xagn] have the same body. *)
Definition gen_normal (seed : N) (units : nat) : outcome (N * C) :=
  let new_std := fsqrt Fl (ftwo Fl / fofnat Fl units) in
  '(s1, r1) <- lcgf seed ;;
  '(s2, phi1) <- draw_phase s1 ;;
  let r := (fsqrt Fl (fneg Fl (ftwo Fl) * fln Fl r1) * fcos Fl phi1) * new_std in
  '(s3, phi) <- draw_phase s2 ;;
  Ret (s3, mkC (r * fcos Fl phi) (r * fsin Fl phi)).
Definition gen_he := gen_normal.
Definition gen_xagn := gen_normal.

(** src/math/mod.rs:261-270 and 420-429 *)
Definition gen_xa (seed : N) (i_units : nat) : outcome (N * C) :=
  let new_std := fone Fl / fofnat Fl i_units in
  let new_scale := fsqrt Fl (new_std * flit Fl 12 1) in
  '(s1, u) <- lcgf seed ;;
  let r := match p with P32 => u * new_scale | P64 => ftwo Fl * u * new_scale - new_scale end in
  '(s2, phi) <- draw_phase s1 ;;
  Ret (s2, mkC (r * fcos Fl phi) (r * fsin Fl phi)).

(** src/math/mod.rs:272-280 and 431-439 *)
Definition gen_xagu (seed : N) (io_units : nat) : outcome (N * C) :=
  let scale := fsqrt Fl (flit Fl 6 1 / fofnat Fl io_units) in
  '(s1, u) <- lcgf seed ;;
  let r := match p with P32 => u * scale | P64 => ftwo Fl * u * scale - scale end in
  '(s2, phi) <- draw_phase s1 ;;
  Ret (s2, mkC (r * fcos Fl phi) (r * fsin Fl phi)).

(** src/init/mod.rs:21-39 *)
Definition init_gen (m : InitMethod) (seed : N) : outcome (N * C) :=
  match m with
  | Uniform scale => c_gen seed scale
  | XavierGlorotU io => gen_xagu seed io
  | XavierGlorotN io => gen_xagn seed io
  | Xavier i => gen_xa seed i
  | HeInit i => gen_he seed i
  end.

End Gen.
