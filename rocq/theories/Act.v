(** * Model of src/act/mod.rs.  The [cf32] and [cf64] copies are one
    definition; the places where they differ match on [p]. *)
From Verif Require Import Base Float Matrix Cplx.

(** act/mod.rs:421-429 *)
Inductive ComplexActFunc :=
| ActNone | ModZ | RITSigmoid | RITTanh | RITReLU | ZReLU | Cardioid.

Section Act.
Context (Fl : FloatOps) (p : prec).
Local Notation C := (cplx (F Fl)).
Local Notation "a + b" := (fadd Fl a b).
Local Notation "a - b" := (fsub Fl a b).
Local Notation "a * b" := (fmul Fl a b).
Local Notation "a / b" := (fdiv Fl a b).

(** act/mod.rs:8-9 and the saturation literals of 12-22 *)
Definition sig_thr : F Fl := match p with P32 => flit Fl 15 1 | P64 => flit Fl 30 1 end.
Definition sig_hi : F Fl :=
  match p with
  | P32 => flit Fl 999999 1000000
  | P64 => flit Fl 99999999999999 100000000000000
  end.
Definition sig_lo : F Fl :=
  match p with P32 => flit Fl 1 1000000 | P64 => flit Fl 1 100000000000000 end.

(** act/mod.rs:12-22 *)
Definition sigmoid (v : F Fl) : F Fl :=
  if fleb Fl sig_thr v then sig_hi
  else if fleb Fl v (fneg Fl sig_thr) then sig_lo
  else fexp Fl v / (fone Fl + fexp Fl v).

(** act/mod.rs:24-30 *)
Definition d_sigmoid (v : F Fl) : F Fl := sigmoid v * (fone Fl - sigmoid v).

(** act/mod.rs:32-45 *)
Definition relu (v : F Fl) : F Fl := if fsignneg Fl v then fzero Fl else v.

(** act/mod.rs:47-61 *)
Definition d_relu (v : F Fl) : F Fl := if fsignneg Fl v then fzero Fl else fone Fl.

(** act/mod.rs:64-104 *)
Definition ritsigmoid (z : C) : C := mkC (sigmoid (re z)) (sigmoid (im z)).
Definition d_ritsigmoid (z : C) : C :=
  mkC ((d_sigmoid (re z) + d_sigmoid (im z)) * fhalf Fl) (fzero Fl).
Definition d_conj_ritsigmoid (z : C) : C :=
  mkC ((d_sigmoid (re z) - d_sigmoid (im z)) * fhalf Fl) (fzero Fl).

(** act/mod.rs:107-141 *)
Definition rittanh (z : C) : C := mkC (ftanh Fl (re z)) (ftanh Fl (im z)).
Definition d_rittanh (z : C) : C :=
  mkC (((fone Fl / fsq Fl (fcosh Fl (re z))) + (fone Fl / fsq Fl (fcosh Fl (im z)))) * fhalf Fl) (fzero Fl).
Definition d_conj_rittanh (z : C) : C :=
  mkC (((fone Fl / fsq Fl (fcosh Fl (re z))) - (fone Fl / fsq Fl (fcosh Fl (im z)))) * fhalf Fl) (fzero Fl).

(** act/mod.rs:144-184 *)
Definition ritrelu (z : C) : C := mkC (relu (re z)) (relu (im z)).
Definition d_ritrelu (z : C) : C := mkC ((d_relu (re z) + d_relu (im z)) * fhalf Fl) (fzero Fl).
Definition d_conj_ritrelu (z : C) : C := mkC ((d_relu (re z) - d_relu (im z)) * fhalf Fl) (fzero Fl).

(** act/mod.rs:187-225 *)
Definition zrelu (z : C) : C :=
  if fsignneg Fl (re z) || fsignneg Fl (im z) then mkC (fzero Fl) (fzero Fl) else z.
Definition d_zrelu (z : C) : C :=
  if fsignneg Fl (re z) || fsignneg Fl (im z) then mkC (fzero Fl) (fzero Fl)
  else mkC (fone Fl) (fzero Fl).
Definition d_conj_zrelu (_ : C) : C := mkC (fzero Fl) (fzero Fl).

(** act/mod.rs:228-244 *)
Definition card (z : C) : C :=
  let phase := c_phase Fl p z in
  let cos := fcos Fl phase in
  let sin := fsin Fl phase in
  mkC (ftwo Fl * (fone Fl + cos) * cos) (ftwo Fl * (fone Fl + cos) * sin).

(** act/mod.rs:247-269 = 275-297 = 303-325 = 331-353: [dfdx] and [dfdy]. *)
Definition card_dfdx_dfdy (z : C) : C * C :=
  let norm := c_norm Fl z in
  let phase := c_phase Fl p z in
  let cos := fcos Fl phase in
  let sin := fsin Fl phase in
  let cos2 := fsq Fl cos in
  let sin_2x := fsin Fl (ftwo Fl * phase) in
  let unfactor_re := sin + sin_2x in
  let unfactor_im := ftwo Fl * cos2 + cos - fone Fl in
  let x_factor := sin / norm in
  let y_factor := cos / norm in
  (mkC (ftwo Fl * x_factor * unfactor_re) (fneg Fl (ftwo Fl) * x_factor * unfactor_im),
   mkC (ftwo Fl * y_factor * unfactor_re) (fneg Fl (ftwo Fl) * y_factor * unfactor_im)).

(** act/mod.rs:246-300 *)
Definition d_card (z : C) : C :=
  let '(dfdx, dfdy) := card_dfdx_dfdy z in
  c_sub Fl dfdx (c_mul Fl (c_iunit Fl) dfdy).

(** act/mod.rs:302-356 *)
Definition d_conj_card (z : C) : C :=
  let '(dfdx, dfdy) := card_dfdx_dfdy z in
  c_add Fl dfdx (c_mul Fl (c_iunit Fl) dfdy).

(** act/mod.rs:359-363, 377-381 *)
Definition mod_z (z : C) : outcome C := c_div Fl z (c_new Fl (c_norm Fl z) (fzero Fl)).

(** act/mod.rs:365-369, 383-387 *)
Definition d_mod_z (z : C) : C := c_new Fl (fone Fl / (ftwo Fl * c_norm Fl z)) (fzero Fl).

(** act/mod.rs:371-375, 389-393 *)
Definition d_conj_mod_z (z : C) : outcome C :=
  q <- c_div Fl z (c_conj Fl z) ;;
  c_div Fl q (c_new Fl (fneg Fl (ftwo Fl * c_norm Fl z)) (fzero Fl)).

(** act/mod.rs:434-458 and 596-610; src/math/mod.rs:309-311, 469-471 *)
Definition activate (f : ComplexActFunc) (z : C) : outcome C :=
  match f with
  | ActNone => Ret z
  | ModZ => mod_z z
  | RITSigmoid => Ret (ritsigmoid z)
  | RITTanh => Ret (rittanh z)
  | RITReLU => Ret (ritrelu z)
  | ZReLU => Ret (zrelu z)
  | Cardioid => Ret (card z)
  end.

(** act/mod.rs:463-488 and 618-632; src/math/mod.rs:313-315, 473-475 *)
Definition d_activate (f : ComplexActFunc) (z : C) : outcome C :=
  match f with
  | ActNone => Ret (c_unit Fl)
  | ModZ => Ret (d_mod_z z)
  | RITSigmoid => Ret (d_ritsigmoid z)
  | RITTanh => Ret (d_rittanh z)
  | RITReLU => Ret (d_ritrelu z)
  | ZReLU => Ret (d_zrelu z)
  | Cardioid => Ret (d_card z)
  end.

(** act/mod.rs:493-518 and 640-654; src/math/mod.rs:317-319, 477-479 *)
Definition d_conj_activate (f : ComplexActFunc) (z : C) : outcome C :=
  match f with
  | ActNone => Ret (c_default Fl)
  | ModZ => d_conj_mod_z z
  | RITSigmoid => Ret (d_conj_ritsigmoid z)
  | RITTanh => Ret (d_conj_rittanh z)
  | RITReLU => Ret (d_conj_ritrelu z)
  | ZReLU => Ret (d_conj_zrelu z)
  | Cardioid => Ret (d_conj_card z)
  end.

(** act/mod.rs:528-586; src/math/mod.rs:321-331, 481-491 *)
Definition activate_mut (f : ComplexActFunc) (l : list C) : outcome (list C) := mapM (activate f) l.
Definition d_activate_mut (f : ComplexActFunc) (l : list C) : outcome (list C) := mapM (d_activate f) l.
Definition d_conj_activate_mut (f : ComplexActFunc) (l : list C) : outcome (list C) := mapM (d_conj_activate f) l.

End Act.
