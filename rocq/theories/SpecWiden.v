(** * Vocabulary for moving a network from single to double precision *)
From Coq Require Import ZArith Reals.
From Flocq Require Import Core BinarySingleNaN.
From Verif Require Import Base Float Matrix Cplx Act Input Dense Conv Layer Dataset Network Examples RFloat BFloat CFacts SpecMatrix SpecGeom SpecRound.
Local Notation re := Cplx.re. Local Notation im := Cplx.im.

(** [f64::from] of a [f32]: the same number.  (The library has no function for
    this; a user who reads f32 parameters into an f64 network writes it.) *)
Definition wide (x : binary_float 24 128) : binary_float 53 1024 :=
  match x with
  | B754_zero s => B754_zero s
  | B754_infinity s => B754_infinity s
  | B754_nan => B754_nan
  | B754_finite s m e _ => binary_normalize 53 1024 prec53 emax1024 mode_NE (cond_Zopp s (Zpos m)) e s
  end.

Definition cwide (z : cplx (binary_float 24 128)) : cplx (binary_float 53 1024) := mkC (wide (re z)) (wide (im z)).
Definition mwide (m : matrix (cplx (binary_float 24 128))) : matrix (cplx (binary_float 53 1024)) :=
  mkM (map cwide (body m)) (sh0 m) (sh1 m) (cap0 m) (cap1 m).
Definition iowide (x : IOType (cplx (binary_float 24 128))) : IOType (cplx (binary_float 53 1024)) :=
  match x with IOScalar v => IOScalar (map cwide v) | IOMatrix ms => IOMatrix (map mwide ms) end.

(** The same layer in double precision: its parameters converted, means of
    blocks taken in double precision. *)
Definition wide_layer (L : libm (binary_float 24 128)) (L' : libm (binary_float 53 1024)) (l : clayer (B32Ops L)) : clayer (B64Ops L') :=
  match l with
  | LDense l => LDense (mkDense (B64Ops L') (mwide (d_weights l)) (map cwide (d_biases l)) (d_func l))
  | LConv l => LConv (mkConv (B64Ops L') (k_in l)
      (mkM (map mwide (body (k_kernels l))) (sh0 (k_kernels l)) (sh1 (k_kernels l)) (cap0 (k_kernels l)) (cap1 (k_kernels l)))
      (map cwide (k_biases l)) (k_func l))
  | LReduce l => LReduce (mkRed (B64Ops L') (r_in l) (r_b0 l) (r_b1 l) (avg_block (B64Ops L')) (mwide (r_kernel l)))
  | LFlatten l => LFlatten l
  end.

(** The same data set in double precision. *)
Definition data_wide (d : dataset (cplx (binary_float 24 128)) (cplx (binary_float 24 128))) : dataset (cplx (binary_float 53 1024)) (cplx (binary_float 53 1024)) :=
  mkData (map iowide (ds_inputs d)) (map iowide (ds_target d)).

(** Sigmoid layers are left out: the two precisions cut the sigmoid off at
    different points. *)
Definition no_sigmoid (L : libm (binary_float 24 128)) (l : clayer (B32Ops L)) : Prop :=
  layer_func 24 128 prec24 emax128 L l <> RITSigmoid.
