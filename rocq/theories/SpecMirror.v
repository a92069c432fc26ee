(** * Vocabulary for conjugated networks and for real networks *)
From Coq Require Import ZArith Reals.
From Flocq Require Import Core BinarySingleNaN.
From Verif Require Import Base Float Matrix Cplx Act Input Dense Conv Layer Dataset Network Loss RFloat BFloat SpecDead SpecRel.

(** ** Networks and data all of whose numbers satisfy [P] *)
Section All.
Context (Fl : FloatOps) (P : cplx (F Fl) -> Prop) (ok : ComplexActFunc -> Prop).
Definition io_all (x : IOType (cplx (F Fl))) : Prop :=
  match x with IOScalar v => Forall P v | IOMatrix ms => Forall (fun m => Forall P (body m)) ms end.
Definition layer_all (l : clayer Fl) : Prop :=
  match l with
  | LDense d => Forall P (body (d_weights d)) /\ Forall P (d_biases d) /\ ok (d_func d)
  | LConv c => Forall (fun k => Forall P (body k)) (body (k_kernels c)) /\ Forall P (k_biases c) /\ ok (k_func c)
  | LReduce r => Forall P (body (r_kernel r)) /\ forall v z, Forall P v -> r_func r v = Ret z -> P z
  | LFlatten _ => True
  end.
Definition net_all (n : network Fl) : Prop := Forall layer_all n.
Definition data_all (d : dataset (cplx (F Fl)) (cplx (F Fl))) : Prop := Forall io_all (ds_inputs d) /\ Forall io_all (ds_target d).
Definition steps_all (s : list (dataset (cplx (F Fl)) (cplx (F Fl)) * ComplexLossFunc * cplx (F Fl))) : Prop :=
  Forall (fun t => data_all (fst (fst t)) /\ P (snd t)) s.
End All.

(** ** Exact arithmetic *)
(** The conjugate number. *)
Definition mirrored (z z' : RC) : Prop := z' = c_conj ROps z.
(** Activations that commute with conjugation. *)
Definition symmetric_act (f : ComplexActFunc) : Prop :=
  match f with ActNone | ModZ | RITTanh | Cardioid => True | RITSigmoid | RITReLU | ZReLU => False end.

Definition is_real (z : RC) : Prop := im z = 0%R.
(** Activations that take real numbers to real numbers. *)
Definition real_act (f : ComplexActFunc) : Prop :=
  match f with RITSigmoid => False | _ => True end.

(** ** IEEE numbers *)
Section IEEE.
Context (prec emax : Z).
Local Notation B := (binary_float prec emax).
(** The conjugate number, up to the signs of zeros. *)
Definition mirrored_ieee (z z' : cplx B) : Prop :=
  same_number (re z) (re z') /\ same_number (Bopp (im z)) (im z').
(** The imaginary part is a zero or NaN. *)
Definition no_imaginary (x : B) : Prop := is_nan x = true \/ exists s, x = B754_zero s.
Definition is_real_ieee (z : cplx B) : Prop := no_imaginary (im z).

(** The library's tanh is odd, its cosh even, and tanh of a zero is a zero. *)
Definition symmetric_lib (L : libm B) : Prop :=
  (forall x, l_tanh L (Bopp x) = Bopp (l_tanh L x)) /\ (forall x, l_cosh L (Bopp x) = l_cosh L x) /\
  (forall s, exists t, l_tanh L (B754_zero s) = B754_zero t).
Definition symmetric_act_ieee (L : libm B) (f : ComplexActFunc) : Prop :=
  match f with ActNone | ModZ => True | RITTanh => symmetric_lib L | _ => False end.
(** The library's tanh of a zero is a zero and of a NaN NaN. *)
Definition real_act_ieee (L : libm B) (f : ComplexActFunc) : Prop :=
  match f with
  | ActNone | ModZ | RITReLU | ZReLU => True
  | RITTanh => forall x, no_imaginary x -> no_imaginary (l_tanh L x)
  | _ => False
  end.

(** Two mathematical libraries agree on the functions that activation [f] calls. *)
Definition lib_agree (p : Float.prec) (L1 L2 : libm B) (f : ComplexActFunc) : Prop :=
  match f with
  | ActNone | ModZ => True
  | RITSigmoid => forall x, l_exp L1 x = l_exp L2 x
  | RITTanh => forall x, l_tanh L1 x = l_tanh L2 x /\ l_cosh L1 x = l_cosh L2 x
  | RITReLU | ZReLU => forall x, is_nan x = true -> l_nansign L1 x = l_nansign L2 x
  | Cardioid => (forall x, l_sin L1 x = l_sin L2 x /\ l_cos L1 x = l_cos L2 x) /\
      match p with Float.P32 => forall x y, l_atan2 L1 x y = l_atan2 L2 x y | Float.P64 => forall x, l_atan L1 x = l_atan L2 x end
  end.
(** The same for the functions that loss [f] calls. *)
Definition lib_agree_loss (L1 L2 : libm B) (f : ComplexLossFunc) : Prop :=
  match f with
  | MeanSquare => True
  | NormCrossEntropy => forall x, l_exp L1 x = l_exp L2 x /\ l_ln L1 x = l_ln L2 x
  end.
End IEEE.

(** The same numbers, bit for bit, in programs linked to two libraries. *)
Definition same_bits (prec emax : Z) (Hp : Prec_gt_0 prec) (He : Prec_lt_emax prec emax) (L1 L2 : libm (binary_float prec emax))
  (z : cplx (F (BOps prec emax Hp He L1))) (z' : cplx (F (BOps prec emax Hp He L2))) : Prop := (z : cplx (binary_float prec emax)) = z'.

Arguments mirrored_ieee {prec emax}.
Arguments no_imaginary {prec emax}.
Arguments is_real_ieee {prec emax}.
Arguments lib_agree {prec emax}.
Arguments lib_agree_loss {prec emax}.
Arguments symmetric_lib {prec emax}.
Arguments symmetric_act_ieee {prec emax}.
Arguments real_act_ieee {prec emax}.
