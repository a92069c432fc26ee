(** * Vocabulary for the class predicted in floating point *)
From Coq Require Import ZArith Reals.
From Flocq Require Import Core BinarySingleNaN.
From Verif Require Import Base Float Matrix Cplx Act Input Dense Conv Layer Dataset Network RFloat BFloat CFacts SpecMatrix SpecGeom SpecRound SpecLip SpecEval.
Local Notation re := Cplx.re. Local Notation im := Cplx.im.

Section SpecClass.
Context (prec emax : Z) (Hp : Prec_gt_0 prec) (He : Prec_lt_emax prec emax) (L : libm (binary_float prec emax)).
Local Notation Fl := (BOps prec emax Hp He L).
Local Notation u := (uu prec).
Local Notation eta := (SpecRound.eta prec emax).

(** Between which bounds the squared modulus is computed for a number of
    modulus [m]. *)
Definition sq_above (m : R) : R := ((1 + u) ^ 2 * (m * m + 2 * eta))%R.
Definition sq_below (m : R) : R := ((2 - (1 + u) ^ 2) * (m * m) - (1 + u) ^ 2 * (2 * eta))%R.

(** How far number [i] may be from the exact one, by its budget. *)
Definition radius (b : budget) (i : nat) : R :=
  let w := ((1 + u) ^ order b)%R in let m := nth i (mag b) 0%RC in let s := nth i (slack b) 0%RC in
  modulus (mkC ((w - 1) * re m + w * re s)%R ((w - 1) * im m + w * im s)%R).

(** Number [i] of the exact numbers [r] leads so clearly that rounding cannot
    hide it, and its squared modulus does not overflow. *)
Definition leads (b : budget) (r : list RC) (i : nat) : Prop :=
  i < length r /\ (radius b i <= modulus (nth i r 0%RC))%R /\
  (sq_above (modulus (nth i r 0%RC) + radius b i) < SpecRound.omega emax)%R /\
  forall j, j < length r -> j <> i -> (sq_above (modulus (nth j r 0%RC) + radius b j) < sq_below (modulus (nth i r 0%RC) - radius b i))%R.

(** A point of a data set for which the prediction is that clear. *)
Definition clear_input (p : Float.prec) (et ee : R) (n : network Fl) (g : geometry) (x : IOType (cplx (binary_float prec emax))) : Prop :=
  has_geom g x /\ Forall cfinite (vals x) /\ net_headroom prec emax Hp He L p et ee n g (input_budget prec emax x) /\
  forall r, predicts ROps p (map (exact_layer prec emax Hp He L) n) (ioval x) r ->
    exists i, leads (net_budget prec emax Hp He L p et ee n g (input_budget prec emax x)) r i.

(** A target that names a class clearly. *)
Definition clear_target (t : list (cplx (binary_float prec emax))) : Prop :=
  Forall cfinite t /\ exists i, leads (input_budget prec emax (IOScalar t)) (map cval t) i.

(** The data set with its numbers read as real numbers. *)
Definition exact_data (d : dataset (cplx (binary_float prec emax)) (cplx (binary_float prec emax))) : dataset RC RC :=
  mkData (map ioval (ds_inputs d)) (map ioval (ds_target d)).
End SpecClass.
