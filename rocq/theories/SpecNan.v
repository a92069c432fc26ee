(** * Vocabulary for not-a-number values in a network *)
From Coq Require Import ZArith.
From Flocq Require Import Core BinarySingleNaN.
From Verif Require Import Base Float Matrix Cplx Act Input Loss Dense Conv Layer Dataset Network SpecMatrix SpecLayer SpecConv SpecNet BFloat.
Local Open Scope nat_scope.
Local Notation re := Cplx.re. Local Notation im := Cplx.im.

Section Nan.
Context {prec emax : Z}.
Local Notation B := (binary_float prec emax).

(** One part, or both parts, of a number are NaN. *)
Definition tainted (z : cplx B) : Prop := is_nan (re z) = true \/ is_nan (im z) = true.
Definition ruined (z : cplx B) : Prop := is_nan (re z) = true /\ is_nan (im z) = true.

(** A mathematical library that answers NaN with NaN, as IEEE 754 asks. *)
Definition nan_in_nan_out (L : libm B) : Prop :=
  (forall x, is_nan x = true -> is_nan (l_exp L x) = true /\ is_nan (l_ln L x) = true /\ is_nan (l_sin L x) = true /\
     is_nan (l_cos L x) = true /\ is_nan (l_tanh L x) = true /\ is_nan (l_cosh L x) = true /\ is_nan (l_atan L x) = true) /\
  (forall x y, is_nan x = true \/ is_nan y = true -> is_nan (l_atan2 L x y) = true).
End Nan.

(** The activations other than the rectifiers (whose answer to NaN depends on
    its sign bit) and [ModZ] (which can panic). *)
Definition smooth_act (f : ComplexActFunc) : Prop := f = ActNone \/ f = RITSigmoid \/ f = RITTanh \/ f = Cardioid.

Section NanNet.
Context (prec emax : Z) (Hp : Prec_gt_0 prec) (He : Prec_lt_emax prec emax) (L : libm (binary_float prec emax)).
Local Notation Fl := (BOps prec emax Hp He L).
Local Notation C := (cplx (binary_float prec emax)).

(** The numbers training can change in a dense layer. *)
Definition dense_numbers (l : dense Fl) : list C := body (d_weights l) ++ d_biases l.
Definition layer_tainted (l : dense Fl) : Prop := Exists tainted (dense_numbers l).
Definition layer_ruined (l : dense Fl) : Prop := Forall ruined (dense_numbers l).

(** Dense layers with fitting widths, at least one unit each, and activations
    as above. *)
Definition smooth_net (ls : list (dense Fl)) (w : nat) : Prop :=
  ls <> [] /\ widths_fit Fl ls w /\ forall l, In l ls -> smooth_act (d_func l) /\ 0 < units Fl l.

(** A batch of (input, target) pairs, and a batch that fits the network. *)
Definition batch_of (pts : list (list C * list C)) : dataset C C :=
  mkData (map (fun q => IOScalar (fst q)) pts) (map (fun q => IOScalar (snd q)) pts).
Definition batch_fits (ls : list (dense Fl)) (w : nat) (pts : list (list C * list C)) : Prop :=
  pts <> [] /\ forall x t, In (x, t) pts -> length x = w /\ out_width Fl ls w <= length t.
End NanNet.
