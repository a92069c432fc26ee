(** * Vocabulary for the rounding of a training step *)
From Coq Require Import ZArith Reals.
From Flocq Require Import Core BinarySingleNaN.
From Verif Require Import Base Float Matrix Cplx Act Input Loss Dense Conv Layer Dataset Network RFloat BFloat CFacts SpecMatrix SpecLayer SpecRound.
Local Notation re := Cplx.re. Local Notation im := Cplx.im.

Section SpecBack.
Context (prec emax : Z) (Hp : Prec_gt_0 prec) (He : Prec_lt_emax prec emax) (L : libm (binary_float prec emax)).
Local Notation B := (binary_float prec emax).
Local Notation Fl := (BOps prec emax Hp He L).

(** [r] is at most [M] in either part, and [y] is finite and differs from it by at
    most the effect of [k] roundings on numbers of size [M], and by [c] times as
    many. *)
Definition off_by (k : nat) (M c : RC) (y : cplx B) (r : RC) : Prop :=
  let w := ((1 + uu prec) ^ k)%R in
  (Rabs (re r) <= re M /\ Rabs (im r) <= im M /\ 0 <= re c /\ 0 <= im c)%R /\ cfinite y /\
  (Rabs (B2R (re y) - re r) <= (w - 1) * re M + w * re c)%R /\ (Rabs (B2R (im y) - im r) <= (w - 1) * im M + w * im c)%R.

(** Numbers of size [M] and [c], rounded [k] times, stay below the overflow
    threshold. *)
Definition room (k : nat) (M c : RC) : Prop :=
  ((1 + uu prec) ^ k * (re M + re c) < omega emax)%R /\ ((1 + uu prec) ^ k * (im M + im c) < omega emax)%R.

(** [k] times half the smallest positive number, in both parts. *)
Definition tiny (k : R) : RC := both (k * eta prec emax)%R.

(** What passes back through an activation: nothing where a rectifier is
    switched off. *)
Definition gate (f : ComplexActFunc) (q : cplx B) (g : RC) : RC :=
  match f with
  | RITReLU => mkC (if fsignneg Fl (re q) then 0 else re g)%R (if fsignneg Fl (im q) then 0 else im g)%R
  | ZReLU => if fsignneg Fl (re q) || fsignneg Fl (im q) then 0%RC else g
  | _ => g
  end.
Definition gated (f : ComplexActFunc) : Prop := f = ActNone \/ f = RITReLU \/ f = ZReLU.

(** ** Back through a stack of dense layers *)
Local Notation z := (c_default Fl).
Local Notation W l i j := (cval (weight Fl l i j)).

(** An exact derivative, one number per unit, and the budget of the computed one. *)
Definition flow := (list RC * budget)%type.

(** The derivative at the loss: conj (y - t), one rounding. *)
Definition flow_top (t y : list (cplx B)) : flow :=
  let d k := c_sub ROps (cval (nth k y z)) (cval (nth k t z)) in let ks := seq 0 (length t) in
  (map (fun k => c_conj ROps (d k)) ks, mkBudget 1 (map (fun k => cabs (d k)) ks) (map (fun _ => 0%RC) ks)).

(** From behind the layer [l] to its input [x]. *)
Definition flow_back (xl : list (cplx B) * dense Fl) (d : flow) : flow :=
  let '(x, l) := xl in let m := units Fl l in let js := seq 0 (inputs Fl l) in
  (map (fun j => csum (fun i => W l i j * gate (d_func l) (pre Fl l x i) (nth i (fst d) 0))%RC m) js,
   mkBudget (m + order (snd d) + 5)
     (map (fun j => csum (fun i => amul (W l i j) (nth i (mag (snd d)) 0%RC)) m) js)
     (map (fun j => csum (fun i => amul (W l i j) (nth i (slack (snd d)) 0 + tiny 6) + tiny 3)%RC m) js)).
Definition flow_at (xls : list (list (cplx B) * dense Fl)) (top : flow) : flow := fold_right flow_back top xls.

(** Nothing overflows at one layer. *)
Definition layer_room (l : dense Fl) (x : list (cplx B)) (b : budget) : Prop :=
  let M i := nth i (mag b) 0%RC in let c i := (nth i (slack b) 0 + tiny 6)%RC in let X j := cval (nth j x z) in
  let n := inputs Fl l in let m := units Fl l in
  (forall i, i < m -> room (order b + 3) (M i) (c i)) /\
  (forall i j, i < m -> j < n -> room (order b + 5) (amul (X j) (M i)) (amul (X j) (c i) + tiny 3)%RC) /\
  (forall j, j < n -> room (m + order b + 5) (csum (fun i => amul (W l i j) (M i)) m) (csum (fun i => amul (W l i j) (c i) + tiny 3)%RC m)).

(** The reported gradient [dw], [db] of a layer, within its budget of the exact
    derivatives x_j D_i and D_i, where D_i is what passes back through unit i. *)
Definition layer_gradient (l : dense Fl) (x : list (cplx B)) (d : flow) (dw db : list (cplx B)) : Prop :=
  let b := snd d in let M i := nth i (mag b) 0%RC in let c i := (nth i (slack b) 0 + tiny 6)%RC in let X j := cval (nth j x z) in
  let n := inputs Fl l in let m := units Fl l in let D i := gate (d_func l) (pre Fl l x i) (nth i (fst d) 0%RC) in
  length dw = m * n /\ length db = m /\
  (forall i, i < m -> off_by (order b + 3) (M i) (c i) (nth i db z) (D i)) /\
  (forall i j, i < m -> j < n -> off_by (order b + 5) (amul (X j) (M i)) (amul (X j) (c i) + tiny 3)%RC (nth (i * n + j) dw z) (X j * D i)%RC).
End SpecBack.
