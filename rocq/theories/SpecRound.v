(** * Vocabulary for rounding errors *)
From Coq Require Import ZArith Reals.
From Flocq Require Import Core BinarySingleNaN.
From Verif Require Import Base Float Matrix Cplx Act Input Loss Dense Conv Layer Network Examples RFloat BFloat CFacts SpecMatrix SpecLayer SpecConv SpecGeom.
Local Notation re := Cplx.re. Local Notation im := Cplx.im.
Local Notation P32 := Float.P32. Local Notation P64 := Float.P64.

(** All numbers of a value, map by map and row by row. *)
Definition vals {T : Type} (x : IOType T) : list T := match x with IOScalar v => v | IOMatrix ms => map_values ms end.

(** ** Exact counterparts *)
Section Exact.
Context {prec emax : Z}.
Local Notation B := (binary_float prec emax).

(** The numbers an IEEE computation stores, read as real numbers. *)
Definition cval (z : cplx B) : RC := mkC (B2R (re z)) (B2R (im z)).
Definition cfinite (z : cplx B) : Prop := is_finite (re z) = true /\ is_finite (im z) = true.

Definition mval (m : matrix (cplx B)) : matrix RC := mkM (map cval (body m)) (sh0 m) (sh1 m) (cap0 m) (cap1 m).
Definition ioval (x : IOType (cplx B)) : IOType RC :=
  match x with IOScalar v => IOScalar (map cval v) | IOMatrix ms => IOMatrix (map mval ms) end.
End Exact.

(** ** Error budgets *)
(** Absolute values of the parts; product of absolute values. *)
Definition cabs (z : RC) : RC := mkC (Rabs (re z)) (Rabs (im z)).
Definition amul (w m : RC) : RC :=
  mkC (Rabs (re w) * re m + Rabs (im w) * im m)%R (Rabs (re w) * im m + Rabs (im w) * re m)%R.

(** What is known about a list of computed numbers: each differs from the exact
    one by at most ((1+u)^order - 1) mag + (1+u)^order slack, in either part,
    where u is half an ulp of 1. *)
Record budget := mkBudget { order : nat; mag : list RC; slack : list RC }.

Section Budget.
Context (prec emax : Z) (Hp : Prec_gt_0 prec) (He : Prec_lt_emax prec emax) (L : libm (binary_float prec emax)).
Local Notation Fl := (BOps prec emax Hp He L).
Local Notation z := (c_default Fl).

(** Half an ulp of 1, half the smallest positive number, the overflow threshold. *)
Definition uu : R := (/ 2 * bpow radix2 (- prec + 1))%R.
Definition eta : R := (/ 2 * bpow radix2 (SpecFloat.emin prec emax))%R.
Definition omega : R := bpow radix2 emax.

Definition kh (l : conv Fl) : nat := sh0 (entry m_new (k_kernels l) 0 0).
Definition kw (l : conv Fl) : nat := sh1 (entry m_new (k_kernels l) 0 0).

Definition out_geom (l : clayer Fl) (g : geometry) : geometry :=
  match l, g with
  | LDense l, _ => Vec (units Fl l)
  | LConv l, Maps n r c => Maps (filters Fl l) (r - kh l + 1) (c - kw l + 1)
  | LReduce l, Maps n r c => Maps n (r / r_b0 l) (c / r_b1 l)
  | LFlatten _, Maps n r c => Vec (n * (r * c))
  | _, _ => g
  end.

(** The layer with every weight and bias replaced by the absolute values of its
    parts, every product increased by [t] and every bias replaced by [b] of it;
    for the reduce layer, block means increased by [t]. *)
Definition through (t : RC) (b : RC -> RC) (l : clayer Fl) (g : geometry) (M : list RC) : list RC :=
  match l, g with
  | LDense l, _ =>
      map (fun i => csum (fun j => amul (cval (weight Fl l i j)) (nth j M 0) + t) (inputs Fl l) + b (cval (nth i (d_biases l) z)))%RC
          (seq 0 (units Fl l))
  | LConv l, Maps n r c =>
      tab3 (filters Fl l) (r - kh l + 1) (c - kw l + 1) (fun o i j =>
        csum (fun ch => csum (fun u => csum (fun v =>
          amul (cval (kval Fl l o ch u v)) (at3 0 r c M ch (i + u) (j + v)) + t) (kw l)) (kh l)) (channels Fl l)
        + b (cval (nth o (k_biases l) z)))%RC
  | LReduce l, Maps n r c =>
      tab3 n (r / r_b0 l) (c / r_b1 l) (fun o i j =>
        mkC (/ INR (r_b0 l * r_b1 l))%R 0%R *
        csum (fun u => csum (fun v => at3 0 r c M o (i * r_b0 l + u) (j * r_b1 l + v)) (r_b1 l)) (r_b0 l) + t)%RC
  | _, _ => M
  end.

(** Roundings a layer adds to each number. *)
Definition layer_order (l : clayer Fl) : nat :=
  match l with
  | LDense l => inputs Fl l + 3
  | LConv l => kh l + kw l + channels Fl l + 3
  | LReduce l => r_b0 l * r_b1 l + 3
  | LFlatten _ => 0
  end.

Definition layer_func (l : clayer Fl) : ComplexActFunc :=
  match l with LDense l => d_func l | LConv l => k_func l | _ => ActNone end.

(** Layers whose activation calls the platform's tanh or exp. *)
Definition uses_libm (l : clayer Fl) : Prop := layer_func l = RITTanh \/ layer_func l = RITSigmoid.

(** How much an activation adds to the magnitude and to the slack. *)
Definition act_gain (f : ComplexActFunc) : R := match f with RITSigmoid => 1%R | _ => 0%R end.
Definition act_slack (p : Float.prec) (et ee : R) (f : ComplexActFunc) : R :=
  match f with
  | RITTanh => et
  | RITSigmoid => (ee + 4 * uu + eta + match p with P32 => 2 / 1000000 | P64 => 2 / 10000000000000 end)%R
  | _ => 0%R
  end.

Definition both (t : R) : RC := mkC t t.
Definition pre_mag (l : clayer Fl) (g : geometry) (b : budget) : list RC := through 0%RC cabs l g (mag b).
Definition pre_slack (l : clayer Fl) (g : geometry) (b : budget) : list RC := through (both (3 * eta)) (fun _ => 0%RC) l g (slack b).

Definition layer_budget (p : Float.prec) (et ee : R) (l : clayer Fl) (g : geometry) (b : budget) : budget :=
  mkBudget (order b + layer_order l)
    (map (fun m => m + both (act_gain (layer_func l)))%RC (pre_mag l g b))
    (map (fun s => s + both (act_slack p et ee (layer_func l)))%RC (pre_slack l g b)).

(** No overflow before the activation (the mean of a block is computed through
    numbers larger than itself). *)
Definition layer_peak (l : clayer Fl) : R := match l with LReduce l => INR (r_b0 l * r_b1 l) ^ 2 | _ => 1 end.
Definition headroom (l : clayer Fl) (g : geometry) (b : budget) : Prop :=
  forall i, i < gsize (out_geom l g) ->
    (layer_peak l * ((1 + uu) ^ (order b + layer_order l) * (re (nth i (pre_mag l g b) 0%RC) + re (nth i (pre_slack l g b) 0%RC))) < omega)%R /\
    (layer_peak l * ((1 + uu) ^ (order b + layer_order l) * (im (nth i (pre_mag l g b) 0%RC) + im (nth i (pre_slack l g b) 0%RC))) < omega)%R.

Fixpoint net_budget (p : Float.prec) (et ee : R) (n : network Fl) (g : geometry) (b : budget) : budget :=
  match n with
  | [] => b
  | l :: n => net_budget p et ee n (out_geom l g) (layer_budget p et ee l g b)
  end.
Fixpoint net_headroom (p : Float.prec) (et ee : R) (n : network Fl) (g : geometry) (b : budget) : Prop :=
  match n with
  | [] => True
  | l :: n => headroom l g b /\ net_headroom p et ee n (out_geom l g) (layer_budget p et ee l g b)
  end.

(** ** What the theorem covers *)
Definition plain (f : ComplexActFunc) : Prop := f = ActNone \/ f = RITReLU \/ f = RITTanh \/ f = RITSigmoid.

(** Finite parameters; split activations; the mean as reducing closure, over
    blocks whose size squared is a float. *)
Definition covered (l : clayer Fl) : Prop :=
  match l with
  | LDense l => plain (d_func l) /\ Forall cfinite (body (d_weights l)) /\ Forall cfinite (d_biases l)
  | LConv l => plain (k_func l) /\ Forall (fun m => Forall cfinite (body m)) (body (k_kernels l)) /\ Forall cfinite (k_biases l)
  | LReduce l => (forall b, r_func l b = avg_block Fl b) /\ (Z.of_nat (r_b0 l * r_b1 l) ^ 2 <= 2 ^ prec)%Z
  | LFlatten _ => True
  end.

(** The same layer computing with real numbers. *)
Definition exact_layer (l : clayer Fl) : clayer ROps :=
  match l with
  | LDense l => LDense (mkDense ROps (mval (d_weights l)) (map cval (d_biases l)) (d_func l))
  | LConv l => LConv (mkConv ROps (k_in l)
      (mkM (map mval (body (k_kernels l))) (sh0 (k_kernels l)) (sh1 (k_kernels l)) (cap0 (k_kernels l)) (cap1 (k_kernels l)))
      (map cval (k_biases l)) (k_func l))
  | LReduce l => LReduce (mkRed ROps (r_in l) (r_b0 l) (r_b1 l) (avg_block ROps) (mval (r_kernel l)))
  | LFlatten l => LFlatten l
  end.

(** The platform's tanh is within [et] of the true one on finite arguments, and
    its exp within the factor 1 +- [ee] on arguments between -30 and 30. *)
Definition libm_within (et ee : R) : Prop :=
  (forall x, is_finite x = true -> is_finite (l_tanh L x) = true /\ (Rabs (B2R (l_tanh L x) - tanh (B2R x)) <= et)%R) /\
  (forall x, is_finite x = true -> (Rabs (B2R x) <= 30)%R ->
     is_finite (l_exp L x) = true /\ (Rabs (B2R (l_exp L x) - exp (B2R x)) <= ee * exp (B2R x))%R) /\
  (0 <= et)%R /\ (0 <= ee <= / 2)%R.

(** The best such platform: tanh and exp round the true value to nearest, ties
    to even. *)
Definition correctly_rounded : Prop :=
  let rnd := round radix2 (SpecFloat.fexp prec emax) ZnearestE in
  (forall x, is_finite x = true -> is_finite (l_tanh L x) = true /\ B2R (l_tanh L x) = rnd (tanh (B2R x))) /\
  (forall x, is_finite x = true -> (Rabs (B2R x) <= 30)%R -> is_finite (l_exp L x) = true /\ B2R (l_exp L x) = rnd (exp (B2R x))).

(** Number [i] is finite, and its parts are as close to the exact ones as the
    budget says. *)
Definition within (b : budget) (i : nat) (y : cplx (binary_float prec emax)) (r : RC) : Prop :=
  let w := ((1 + uu) ^ order b)%R in
  let m := nth i (mag b) 0%RC in let s := nth i (slack b) 0%RC in
  cfinite y /\
  (Rabs (B2R (re y) - re r) <= (w - 1) * re m + w * re s)%R /\ (Rabs (B2R (im y) - im r) <= (w - 1) * im m + w * im s)%R.

(** The input of a network, known exactly. *)
Definition input_budget (x : IOType (cplx (binary_float prec emax))) : budget :=
  mkBudget 0 (map (fun v => cabs (cval v)) (vals x)) (map (fun _ => 0%RC) (vals x)).
End Budget.
