(** * Vocabulary for how far outputs move when inputs move *)
From Coq Require Import Reals.
From Verif Require Import Base Float Matrix Cplx Act Input Loss Dense Conv Layer Network RFloat CFacts SpecMatrix SpecLayer SpecConv SpecNet SpecGeom SpecRound SpecLoss.
Local Open Scope R_scope.

Definition modulus (z : RC) : R := sqrt (re z * re z + im z * im z).

(** Two values of the same geometry, no number of which moved by more than [e]. *)
Definition nearby (g : geometry) (e : R) (x y : IOType RC) : Prop :=
  has_geom g x /\ has_geom g y /\ forall i, (i < gsize g)%nat -> modulus (nth i (vals x) 0%RC - nth i (vals y) 0%RC)%RC <= e.

(** The largest of [f 0], ..., [f (n - 1)], at least 0. *)
Definition largest (f : nat -> R) (n : nat) : R := fold_right (fun i m => Rmax (f i) m) 0 (seq 0 n).

(** Rows and columns of the kernels. *)
Definition krows (l : conv ROps) : nat := sh0 (entry m_new (k_kernels l) 0 0).
Definition kcols (l : conv ROps) : nat := sh1 (entry m_new (k_kernels l) 0 0).

(** The largest total modulus of the weights that go into one unit, or of the
    kernels of one filter. *)
Definition gain (l : clayer ROps) : R :=
  match l with
  | LDense l => largest (fun i => rsum (fun j => modulus (weight ROps l i j)) (inputs ROps l)) (units ROps l)
  | LConv l => largest (fun o => rsum (fun ch => rsum (fun u => rsum (fun v => modulus (kval ROps l o ch u v)) (kcols l)) (krows l))
                 (channels ROps l)) (filters ROps l)
  | _ => 1
  end.

(** What an activation makes of a distance.  The sigmoid of the library is cut
    off at +-15 (f32) or +-30 (f64), where it jumps a little. *)
Definition act_spread (p : prec) (f : ComplexActFunc) (e : R) : R :=
  match f with
  | RITSigmoid => e / 4 + 3 * match p with P32 => 1 / 1000000 | P64 => 1 / 10000000000000 end
  | _ => e
  end.

Definition layer_spread (p : prec) (l : clayer ROps) (e : R) : R :=
  match l with
  | LDense d => act_spread p (d_func d) (gain l * e)
  | LConv k => act_spread p (k_func k) (gain l * e)
  | _ => e
  end.

Definition net_spread (p : prec) (n : network ROps) (e : R) : R := fold_left (fun e l => layer_spread p l e) n e.

(** Layers that never amplify by more than their weights: every activation but
    ZReLU, Cardioid and ModZ, and pooling by a closure that moves its result no
    further than the pixels of its block. *)
Definition steady_act (f : ComplexActFunc) : Prop := f = ActNone \/ f = RITSigmoid \/ f = RITTanh \/ f = RITReLU.
Definition steady (l : clayer ROps) : Prop :=
  match l with
  | LDense l => steady_act (d_func l)
  | LConv l => steady_act (k_func l)
  | LReduce l => forall b b' v v' e, length b = (r_b0 l * r_b1 l)%nat -> length b' = length b ->
      (forall i, (i < length b)%nat -> modulus (nth i b 0%RC - nth i b' 0%RC)%RC <= e) ->
      r_func l b = Ret v -> r_func l b' = Ret v' -> modulus (v - v')%RC <= e
  | LFlatten _ => True
  end.
