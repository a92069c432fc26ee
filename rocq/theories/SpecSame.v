(** * Vocabulary for different layers that compute the same (exact arithmetic) *)
From Coq Require Import Reals.
From Verif Require Import Base Float Matrix Cplx Act Input Loss Dense Conv Layer Dataset Network RFloat SpecMatrix SpecLayer SpecConv SpecNet CFacts.
Local Open Scope nat_scope.

(** The runs of layers [A] and [B] can stand in for each other in any network:
    every input gives the same outcome, a panic included. *)
Definition interchangeable (p : prec) (A B : network ROps) : Prop :=
  forall before after x, net_forward ROps p (before ++ A ++ after) x = net_forward ROps p (before ++ B ++ after) x.

(** The affine map of [q] is that of [l] followed by that of [m]; the
    activation is that of [m]. *)
Definition merges (l m q : dense ROps) : Prop :=
  dense_wf ROps q /\ inputs ROps q = inputs ROps l /\ units ROps q = units ROps m /\ d_func q = d_func m /\
  (forall o j, o < units ROps m -> j < inputs ROps l ->
     weight ROps q o j = csum (fun i => (weight ROps m o i * weight ROps l i j)%RC) (units ROps l)) /\
  (forall o, o < units ROps m -> nth o (d_biases q) 0%RC =
     (csum (fun i => weight ROps m o i * nth i (d_biases l) 0%RC) (units ROps l) + nth o (d_biases m) 0%RC)%RC).

(** Each layer takes what the one before it gives: [N] numbers enter, [M] leave. *)
Inductive linear_run : nat -> list (dense ROps) -> nat -> Prop :=
| run_nil : forall N, linear_run N [] N
| run_cons : forall l ls M, dense_wf ROps l -> d_func l = ActNone -> linear_run (units ROps l) ls M ->
    linear_run (inputs ROps l) (l :: ls) M.

(** Unit [i] of [l'] is unit [i] of [l] with bias and weights times [a i]. *)
Definition units_scaled (a : nat -> R) (l l' : dense ROps) : Prop :=
  dense_wf ROps l /\ dense_wf ROps l' /\ units ROps l' = units ROps l /\ inputs ROps l' = inputs ROps l /\ d_func l' = d_func l /\
  (forall i, i < units ROps l -> nth i (d_biases l') 0%RC = (mkC (a i) 0%R * nth i (d_biases l) 0%RC)%RC) /\
  (forall i j, i < units ROps l -> j < inputs ROps l -> weight ROps l' i j = (mkC (a i) 0%R * weight ROps l i j)%RC).

(** Input [i] of [m'] is weighed like input [i] of [m], divided by [a i]. *)
Definition inputs_unscaled (a : nat -> R) (m m' : dense ROps) : Prop :=
  dense_wf ROps m /\ dense_wf ROps m' /\ units ROps m' = units ROps m /\ inputs ROps m' = inputs ROps m /\ d_func m' = d_func m /\
  d_biases m' = d_biases m /\
  (forall o i, o < units ROps m -> i < inputs ROps m -> (mkC (a i) 0%R * weight ROps m' o i)%RC = weight ROps m o i).

(** The dense layer [q] reads the [a x b] maps row after row, map after map,
    and weighs each value like the full-size kernels of [l] do. *)
Definition reads_like (a b : nat) (l : conv ROps) (q : dense ROps) : Prop :=
  dense_wf ROps q /\ units ROps q = filters ROps l /\ inputs ROps q = channels ROps l * (a * b) /\ d_func q = k_func l /\
  d_biases q = k_biases l /\
  (forall o ch u v, o < filters ROps l -> ch < channels ROps l -> u < a -> v < b ->
     weight ROps q o ((ch * a + u) * b + v) = kval ROps l o ch u v).

(** Activations that commute with positive factors, and those that ignore
    them. ([Cardioid] of the f64 type takes its angle from a quotient, which has
    no value here when the real part is zero; it is left out.) *)
Definition scalable (f : ComplexActFunc) : Prop := f = ActNone \/ f = RITReLU \/ f = ZReLU.
Definition direction_only (p : prec) (f : ComplexActFunc) : Prop := f = ModZ \/ f = Cardioid /\ p = P32.
