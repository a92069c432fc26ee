(** * Vocabulary for a change of basis of the input space *)
From Coq Require Import Reals.
From Verif Require Import Base Float Matrix Cplx Act Input Loss Dense Conv Layer Dataset Network RFloat CFacts SpecMatrix SpecLayer SpecConv SpecNet.
Local Open Scope nat_scope.

(** The columns of the N x N table [U] are orthonormal. *)
Definition unitary (N : nat) (U : nat -> nat -> RC) : Prop :=
  forall j k, j < N -> k < N -> csum (fun i => conj (U i j) * U i k)%RC N = if j =? k then 1%RC else 0%RC.

(** [x'] is [U] times the vector [x] of length [N]. *)
Definition in_basis (N : nat) (U : nat -> nat -> RC) (x x' : IOType RC) : Prop :=
  exists v v', x = IOScalar v /\ x' = IOScalar v' /\ length v = N /\ length v' = N /\
    forall i, i < N -> nth i v' 0%RC = csum (fun j => U i j * nth j v 0)%RC N.

(** [l'] is the layer [l] for such inputs: its weights are those of [l] times
    the conjugate transpose of [U]. *)
Definition layer_in_basis (N : nat) (U : nat -> nat -> RC) (l l' : dense ROps) : Prop :=
  dense_wf ROps l /\ dense_wf ROps l' /\ units ROps l' = units ROps l /\ inputs ROps l = N /\ inputs ROps l' = N /\ d_func l' = d_func l /\
  d_biases l' = d_biases l /\
  forall o i, o < units ROps l -> i < N -> weight ROps l' o i = csum (fun j => weight ROps l o j * conj (U i j))%RC N.

(** Networks that differ in the weights of their first layer only, in that way. *)
Definition net_in_basis (N : nat) (U : nat -> nat -> RC) (n n' : network ROps) : Prop :=
  exists l l' rest, n = LDense l :: rest /\ n' = LDense l' :: rest /\ layer_in_basis N U l l'.

(** A training step with a real rate, and the step with the inputs in the other basis. *)
Definition step_in_basis (N : nat) (U : nat -> nat -> RC) (s s' : dataset RC RC * ComplexLossFunc * RC) : Prop :=
  Forall2 (in_basis N U) (ds_inputs (fst (fst s))) (ds_inputs (fst (fst s'))) /\ ds_target (fst (fst s')) = ds_target (fst (fst s)) /\
  snd (fst s') = snd (fst s) /\ snd s' = snd s /\ im (snd s) = 0%R.

(** The discrete Fourier transform with the factor 1 / sqrt N. *)
Definition fourier (N : nat) (i j : nat) : RC :=
  let t := (2 * PI * INR (i * j) / INR N)%R in mkC (cos t / sqrt (INR N))%R (- sin t / sqrt (INR N))%R.

(** [l'] gives the outputs of the linear layer [l] in another basis: its weights
    and biases are [V] times those of [l]. *)
Definition output_in_basis (N : nat) (V : nat -> nat -> RC) (l l' : dense ROps) : Prop :=
  dense_wf ROps l /\ dense_wf ROps l' /\ units ROps l = N /\ units ROps l' = N /\ inputs ROps l' = inputs ROps l /\ d_func l = ActNone /\ d_func l' = ActNone /\
  (forall o, o < N -> nth o (d_biases l') 0%RC = csum (fun q => V o q * nth q (d_biases l) 0)%RC N) /\
  forall o i, o < N -> i < inputs ROps l -> weight ROps l' o i = csum (fun q => V o q * weight ROps l q i)%RC N.

(** Networks that differ in their linear last layer only, in that way. *)
Definition net_output_in_basis (N : nat) (V : nat -> nat -> RC) (n n' : network ROps) : Prop :=
  exists front l l', n = front ++ [LDense l] /\ n' = front ++ [LDense l'] /\ output_in_basis N V l l'.

(** A training step with a real rate, and the step with the targets in the other basis. *)
Definition target_in_basis (N : nat) (V : nat -> nat -> RC) (s s' : dataset RC RC * ComplexLossFunc * RC) : Prop :=
  ds_inputs (fst (fst s')) = ds_inputs (fst (fst s)) /\ Forall2 (in_basis N V) (ds_target (fst (fst s))) (ds_target (fst (fst s'))) /\
  snd (fst s') = snd (fst s) /\ snd s' = snd s /\ im (snd s) = 0%R.
