(** * Vocabulary for what training keeps between two dense layers *)
From Coq Require Import Reals.
From Verif Require Import Base Float Matrix Cplx Act Input Loss Dense Conv Layer Dataset Network RFloat CFacts SpecMatrix SpecLayer SpecLoss.

(** Layers [k] and [k + 1] of [n] are the dense layers [l] and [m], and [m] takes
    what [l] returns. *)
Definition adjacent (n : network ROps) (k : nat) (l m : dense ROps) : Prop :=
  nth_error n k = Some (LDense l) /\ nth_error n (S k) = Some (LDense m) /\
  dense_wf ROps l /\ dense_wf ROps m /\ inputs ROps m = units ROps l.

(** Numbers that belong to unit [i]: the weights with which it takes its inputs
    and its bias, and the weights with which the next layer takes its output. *)
Definition w_in (l : dense ROps) (i j : nat) : RC := weight ROps l i j.
Definition b_in (l : dense ROps) (i : nat) : RC := nth i (d_biases l) 0%RC.
Definition w_out (m : dense ROps) (i o : nat) : RC := weight ROps m o i.

(** The entries of a gradient [W], [G] in the same places. *)
Definition gw_in (l : dense ROps) (W : list (list RC)) (k i j : nat) : RC := nth (i * inputs ROps l + j) (nth k W []) 0%RC.
Definition gb_in (G : list (list RC)) (k i : nat) : RC := nth i (nth k G []) 0%RC.
Definition gw_out (m : dense ROps) (W : list (list RC)) (k i o : nat) : RC := nth (o * inputs ROps m + i) (nth (S k) W []) 0%RC.

(** Sum of squared moduli going in, minus sum of squared moduli going out. *)
Definition excess (a b : nat) (win : nat -> RC) (bin : RC) (wout : nat -> RC) : R :=
  (rsum (fun j => c_norm_sq ROps (win j)) a + c_norm_sq ROps bin - rsum (fun o => c_norm_sq ROps (wout o)) b)%R.

(** [gentle p k i eps B T n n']: successful training steps with real rates lead
    from [n] to [n'].  The rate per example of a step is at most [eps], the rates
    per example add up to [T], and the gradients on the way have an excess of at
    most [B] at unit [i] of layer [k]. *)
Inductive gentle (p : prec) (k i : nat) (eps B : R) : R -> network ROps -> network ROps -> Prop :=
| gentle_none : forall n, gentle p k i eps B 0 n n
| gentle_step : forall T n n1 n2 data f lr l m W G, gentle p k i eps B T n n1 -> adjacent n1 k l m ->
    net_gradient ROps p n1 data f = Ret (W, G) ->
    (Rabs (excess (inputs ROps l) (units ROps m) (gw_in l W k i) (gb_in G k i) (gw_out m W k i)) <= B)%R ->
    im lr = 0%R -> (0 <= re lr / INR (length (ds_inputs data)) <= eps)%R ->
    net_gradient_opt ROps p n1 data f lr = Ret (n2, Ok tt) ->
    gentle p k i eps B (T + re lr / INR (length (ds_inputs data)))%R n n2.
