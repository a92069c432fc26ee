(** * Property C97: training in floating point stalls on small steps *)
From Coq Require Import ZArith Reals Lra.
From Flocq Require Import Core BinarySingleNaN.
From Verif Require Import Base BaseFacts Float Matrix Cplx Act Input Loss Dense Conv Layer Dataset Network RFloat BFloat CFacts SpecMatrix
  SpecLayer SpecConv SpecNet SpecRound SpecNan SpecDead SpecStill TrainFacts GradFacts2 TrainLaws StillNum PropStill.
Local Open Scope nat_scope.
Local Notation re := Cplx.re. Local Notation im := Cplx.im.

(** If what a step subtracts from each parameter is below a quarter unit in its
    last place, the step returns the very same network and reports success. *)
Theorem C97_step : forall prec emax Hp He L p n data f lr W G s, Forall (layer_full (BOps prec emax Hp He L)) n -> 2 <= length n ->
  net_gradient (BOps prec emax Hp He L) p n data f = Ret (W, G) -> c_div (BOps prec emax Hp He L) lr (c_of_nat _ (length (ds_inputs data))) = Ret s ->
  Forall2 (fun a g => cnegligible a (c_conj (BOps prec emax Hp He L) (c_mul_assign _ g s))) (net_values _ n) (grad_values W G) ->
  net_gradient_opt (BOps prec emax Hp He L) p n data f lr = Ret (n, Ok tt).
Proof. exact stall_step. Qed.
Print Assumptions C97_step.

(** Repeating the step, however often, then never changes anything. *)
Theorem C97_forever : forall prec emax Hp He L p n data f lr W G s k, Forall (layer_full (BOps prec emax Hp He L)) n -> 2 <= length n ->
  net_gradient (BOps prec emax Hp He L) p n data f = Ret (W, G) -> c_div (BOps prec emax Hp He L) lr (c_of_nat _ (length (ds_inputs data))) = Ret s ->
  Forall2 (fun a g => cnegligible a (c_conj (BOps prec emax Hp He L) (c_mul_assign _ g s))) (net_values _ n) (grad_values W G) ->
  train_steps (BOps prec emax Hp He L) p n (repeat (data, f, lr) k) = Ret n.
Proof. exact stall_forever. Qed.
Print Assumptions C97_forever.

(** In exact arithmetic no step is too small: if the gradient of some parameter
    is not zero, a real rate other than zero moves the network. *)
Theorem C97_exact_moves : forall p n data f (e : R) W G n' r, Forall (layer_full ROps) n -> e <> 0%R ->
  net_gradient ROps p n data f = Ret (W, G) -> Exists (fun g => g <> c_default ROps) (grad_values (Fl := ROps) W G) ->
  net_gradient_opt ROps p n data f (mkC e 0%R) = Ret (n', Ok r) -> net_values ROps n' <> net_values ROps n.
Proof. exact exact_moves. Qed.
Print Assumptions C97_exact_moves.

(** Non-vacuity: an f32 network whose parameters are all 1+i, asked for 0 where
    it answers 1+5i. Every gradient has a part of size at least 1, and the rate
    is 2^-40: the hypotheses hold, and a billion steps later nothing has changed. *)
Definition s_rate : cplx b32 := mkC (Bdiv mode_NE (Bofz 24 128 prec24 emax128 1) (Bofz 24 128 prec24 emax128 (2 ^ 40))) (Bofz 24 128 prec24 emax128 0).
Example C97_ex : forall L p, exists n data W G s,
  Forall (layer_full (B32Ops L)) n /\ 2 <= length n /\ net_values _ n = repeat (s_num 1 1) 4 /\
  net_gradient (B32Ops L) p n data MeanSquare = Ret (W, G) /\ c_div (B32Ops L) s_rate (c_of_nat _ (length (ds_inputs data))) = Ret s /\
  Forall (fun g => Bleb (Bofz 24 128 prec24 emax128 1) (Babs (re g)) = true) (grad_values (Fl := B32Ops L) W G) /\
  Forall2 (fun a g => cnegligible a (c_conj (B32Ops L) (c_mul_assign _ g s))) (net_values _ n) (grad_values W G) /\
  forall k, train_steps (B32Ops L) p n (repeat (data, MeanSquare, s_rate) k) = Ret n.
Proof.
  intros L p. set (n := s_net L (s_num 1 1) (s_num 1 1) (s_num 1 1) (s_num 1 1)). set (d := s_data (s_num 1 0) (s_num 0 0)).
  assert (T : match net_gradient (B32Ops L) p n d MeanSquare, c_div (B32Ops L) s_rate (c_of_nat (B32Ops L) 1) with
    | Ret (W, G), Ret s => Nat.eqb (length (grad_values (Fl := B32Ops L) W G)) 4 && forallb (fun g => Bleb (Bofz 24 128 prec24 emax128 1) (Babs (re g))) (grad_values (Fl := B32Ops L) W G) &&
        forallb (fun ag => let c := c_conj (B32Ops L) (c_mul_assign (B32Ops L) (snd ag) s) in negl_b (re (fst ag)) (re c) && negl_b (im (fst ag)) (im c)) (combine (net_values (B32Ops L) n) (grad_values (Fl := B32Ops L) W G))
    | _, _ => false end = true) by (vm_compute; reflexivity).
  destruct (net_gradient (B32Ops L) p n d MeanSquare) as [[W G]|] eqn:E; [|discriminate]. destruct (c_div (B32Ops L) s_rate (c_of_nat (B32Ops L) 1)) as [s|] eqn:ES; [|discriminate].
  apply andb_true_iff in T as (T & T3). apply andb_true_iff in T as (T1 & T2). apply Nat.eqb_eq in T1.
  assert (N : Forall2 (fun a g => cnegligible a (c_conj (B32Ops L) (c_mul_assign (B32Ops L) g s))) (net_values (B32Ops L) n) (grad_values (Fl := B32Ops L) W G)).
  { revert T1 T3. change 4 with (length (net_values (B32Ops L) n)). generalize (grad_values (Fl := B32Ops L) W G) (net_values (B32Ops L) n). clear. intros g v. revert g.
    induction v as [|a v IH]; intros [|b g] H T; try discriminate; constructor; cbn [combine forallb fst snd] in T; apply andb_true_iff in T as (T1 & T2); [|apply IH; [now injection H | exact T2]].
    apply andb_true_iff in T1 as (T1 & T3). split; now apply negl_ok. }
  exists n, d, W, G, s. split; [apply s_full|]. split; [apply le_n|]. split; [reflexivity|]. split; [exact E|]. split; [exact ES|].
  split; [now apply Forall_forall, forallb_forall|]. split; [exact N|]. intros k. exact (C97_forever 24 128 prec24 emax128 L p n d MeanSquare s_rate W G s k (s_full L _ _ _ _) (le_n 2) E ES N).
Qed.
