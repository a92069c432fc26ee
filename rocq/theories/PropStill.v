(** * Property C96: steps that have nothing to do, in floating point *)
From Coq Require Import ZArith Reals.
From Flocq Require Import Core BinarySingleNaN.
From Verif Require Import Base BaseFacts Float Matrix Cplx Act Input Loss Dense Conv Layer Dataset Network BFloat SpecMatrix
  SpecLayer SpecConv SpecNet SpecRound SpecNan SpecDead SpecStill StillNum.
Local Open Scope nat_scope.
Local Notation re := Cplx.re. Local Notation im := Cplx.im.

(** Any number of steps with a rate of zero leaves every parameter the number
    it was, whatever the batches and the losses; the only other thing that can
    happen to a parameter is to become NaN. *)
Theorem C96_zero_rate : forall prec emax Hp He L p steps n n', Forall (layer_full (BOps prec emax Hp He L)) n ->
  (forall d f lr, In (d, f, lr) steps -> zero_rate lr) -> train_steps (BOps prec emax Hp He L) p n steps = Ret n' ->
  map (arch_of _) n' = map (arch_of _) n /\ Forall2 same_or_nan (net_values _ n) (net_values _ n').
Proof. exact zero_rate_forever. Qed.
Print Assumptions C96_zero_rate.

(** A step on a batch that the network already answers with the targets, to the
    last bit, leaves every parameter the number it was, at any rate. *)
Theorem C96_solved : forall prec emax Hp He L p n data f lr n' r, Forall (layer_full (BOps prec emax Hp He L)) n ->
  (forall x t, In (x, t) (combine (ds_inputs data) (ds_target data)) -> exists y, net_forward _ p n x = Ret (Ok y) /\ vals t = vals y) ->
  net_gradient_opt (BOps prec emax Hp He L) p n data f lr = Ret (n', Ok r) ->
  map (arch_of _) n' = map (arch_of _) n /\ Forall2 same_or_nan (net_values _ n) (net_values _ n').
Proof. exact solved_step. Qed.
Print Assumptions C96_solved.

(** The example: two layers of one unit without activation. *)
Section Example96.
Context (L : libm b32).
Local Notation Fl := (B32Ops L).
Definition s_num (a b : Z) : cplx b32 := mkC (Bofz 24 128 prec24 emax128 a) (Bofz 24 128 prec24 emax128 b).
Definition s_layer (w b : cplx b32) : clayer Fl := LDense (mkDense Fl (from_body [w] 1 1) [b] ActNone).
Definition s_net (w b v c : cplx b32) : network Fl := [s_layer w b; s_layer v c].
Definition s_data (x t : cplx b32) : dataset (cplx b32) (cplx b32) := mkData [IOScalar [x]] [IOScalar [t]].
Lemma s_full : forall w b v c, Forall (layer_full Fl) (s_net w b v c).
Proof. intros w b v c. repeat (constructor; [vm_compute; reflexivity|]). constructor. Qed.
End Example96.

(** "The only other thing" does happen: an f32 network with finite parameters,
    trained at rate zero on finite data, ends up with a parameter that is NaN
    (the gradient overflows, and zero times infinity is NaN). *)
Theorem C96_zero_rate_refuted : forall L p, exists n data lr n',
  Forall (layer_full (B32Ops L)) n /\ Forall cfinite (net_values _ n) /\ Forall (fun io => Forall cfinite (vals io)) (ds_inputs data ++ ds_target data) /\ zero_rate lr /\
  net_gradient_opt (B32Ops L) p n data MeanSquare lr = Ret (n', Ok tt) /\ Exists tainted (net_values _ n').
Proof.
  intros L p. exists (s_net L (s_num 1 0) (s_num 0 0) (s_num 1 0) (s_num 0 0)), (s_data (s_num (2 ^ 100) 0) (s_num 0 0)), (s_num 0 0).
  set (n := s_net _ _ _ _ _). set (d := s_data _ _).
  assert (T : match net_gradient_opt (B32Ops L) p n d MeanSquare (s_num 0 0) with
    | Ret (n', Ok _) => existsb (fun c => is_nan (re c) || is_nan (im c)) (net_values (B32Ops L) n') | _ => false end = true) by (vm_compute; reflexivity).
  destruct (net_gradient_opt (B32Ops L) p n d MeanSquare (s_num 0 0)) as [[n' [[]|]]|] eqn:E; try discriminate. exists n'.
  split; [apply s_full|]. split; [repeat (constructor; [split; vm_compute; reflexivity|]); constructor|]. split; [repeat (constructor; [repeat (constructor; [split; vm_compute; reflexivity|]); constructor|]); constructor|].
  split; [exists false, false; reflexivity|]. split; [reflexivity|]. apply existsb_exists in T as (c & I & T). apply Exists_exists. exists c. split; [exact I|]. now apply orb_true_iff in T.
Qed.
Print Assumptions C96_zero_rate_refuted.

(** Non-vacuity: an f32 network with the weights 2+i and 1-3i takes a step of
    rate zero, and one at rate 1 towards its own prediction, which is not 0. *)
Example C96_ex : forall L p, exists n data data' y n1 n2,
  Forall (layer_full (B32Ops L)) n /\ net_values _ n = [s_num 2 1; s_num 1 1; s_num 1 (-3); s_num 4 0] /\
  zero_rate (s_num 0 0) /\ train_steps (B32Ops L) p n [(data, MeanSquare, s_num 0 0)] = Ret n1 /\
  (forall x t, In (x, t) (combine (ds_inputs data') (ds_target data')) -> exists y, net_forward _ p n x = Ret (Ok y) /\ vals t = vals y) /\
  ds_target data' = [IOScalar [y]] /\ Beqb (re y) (Bofz 24 128 prec24 emax128 0) = false /\
  net_gradient_opt (B32Ops L) p n data' MeanSquare (s_num 1 0) = Ret (n2, Ok tt).
Proof.
  intros L p. set (n := s_net L (s_num 2 1) (s_num 1 1) (s_num 1 (-3)) (s_num 4 0)).
  assert (Y : match net_forward (B32Ops L) p n (IOScalar [s_num 1 0]) with Ret (Ok (IOScalar [y])) => negb (Beqb (re y) (Bofz 24 128 prec24 emax128 0)) &&
     match net_gradient_opt (B32Ops L) p n (s_data (s_num 1 0) y) MeanSquare (s_num 1 0) with Ret (_, Ok _) => true | _ => false end | _ => false end = true) by (vm_compute; reflexivity).
  assert (Z : match train_steps (B32Ops L) p n [(s_data (s_num 1 0) (s_num 7 7), MeanSquare, s_num 0 0)] with Ret _ => true | _ => false end = true) by (vm_compute; reflexivity).
  destruct (net_forward (B32Ops L) p n (IOScalar [s_num 1 0])) as [[[[|y [|]]|]|]|] eqn:E; try discriminate. apply andb_true_iff in Y as (Y1 & Y2).
  destruct (net_gradient_opt (B32Ops L) p n (s_data (s_num 1 0) y) MeanSquare (s_num 1 0)) as [[n2 [[]|]]|] eqn:E2; try discriminate.
  destruct (train_steps (B32Ops L) p n _) as [n1|] eqn:E1; try discriminate.
  exists n, (s_data (s_num 1 0) (s_num 7 7)), (s_data (s_num 1 0) y), y, n1, n2.
  split; [apply s_full|]. split; [reflexivity|]. split; [exists false, false; reflexivity|]. split; [exact E1|].
  split; [|split; [reflexivity|]; split; [now apply negb_true_iff in Y1 | exact E2]].
  intros x t [I|[]]. injection I as <- <-. exists (IOScalar [y]). split; [exact E | reflexivity].
Qed.
