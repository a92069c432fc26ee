(** * Property C78: the order of the units of a layer *)
From Coq Require Import ZArith Reals Lra.
From Flocq Require Import Core BinarySingleNaN.
From Verif Require Import Base BaseFacts Float Matrix Cplx Act Input Loss Dense Conv Layer Dataset Network RFloat BFloat SpecMatrix
  SpecLayer SpecConv SpecNet SpecGeom SpecDead SpecPerm GeomFacts PropGeom PropNan PermFacts.
Local Open Scope nat_scope.

(** In exact arithmetic the order of the units of a dense layer does not
    matter, when the weights of the dense layer that follows move along: every
    input gives the same outcome, a panic included. *)
Theorem C78_forward : forall p s k n n' x, reordered ROps s k n n' -> net_forward ROps p n' x = net_forward ROps p n x.
Proof. exact forward_reordered. Qed.
Print Assumptions C78_forward.

(** Training the reordered network gives the trained network, reordered. *)
Theorem C78_training : forall p s k steps n n' n1, reordered ROps s k n n' -> train_steps ROps p n steps = Ret n1 ->
  exists n1', train_steps ROps p n' steps = Ret n1' /\ reordered ROps s k n1 n1'.
Proof. exact steps_reordered. Qed.
Print Assumptions C78_training.

(** ** The hypotheses are met *)
Section Ex.
Context (Fl : FloatOps).
Local Notation C := (cplx (F Fl)).
Definition order_net (a b c d e f g : C) : network Fl :=
  [LDense (mkDense Fl (from_body [a; b] 2 1) [c; d] RITSigmoid); LDense (mkDense Fl (from_body [e; f] 1 2) [g] ActNone)].
Definition order_data (x t : C) : dataset C C := mkData [IOScalar [x]] [IOScalar [t]].

Example C78_ex : forall p lo lr x t s a b c d e f g, c_div Fl lr (c_of_nat Fl 1) = Ret s ->
  reordered Fl (fun i => 1 - i) 0 (order_net a b c d e f g) (order_net b a d c f e g) /\
  exists n', train_steps Fl p (order_net a b c d e f g) [(order_data x t, lo, lr)] = Ret n'.
Proof.
  intros p lo lr x t s a b c d e f g D.
  assert (W1 : forall a b c d : C, dense_wf Fl (mkDense Fl (from_body [a; b] 2 1) [c; d] RITSigmoid)) by (intros; repeat split; discriminate).
  assert (W2 : forall e f g : C, dense_wf Fl (mkDense Fl (from_body [e; f] 1 2) [g] ActNone)) by (intros; repeat split; discriminate).
  split.
  - eexists [], _, _, [], _, _. split; [reflexivity|]. split; [reflexivity|]. split; [reflexivity|]. split; [reflexivity|]. split; [|split].
    + split; [intros i Hi; change (i < 2) in Hi; change (1 - i < 2) | intros i j Hi Hj E; change (i < 2) in Hi; change (j < 2) in Hj; change (1 - i = 1 - j) in E]; lia.
    + split; [apply W1|]. split; [apply W1|]. split; [reflexivity|]. split; [reflexivity|]. split; [reflexivity|]. split.
      * intros [|[|i]] Hi; [reflexivity | reflexivity | cbn in Hi; lia].
      * intros [|[|i]] [|q] Hi Hq; try (cbn in Hi, Hq; lia); reflexivity.
    + split; [apply W2|]. split; [apply W2|]. split; [reflexivity|]. split; [reflexivity|]. split; [reflexivity|]. split; [reflexivity|].
      intros [|o] [|[|i]] Ho Hi; try (cbn in Ho, Hi; lia); reflexivity.
  - destruct (training_total Fl p (order_net a b c d e f g) (Vec 1) (Vec 1) (order_data x t) lo lr s) as (n1 & E1 & _); [apply le_n | | repeat constructor | | exact D|].
    + unfold order_net. apply fit_cons with (Vec 2); [apply (fits_dense Fl (mkDense Fl (from_body [a; b] 2 1) [c; d] RITSigmoid)); [apply W1 | discriminate]|].
      apply fit_cons with (Vec 1); [|apply fit_nil]. apply (fits_dense Fl (mkDense Fl (from_body [e; f] 1 2) [g] ActNone)); [apply W2 | discriminate].
    + split; [reflexivity|]. split; intros y [<-|[]]; [reflexivity | apply le_n].
    + exists n1. cbn [train_steps]. rewrite E1. reflexivity.
Qed.
End Ex.

(** With rounding the order matters: two orders of three units whose outputs
    are 2^24, 1 and -2^24 give different results in f32. *)
Theorem C78_float_refuted : exists (s : nat -> nat) (n n' : network (B32Ops nan_libm)) x y y',
  reordered (B32Ops nan_libm) s 0 n n' /\
  net_forward (B32Ops nan_libm) Float.P32 n (IOScalar [x]) = Ret (Ok (IOScalar [y])) /\
  net_forward (B32Ops nan_libm) Float.P32 n' (IOScalar [x]) = Ret (Ok (IOScalar [y'])) /\
  Beqb (Cplx.re y : b32) (Cplx.re y') = false /\ is_nan (Cplx.re y : b32) = false /\ is_nan (Cplx.re y' : b32) = false.
Proof.
  set (Fl := B32Ops nan_libm). set (o := mkC (fzero Fl) (fzero Fl)). set (one := mkC (fone Fl) (fzero Fl)).
  set (big := mkC (@B754_finite 24 128 false 8388608 1 eq_refl : F Fl) (fzero Fl)). set (neg := mkC (@B754_finite 24 128 true 8388608 1 eq_refl : F Fl) (fzero Fl)).
  pose (n := [LDense (mkDense Fl (from_body [o; o; o] 3 1) [big; one; neg] ActNone); LDense (mkDense Fl (from_body [one; one; one] 1 3) [o] ActNone)] : network Fl).
  pose (n' := [LDense (mkDense Fl (from_body [o; o; o] 3 1) [big; neg; one] ActNone); LDense (mkDense Fl (from_body [one; one; one] 1 3) [o] ActNone)] : network Fl).
  set (R := net_forward Fl Float.P32 n (IOScalar [one])). set (R' := net_forward Fl Float.P32 n' (IOScalar [one])).
  assert (H : match R, R' with Ret (Ok (IOScalar [y])), Ret (Ok (IOScalar [y'])) =>
     negb (Beqb (Cplx.re y : b32) (Cplx.re y')) && negb (is_nan (Cplx.re y : b32)) && negb (is_nan (Cplx.re y' : b32)) | _, _ => false end = true) by (vm_compute; reflexivity).
  destruct R as [[[[|y [|]]|]|]|] eqn:E; try discriminate H. destruct R' as [[[[|y' [|]]|]|]|] eqn:E'; try discriminate H.
  apply andb_prop in H as (H & H3). apply andb_prop in H as (H1 & H2). apply negb_true_iff in H1, H2, H3.
  exists (fun i => match i with 1 => 2 | 2 => 1 | _ => i end), n, n', one, y, y'. split; [|auto].
  eexists [], _, _, [], _, _. split; [reflexivity|]. split; [reflexivity|]. split; [reflexivity|]. split; [reflexivity|]. split; [|split].
  - split; [intros [|[|[|i]]]; cbn; lia|]. intros [|[|[|i]]] [|[|[|j]]]; cbn; lia.
  - split; [repeat split; discriminate|]. split; [repeat split; discriminate|]. split; [reflexivity|]. split; [reflexivity|]. split; [reflexivity|]. split.
    + intros [|[|[|i]]] Hi; (reflexivity || (cbn in Hi; lia)).
    + intros [|[|[|i]]] [|q] Hi Hq; try (cbn in Hi, Hq; lia); reflexivity.
  - split; [repeat split; discriminate|]. split; [repeat split; discriminate|]. split; [reflexivity|]. split; [reflexivity|]. split; [reflexivity|]. split; [reflexivity|].
    intros [|o0] [|[|[|i]]] Ho Hi; try (cbn in Ho, Hi; lia); reflexivity.
Qed.
Print Assumptions C78_float_refuted.
