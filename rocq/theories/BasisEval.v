(** * Facts about a change of basis: evaluation, existence, and a small network *)
From Coq Require Import Reals Lra.
From Verif Require Import Base BaseFacts Float Matrix Cplx Act Input Loss Dense Conv Layer Dataset Network RFloat SpecMatrix
  SpecLayer SpecConv SpecNet CFacts GradFacts2 SpecBasis BasisFacts.
Local Open Scope nat_scope.

Section Eval.
Context (p : prec) (N : nat) (U : nat -> nat -> RC) (UN : unitary N U).

Lemma net_loss_basis : forall n n' d d' f l, net_in_basis N U n n' -> Forall2 (in_basis N U) (ds_inputs d) (ds_inputs d') -> ds_target d' = ds_target d ->
  net_loss ROps p n d f = Ret (Ok l) -> net_loss ROps p n' d' f = Ret (Ok l).
Proof.
  intros n n' d d' f l H DX DT E. unfold net_loss, ds_points_iter in *. apply obind_inv in E as (vals & E1 & E). rewrite DT.
  assert (E1' : mapM (fun it => pred <-! net_forward ROps p n' (fst it) ;; unwrap (loss ROps (snd it) pred f)) (combine (ds_inputs d') (ds_target d)) = Ret vals).
  { clear E DT. revert vals E1. generalize (ds_target d). induction DX as [|x x' xs xs' RX DX IH]; intros ts vals E1; [exact E1|].
    destruct ts as [|t ts]; [exact E1|]. cbn [combine mapM fst snd] in *. apply obind_inv in E1 as (a & E1 & E2). apply obind_inv in E2 as (q & E2 & E3).
    apply obind_inv in E1 as (o & F1 & E1). destruct o as [o|]; cbn [unwrap obind] in E1; [|discriminate].
    rewrite (net_forward_basis p N U UN n n' x x' o H RX F1). cbn [unwrap obind]. rewrite E1. cbn [obind]. rewrite (IH ts q E2). exact E3. }
  rewrite E1'. exact E.
Qed.

Lemma accuracy_basis : forall n n' d d' a, net_in_basis N U n n' -> Forall2 (in_basis N U) (ds_inputs d) (ds_inputs d') -> ds_target d' = ds_target d ->
  net_max_pred_test ROps p n d = Ret a -> net_max_pred_test ROps p n' d' = Ret a.
Proof.
  intros n n' d d' a H DX DT E. unfold net_max_pred_test, ds_points_iter in *. apply obind_inv in E as (vals & E1 & E). rewrite DT.
  assert (E1' : mapM (fun it => prediction <-! net_forward ROps p n' (fst it) ;; pred <- as_slice prediction ;; targ <- as_slice (snd it) ;;
               Ret (if max_index ROps targ =? max_index ROps pred then 1 else 0)) (combine (ds_inputs d') (ds_target d)) = Ret vals).
  { clear E DT. revert vals E1. generalize (ds_target d). induction DX as [|x x' xs xs' RX DX IH]; intros ts vals E1; [exact E1|].
    destruct ts as [|t ts]; [exact E1|]. cbn [combine mapM fst snd] in *. apply obind_inv in E1 as (b & E1 & E2). apply obind_inv in E2 as (q & E2 & E3).
    apply obind_inv in E1 as (o & F1 & E1). destruct o as [o|]; cbn [unwrap obind] in E1; [|discriminate].
    rewrite (net_forward_basis p N U UN n n' x x' o H RX F1). cbn [unwrap obind]. rewrite E1. cbn [obind]. rewrite (IH ts q E2). exact E3. }
  rewrite E1'. exact E.
Qed.
End Eval.

(** ** Every input and every dense first layer has its counterpart *)
Lemma nth_of_seq : forall (f : nat -> RC) n i, i < n -> nth i (map f (seq 0 n)) 0%RC = f i.
Proof. intros f n i H. apply nth_error_nth. rewrite nth_error_map, (nth_error_nth' _ 0) by (now rewrite seq_length). now rewrite seq_nth. Qed.

Lemma every_input : forall N U (v : list RC), length v = N -> exists x', in_basis N U (IOScalar v) x'.
Proof.
  intros N U v L. exists (IOScalar (map (fun i => csum (fun j => U i j * nth j v 0)%RC N) (seq 0 N))), v. eexists. split; [reflexivity|]. split; [reflexivity|]. split; [exact L|].
  split; [now rewrite map_length, seq_length|]. intros i Hi. now rewrite nth_of_seq.
Qed.

Lemma every_layer : forall N U (l : dense ROps), dense_wf ROps l -> inputs ROps l = N -> exists l', layer_in_basis N U l l'.
Proof.
  intros N U l W I1. destruct (Nat.eq_dec N 0) as [->|NZ].
  { exists l. do 2 (split; [exact W|]). split; [reflexivity|]. do 2 (split; [exact I1|]). do 2 (split; [reflexivity|]). intros; lia. }
  pose (f := fun q => csum (fun j => weight ROps l (q / N) j * conj (U (q mod N) j))%RC N).
  exists (mkDense ROps (from_body (map f (seq 0 (units ROps l * N))) (units ROps l) N) (d_biases l) (d_func l)).
  split; [exact W|]. split; [|split; [reflexivity|]; split; [exact I1|]; split; [reflexivity|]; split; [reflexivity|]; split; [reflexivity|]].
  - unfold dense_wf, wf, units, inputs in *. cbn. rewrite map_length, seq_length. destruct W as (W1 & W2 & W3). split; [reflexivity|]. split; [exact W2 | exact NZ].
  - intros o i Ho Hi. unfold weight at 1, entry. cbn [d_weights body from_body sh1]. assert (o * N + i < units ROps l * N) by nia.
    refine (eq_trans (nth_of_seq f _ (o * N + i) H) _). unfold f.
    replace ((o * N + i) / N) with o by (apply Nat.div_unique with i; lia). replace ((o * N + i) mod N) with i by (apply Nat.mod_unique with o; lia). reflexivity.
Qed.

(** ** Two units in a row *)
Definition tiny (a b c d : RC) : network ROps :=
  [LDense (mkDense ROps (from_body [a] 1 1) [b] ActNone); LDense (mkDense ROps (from_body [c] 1 1) [d] ActNone)].
Definition tiny_out (a b c d x : RC) : RC := (c * (a * x + b) + d)%RC.

Lemma tiny_forward : forall p a b c d x, net_forward ROps p (tiny a b c d) (IOScalar [x]) = Ret (Ok (IOScalar [tiny_out a b c d x])).
Proof. intros. cbn. do 4 f_equal. unfold tiny_out. change (c_add_assign ROps) with (c_add ROps). ring. Qed.

Lemma tiny_gradient : forall p a b c d x t, let g := conj (tiny_out a b c d x - t)%RC in
  net_gradient ROps p (tiny a b c d) (mkData [IOScalar [x]] [IOScalar [t]]) MeanSquare = Ret ([[x * (c * g)]; [(a * x + b) * g]]%RC, [[c * g]; [g]]%RC).
Proof.
  intros p a b c d x t g. cbn. change (c_add_assign ROps) with (c_add ROps).
  match goal with |- context [d_sq_error ROps t ?y] => assert (E : y = tiny_out a b c d x) by (unfold tiny_out; ring); rewrite E; clear E end.
  change (d_sq_error ROps t (tiny_out a b c d x)) with g. assert (C0 : conj (0%RC : RC) = 0%RC) by (apply c_ext; cbn; ring). rewrite C0. generalize g. intros h. clear.
  assert (Q : forall x1 y1 x2 y2 x3 y3 x4 y4 : RC, x1 = y1 -> x2 = y2 -> x3 = y3 -> x4 = y4 -> Ret ([[x1]; [x2]], [[x3]; [x4]]) = Ret ([[y1]; [y2]], [[y3]; [y4]])) by (intros; subst; reflexivity).
  apply Q; ring.
Qed.

Definition moved (s w g : RC) : RC := sub_conj ROps w (c_mul_assign ROps g s).
Lemma tiny_step : forall p a b c d x t lr s, c_div ROps lr (c_of_nat ROps 1) = Ret s -> let g := conj (tiny_out a b c d x - t)%RC in
  net_gradient_opt ROps p (tiny a b c d) (mkData [IOScalar [x]] [IOScalar [t]]) MeanSquare lr =
  Ret (tiny (moved s a (x * (c * g))) (moved s b (c * g)) (moved s c ((a * x + b) * g)) (moved s d g), Ok tt)%RC.
Proof.
  intros p a b c d x t lr s HS g. unfold net_gradient_opt. change (length (tiny a b c d) <=? 1) with false. rewrite tiny_gradient. fold g. cbn [obind ds_inputs length]. rewrite HS. cbn [obind fst snd].
  generalize g. intros h. reflexivity.
Qed.

Lemma over_one : forall lr : RC, c_div ROps lr (c_of_nat ROps 1) = Ret lr.
Proof.
  intros [x y]. unfold c_of_nat. rewrite LossFacts.fofnat_R. unfold c_div, fsq. cbn [re im]. change (fzero ROps) with 0%R. change (feqb ROps) with Reqb.
  cbn [fadd fsub fmul fdiv ROps INR]. destruct (Reqb _ 0) eqn:E; [apply Reqb_eq in E; exfalso; lra|]. f_equal. apply c_ext; cbn; field.
Qed.
