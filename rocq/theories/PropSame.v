(** * Properties C79, C80, C81: different layers that compute the same (exact arithmetic) *)
From Coq Require Import Reals Lra.
From Verif Require Import Base BaseFacts Float Matrix Cplx Act Input Loss Dense Conv Layer Dataset Network RFloat SpecMatrix
  SpecLayer SpecConv SpecNet CFacts SpecSame SameFacts.
Local Open Scope nat_scope.

(** ** C79 *)
(** A dense layer without activation can be merged into the dense layer after
    it: one layer with the product of the weights stands in for both, in any
    network. *)
Theorem C79_pair : forall p (l m : dense ROps), dense_wf ROps l -> dense_wf ROps m -> d_func l = ActNone -> inputs ROps m = units ROps l ->
  exists q, merges l m q /\ interchangeable p [LDense l; LDense m] [LDense q].
Proof. exact merge_pair. Qed.
Print Assumptions C79_pair.

(** So can any number of such layers. *)
Theorem C79_run : forall p ls N (m : dense ROps), linear_run N ls (inputs ROps m) -> dense_wf ROps m ->
  exists q, dense_wf ROps q /\ inputs ROps q = N /\ units ROps q = units ROps m /\ d_func q = d_func m /\
    interchangeable p (map LDense ls ++ [LDense m]) [LDense q].
Proof. exact merge_run. Qed.
Print Assumptions C79_run.

Definition one_one (w b : RC) (f : ComplexActFunc) : dense ROps := mkDense ROps (from_body [w] 1 1) [b] f.

Lemma one_one_wf : forall w b f, dense_wf ROps (one_one w b f).
Proof. intros. repeat split. discriminate. Qed.

Lemma one_one_net : forall p w b f x, net_forward ROps p [LDense (one_one w b f)] (IOScalar [x]) =
  (y <- activate ROps p f (w * x + b)%RC ;; Ret (Ok (IOScalar [y]))).
Proof.
  intros. replace (w * x + b)%RC with (0%RC + w * x + b)%RC by ring.
  rewrite NetFacts.forward_fold by discriminate. cbn [foldM]. rewrite fwd_vec by (auto using one_one_wf). 
  change (pre ROps (one_one w b f) [x]) with (fun i => pre ROps (one_one w b f) [x] i). cbn [seq units one_one d_weights from_body sh0 mapM d_func].
  change (pre ROps (one_one w b f) [x] 0) with (0%RC + w * x + b)%RC. destruct (activate ROps p f (0%RC + w * x + b)%RC); reflexivity.
Qed.

Lemma two_net : forall p w b f w' b' x, f <> ModZ -> exists y, activate ROps p f (w * x + b)%RC = Ret y /\
  net_forward ROps p [LDense (one_one w b f); LDense (one_one w' b' ActNone)] (IOScalar [x]) = Ret (Ok (IOScalar [(w' * y + b')%RC])).
Proof.
  intros p w b f w' b' x NF. assert (exists y, activate ROps p f (w * x + b)%RC = Ret y) as (y & E) by (destruct f; try congruence; eexists; reflexivity).
  exists y. split; [exact E|]. pose proof (one_one_net p w b f x) as H1. pose proof (one_one_net p w' b' ActNone y) as H2.
  rewrite NetFacts.forward_fold in * by discriminate. cbn [foldM] in *. rewrite E in H1. cbn [obind] in *.
  destruct (fwd ROps p (LDense (one_one w b f)) (IOScalar [x])) as [u|]; cbn [obind] in *; [|discriminate]. injection H1 as ->.
  exact H2.
Qed.

(** The missing activation matters: a rectifier between two layers is not
    computed by any single dense layer without activation. *)
Theorem C79_rectifier_refuted : exists l m : dense ROps, dense_wf ROps l /\ dense_wf ROps m /\ inputs ROps m = units ROps l /\ d_func l = RITReLU /\
  forall p q, dense_wf ROps q -> inputs ROps q = 1 -> units ROps q = 1 -> d_func q = ActNone ->
    ~ interchangeable p [LDense l; LDense m] [LDense q].
Proof.
  exists (one_one 1%RC 0%RC RITReLU), (one_one 1%RC 0%RC ActNone). do 2 (split; [apply one_one_wf|]). do 2 (split; [reflexivity|]).
  intros p q WQ IQ UQ FQ S.
  assert (V : forall x, exists y, activate ROps p RITReLU (1 * x + 0)%RC = Ret y /\ (1 * y + 0)%RC = (weight ROps q 0 0 * x + nth 0 (d_biases q) 0)%RC).
  { intros x. destruct (two_net p 1%RC 0%RC RITReLU 1%RC 0%RC x ltac:(discriminate)) as (y & E & N). exists y. split; [exact E|].
    pose proof (S [] [] (IOScalar [x])) as K. cbn [app] in K. pose proof (eq_trans (eq_sym N) K) as H. clear N K.
    rewrite NetFacts.forward_fold in H by discriminate. cbn [foldM] in H. rewrite (fwd_total p q [x] (pre ROps q [x])) in H by (auto; rewrite FQ; reflexivity).
    rewrite UQ in H. cbn [seq map obind] in H. 
    assert (RE : forall a b : RC, Ret (Ok (IOScalar [a])) = Ret (Ok (IOScalar [b])) :> outcome (result (IOType RC) ForwardError) -> a = b) by congruence.
    apply RE in H. refine (eq_trans H _). unfold pre. rewrite IQ. unfold sum_from. cbn [seq fold_left nth].
    transitivity (0 + weight ROps q 0 0 * x + nth 0 (d_biases q) 0)%RC; [reflexivity | ring]. }
  set (w := weight ROps q 0 0) in *. set (b := nth 0 (d_biases q) 0%RC) in *. clearbody w b.
  destruct (V 0%RC) as (y0 & E0 & K0), (V 1%RC) as (y1 & E1 & K1), (V (0 - 1)%RC) as (y2 & E2 & K2).
  cbn [activate] in E0, E1, E2. injection E0 as <-. injection E1 as <-. injection E2 as <-.
  assert (RE : forall a b : RC, a = b -> re a = re b) by congruence.
  assert (Rneg : forall x : R, (x < 0)%R -> relu ROps x = 0%R) by (intros x X; unfold relu; cbn [fsignneg ROps]; rewrite (proj2 (Rltb_lt x 0) X); reflexivity).
  assert (Rpos : forall x : R, (0 <= x)%R -> relu ROps x = x) by (intros x X; unfold relu; cbn [fsignneg ROps]; rewrite (proj2 (Rltb_ge x 0) X); reflexivity).
  apply RE in K0, K1, K2. destruct w as [w1 w2], b as [b1 b2]. unfold ritrelu, c_add, c_mul, c_sub, c_default, c_unit, fzero, fone in K0, K1, K2. cbn in K0, K1, K2.
  change (F ROps) with R in *.
  rewrite (Rpos (1 * 0 - 0 * 0 + 0)%R), (Rpos (1 * 0 + 0 * 0 + 0)%R) in K0 by lra.
  rewrite (Rpos (1 * 1 - 0 * 0 + 0)%R), (Rpos (1 * 0 + 0 * 1 + 0)%R) in K1 by lra.
  rewrite (Rneg (1 * (0 - 1) - 0 * (0 - 0) + 0)%R), (Rpos (1 * (0 - 0) + 0 * (0 - 1) + 0)%R) in K2 by lra. lra.
Qed.
Print Assumptions C79_rectifier_refuted.

Example C79_ex : forall a b c d e f g, linear_run 1 [mkDense ROps (from_body [a; b] 2 1) [c; d] ActNone] 2 /\
  dense_wf ROps (mkDense ROps (from_body [e; f] 1 2) [g] RITSigmoid).
Proof.
  intros. split; [|repeat split; discriminate].
  apply (run_cons (mkDense ROps (from_body [a; b] 2 1) [c; d] ActNone)); [repeat split; discriminate | reflexivity | apply run_nil].
Qed.

(** ** C80 *)
(** The units of a rectifier layer (or one without activation) can be scaled by
    positive factors, undone by the layer after it. *)
Theorem C80_rectifiers : forall p a (l l' m m' : dense ROps), scalable (d_func l) -> inputs ROps m = units ROps l ->
  (forall i, i < units ROps l -> (0 < a i)%R) -> units_scaled a l l' -> inputs_unscaled a m m' ->
  interchangeable p [LDense l'; LDense m'] [LDense l; LDense m].
Proof. exact scale_pair. Qed.
Print Assumptions C80_rectifiers.

(** The units of a layer whose activation keeps the direction only can be
    scaled with nothing to undo. *)
Theorem C80_direction : forall p a (l l' : dense ROps), direction_only p (d_func l) -> (forall i, i < units ROps l -> (0 < a i)%R) ->
  units_scaled a l l' -> interchangeable p [LDense l'] [LDense l].
Proof. exact direction_layer. Qed.
Print Assumptions C80_direction.

Lemma one_one_scaled : forall (a : R) w f, units_scaled (fun _ => a) (one_one w 0%RC f) (one_one (mkC a 0%R * w)%RC 0%RC f).
Proof.
  intros a w f. do 2 (split; [apply one_one_wf|]). do 3 (split; [reflexivity|]). split.
  - intros [|i] Hi; [|cbn in Hi; lia]. cbn [nth d_biases one_one]. ring.
  - intros [|i] [|j] Hi Hj; try (cbn in Hi, Hj; lia). reflexivity.
Qed.
Lemma one_one_unscaled : forall (a : R) w, inputs_unscaled (fun _ => a) (one_one (mkC a 0%R * w)%RC 0%RC ActNone) (one_one w 0%RC ActNone).
Proof.
  intros a w. do 2 (split; [apply one_one_wf|]). do 4 (split; [reflexivity|]).
  intros [|o] [|i] Ho Hi; try (cbn in Ho, Hi; lia). reflexivity.
Qed.

(** The hyperbolic tangent is not among them. *)
Lemma tanh_2 : tanh 2 <> (2 * tanh 1)%R.
Proof.
  unfold tanh, sinh, cosh. intros H. set (e := exp 1) in *. set (f := exp (- (1))) in *.
  assert (E2 : exp 2 = (e * e)%R) by (unfold e; rewrite <- exp_plus; f_equal; ring).
  assert (F2 : exp (- (2)) = (f * f)%R) by (unfold f; rewrite <- exp_plus; f_equal; ring).
  assert (P : (0 < e)%R) by apply exp_pos. assert (Q : (0 < f)%R) by apply exp_pos.
  assert (L : (f < e)%R) by (unfold e, f; apply exp_increasing; lra). rewrite E2, F2 in H. clearbody e f. clear E2 F2.
  assert (P1 : (0 < e * e)%R) by (apply Rmult_lt_0_compat; lra). assert (Q1 : (0 < f * f)%R) by (apply Rmult_lt_0_compat; lra).
  assert (K : ((e * e - f * f) * (e + f) = 2 * (e - f) * (e * e + f * f))%R).
  { apply Rmult_eq_reg_r with (/ ((e + f) * (e * e + f * f)))%R; [|apply Rinv_neq_0_compat, Rmult_integral_contrapositive; split; lra].
    transitivity ((e * e - f * f) / 2 / ((e * e + f * f) / 2))%R; [field; split; lra|]. rewrite H. field. split; lra. }
  assert (((e - f) * ((e - f) * (e - f)) = 0)%R) by nra.
  assert (0 < (e - f) * ((e - f) * (e - f)))%R by (repeat apply Rmult_lt_0_compat; lra). lra.
Qed.

Theorem C80_tanh_refuted : exists a (l l' m m' : dense ROps), d_func l = RITTanh /\ inputs ROps m = units ROps l /\
  (forall i, (0 < a i)%R) /\ units_scaled a l l' /\ inputs_unscaled a m m' /\
  forall p, ~ interchangeable p [LDense l'; LDense m'] [LDense l; LDense m].
Proof.
  exists (fun _ => 2%R), (one_one 1%RC 0%RC RITTanh), (one_one (mkC 2%R 0%R * 1)%RC 0%RC RITTanh),
    (one_one (mkC 2%R 0%R * 1)%RC 0%RC ActNone), (one_one 1%RC 0%RC ActNone).
  do 2 (split; [reflexivity|]). split; [intros _; lra|]. split; [apply one_one_scaled|]. split; [apply one_one_unscaled|].
  intros p S. pose proof (S [] [] (IOScalar [1%RC])) as K. cbn [app] in K.
  destruct (two_net p (mkC 2%R 0%R * 1)%RC 0%RC RITTanh 1%RC 0%RC 1%RC ltac:(discriminate)) as (y & E & N).
  destruct (two_net p 1%RC 0%RC RITTanh (mkC 2%R 0%R * 1)%RC 0%RC 1%RC ltac:(discriminate)) as (y' & E' & N').
  pose proof (eq_trans (eq_trans (eq_sym N) K) N') as H. clear N N' K. cbn [activate] in E, E'. injection E as <-. injection E' as <-.
  assert (RE : forall a b : RC, Ret (Ok (IOScalar [a])) = Ret (Ok (IOScalar [b])) :> outcome (result (IOType RC) ForwardError) -> re a = re b) by congruence. apply RE in H.
  unfold rittanh, c_add, c_mul, c_default, c_unit, fzero, fone in H. cbn in H. change (F ROps) with R in *.
  apply tanh_2.
  replace ((2 * 1 - 0 * 0) * 1 - (2 * 0 + 0 * 1) * 0 + 0)%R with 2%R in H by ring. replace (1 * 1 - 0 * 0 + 0)%R with 1%R in H by ring. lra.
Qed.
Print Assumptions C80_tanh_refuted.

Example C80_ex : scalable RITReLU /\ direction_only P32 Cardioid /\ direction_only P64 ModZ /\ (forall i : nat, (0 < (fun _ : nat => 3) i)%R) /\
  units_scaled (fun _ => 3%R) (one_one 1%RC 0%RC RITReLU) (one_one (mkC 3%R 0%R * 1)%RC 0%RC RITReLU) /\
  inputs_unscaled (fun _ => 3%R) (one_one (mkC 3%R 0%R * 1)%RC 0%RC ActNone) (one_one 1%RC 0%RC ActNone).
Proof.
  split; [right; left; reflexivity|]. split; [right; split; reflexivity|]. split; [left; reflexivity|]. split; [intros _; lra|].
  split; [apply one_one_scaled | apply one_one_unscaled].
Qed.

(** ** C81 *)
(** A convolution whose kernels are as large as its input, flattened, is a dense
    layer on the flattened input. *)
Theorem C81_full_kernel : forall p a b (l : conv ROps) f f', conv_wf ROps a b l -> exists q, reads_like a b l q /\
  forall ms after, maps_wf (channels ROps l) a b ms ->
    net_forward ROps p (LConv l :: LFlatten f :: after) (IOMatrix ms) = net_forward ROps p (LFlatten f' :: LDense q :: after) (IOMatrix ms).
Proof. exact full_kernel. Qed.
Print Assumptions C81_full_kernel.

Example C81_ex : forall a b c d e x y u v : RC,
  conv_wf ROps 1 2 (mkConv ROps 2 (from_body [from_body [a; b] 1 2; from_body [c; d] 1 2] 1 2) [e] RITSigmoid) /\
  maps_wf 2 1 2 [from_body [x; y] 1 2; from_body [u; v] 1 2].
Proof.
  intros. unfold conv_wf, maps_wf. cbn. repeat split; try lia; repeat (destruct H as [<- | H]; [reflexivity|]); destruct H.
Qed.
