(** * A training step through the example's pooling layer *)
From Coq Require Import Reals Lra Psatz FunctionalExtensionality.
From Verif Require Import Base BaseFacts Float Matrix Cplx Random Act Input Loss Dense Conv Layer Dataset Network RFloat SpecMatrix MatrixFacts CFacts
  LossFacts SpecLayer SpecConv SpecNet NetFacts TrainFacts TrainDense PropTrain SpecGrad Examples.
Local Open Scope nat_scope.
Local Notation re := Cplx.re.
Local Notation im := Cplx.im.

(** The example's block function is the mean. *)
Lemma avg_mean : forall b : list RC, b <> [] -> avg_block ROps b = Ret (cmean b).
Proof.
  intros b NE. unfold avg_block, cmean. rewrite LossFacts.fofnat_R.
  assert (P : (0 < INR (length b))%R) by (apply lt_0_INR; destruct b; [contradiction | cbn; lia]).
  set (n := INR (length b)) in *. clearbody n.
  set (s := fold_left _ b _). change (fold_left (c_add ROps) b (c_default ROps)) with s. clearbody s.
  unfold c_div, fsq, c_new. cbn [Cplx.re Cplx.im]. change (fzero ROps) with 0%R. change (feqb ROps) with Reqb. cbn [fadd fsub fmul fdiv ROps].
  destruct (Reqb _ 0) eqn:E; [apply Reqb_eq in E; exfalso; nra|]. f_equal. destruct s as [u v]. apply c_ext; cbn; field; lra.
Qed.

(** And training can go the wrong way.  One 1 x 1 kernel, this pooling layer,
    flatten and a dense layer with two outputs; one image with a single bright
    pixel in the second row and column.  Whatever the learning rate, one step
    makes the reported loss larger. *)
Definition bad_net (w b d : R) : network ROps :=
  [LConv (mkConv ROps 1 (from_body [from_body [mkC w 0%R] 1 1] 1 1) [mkC b 0%R] ActNone);
   LReduce (red_init ROps 1 2 2 (avg_block ROps) (spread_kernel ROps));
   LFlatten (flat_init 1 2 1);
   LDense (mkDense ROps (from_body [mkC 1 0; mkC (-3) 0; mkC 0 0; mkC 0 0]%R 2 2) [mkC d 0; mkC 0 0]%R ActNone)].
Definition bad_image : matrix RC := from_body [mkC 0 0; mkC 0 0; mkC 0 0; mkC 0 0; mkC 0 0; mkC 16 0; mkC 0 0; mkC 0 0]%R 2 4.
Definition bad_data : dataset RC RC := batch [(IOMatrix [bad_image], IOScalar [mkC 0 0; mkC 0 0]%R)].

Lemma avg_ext : avg_block ROps = fun b => match b with [] => avg_block ROps [] | _ => Ret (cmean b) end.
Proof. apply functional_extensionality. intros [|x b]; [reflexivity|]. apply avg_mean. discriminate. Qed.

Lemma bad_forward : forall w b d, net_forward ROps P64 (bad_net w b d) (IOMatrix [bad_image]) = Ret (Ok (IOScalar [mkC (d + 4 * w - 2 * b) 0; mkC 0 0]%R)).
Proof.
  intros w b d. unfold bad_net. rewrite avg_ext.
  cbv -[Rplus Rminus Rmult Rdiv Rinv Ropp IZR INR Reqb]. replace (INR 4) with 4%R by (cbn; lra).
  do 3 f_equal. f_equal; [|f_equal]; f_equal; field.
Qed.

Lemma bad_loss : forall w b d, net_loss ROps P64 (bad_net w b d) bad_data MeanSquare = Ret (Ok ((d + 4 * w - 2 * b) * (d + 4 * w - 2 * b))%R).
Proof.
  intros w b d. unfold net_loss. cbn [bad_data batch ds_points_iter ds_inputs ds_target map fst snd combine mapM].
  rewrite bad_forward. cbn [obind unwrap loss release_loss reduce fold_left unwrap_opt length].
  unfold mean_sq_loss, sq_error. cbn [combine fold_left fst snd]. f_equal. f_equal. rewrite !LossFacts.fofnat_R. unfold c_norm_sq, c_sub.
  cbn. field.
Qed.

Definition l_conv (w b : R) : conv ROps := mkConv ROps 1 (from_body [from_body [mkC w 0%R] 1 1] 1 1) [mkC b 0%R] ActNone.
Definition l_pool : red ROps := red_init ROps 1 2 2 (avg_block ROps) (spread_kernel ROps).
Definition l_dense (d : R) : dense ROps := mkDense ROps (from_body [mkC 1 0; mkC (-3) 0; mkC 0 0; mkC 0 0]%R 2 2) [mkC d 0; mkC 0 0]%R ActNone.
Definition zero_map : matrix RC := from_body (repeat (mkC 0 0)%R 8) 2 4.

Ltac crunch := cbv -[Rplus Rminus Rmult Rdiv Rinv Ropp IZR INR Reqb]; try replace (INR 4) with 4%R by (cbn; lra).
Ltac same := repeat first [reflexivity | match goal with |- @eq R _ _ => field | |- @eq (F ROps) _ _ => field | |- _ = _ => f_equal end].

Lemma f_conv : conv_forward ROps P64 (l_conv 0 0) (IOMatrix [bad_image]) = Ret (Ok (IOMatrix [zero_map])).
Proof. crunch. same. Qed.
Lemma f_pool : red_forward ROps l_pool (IOMatrix [zero_map]) = Ret (Ok (IOMatrix [from_body [mkC 0 0; mkC 0 0]%R 1 2])).
Proof. unfold l_pool. rewrite avg_ext. crunch. same. Qed.
Lemma f_dense : dense_forward ROps P64 (l_dense 1) (IOScalar [mkC 0 0; mkC 0 0]%R) = Ret (Ok (IOScalar [mkC 1 0; mkC 0 0]%R)).
Proof. crunch. same. Qed.
Lemma b_dense : dense_derivatives ROps P64 (l_dense 1) (IOScalar [mkC 0 0; mkC 0 0]%R) [mkC 1 0; mkC 0 0]%R [mkC 1 0; mkC 0 0]%R =
  Ret (Ok ([mkC 0 0; mkC 0 0; mkC 0 0; mkC 0 0]%R, [mkC 1 0; mkC 0 0]%R, [mkC 1 0; mkC (-3) 0]%R, [mkC 1 0; mkC (-3) 0]%R)).
Proof. crunch. same. Qed.
Definition pix : list RC := [mkC 1 0; mkC (-1) 0; mkC (-3) 0; mkC (-3 / 2) 0; mkC (1 / 2) 0; mkC (- 1 / 2) 0; mkC (- 3 / 2) 0; mkC (- 3 / 4) 0]%R.
Lemma b_pool : red_derivatives ROps l_pool (IOMatrix [zero_map]) [mkC 1 0; mkC (-3) 0]%R [mkC 1 0; mkC (-3) 0]%R = Ret (Ok ([], [], pix, pix)).
Proof. unfold l_pool. rewrite avg_ext. crunch. same. Qed.
Lemma b_conv : exists dx dxc, conv_derivatives ROps P64 (l_conv 0 0) (IOMatrix [bad_image]) pix pix =
  Ret (Ok ([mkC (-8) 0]%R, [mkC (- (27 / 4)) 0]%R, dx, dxc)).
Proof. do 2 eexists. crunch. same. Qed.

Lemma bad_gradient : net_gradient ROps P64 (bad_net 0 0 1) bad_data MeanSquare =
  Ret ([[mkC (-8) 0]; []; []; [mkC 0 0; mkC 0 0; mkC 0 0; mkC 0 0]], [[mkC (- (27 / 4)) 0]; []; []; [mkC 1 0; mkC 0 0]])%R.
Proof.
  assert (EN : bad_net 0 0 1 = [LConv (l_conv 0 0); LReduce l_pool; LFlatten (flat_init 1 2 1); LDense (l_dense 1)]) by reflexivity.
  unfold net_gradient. cbn [bad_data batch ds_points_iter ds_inputs ds_target map fst snd combine foldM].
  destruct (grad_zero ROps (bad_net 0 0 1)) as (W & B) eqn:EG. destruct (grad_zero_slots ROps (bad_net 0 0 1)) as (S1 & S2). rewrite EG in S1, S2.
  rewrite point_step_eq by assumption. clear S1 S2. unfold pgrad. cbn [fst snd]. rewrite EN in *.
  rewrite (collect_trace ROps P64 _ _ [IOMatrix [bad_image]; IOMatrix [zero_map]; IOMatrix [from_body [mkC 0 0; mkC 0 0]%R 1 2]; IOScalar [mkC 0 0; mkC 0 0]%R; IOScalar [mkC 1 0; mkC 0 0]%R]).
  2: discriminate.
  2: { eapply trace_cons; [exact f_conv|]. eapply trace_cons; [exact f_pool|]. eapply trace_cons; [reflexivity|]. eapply trace_cons; [exact f_dense|]. constructor. }
  cbn [obind unwrap last d_loss combine].
  assert (D : release_dloss ROps MeanSquare [mkC 0 0; mkC 0 0]%R [mkC 1 0; mkC 0 0]%R = [mkC 1 0; mkC 0 0]%R).
  { cbn. unfold d_sq_error, c_conj, c_sub. cbn. same. }
  rewrite D. cbn [obind map].
  assert (C1 : c_conj ROps (mkC 1 0)%R = (mkC 1 0)%R) by (cbv -[Rmult Ropp IZR]; f_equal; ring).
  assert (C0 : c_conj ROps (mkC 0 0)%R = (mkC 0 0)%R) by (cbv -[Rmult Ropp IZR]; f_equal; ring).
  rewrite C0, C1. destruct b_conv as (dx & dxc & BC).
  cbn [bp obind layer_propagates dense_propagates flat_propagates red_propagates conv_propagates layer_derivatives].
  match goal with |- context [dense_derivatives ROps P64 ?l ?x ?g ?h] => pose proof (b_dense : dense_derivatives ROps P64 l x g h = _) as E; rewrite E; clear E end.
  cbn [obind unwrap].
  match goal with |- context [red_derivatives ROps ?l ?x ?g ?h] => pose proof (b_pool : red_derivatives ROps l x g h = _) as E; rewrite E; clear E end.
  cbn [obind unwrap]. rewrite BC. cbn [obind unwrap].
  assert (EW : (W, B) = ([[mkC 0 0]; []; []; [mkC 0 0; mkC 0 0; mkC 0 0; mkC 0 0]], [[mkC 0 0]; []; []; [mkC 0 0; mkC 0 0]])%R) by (rewrite <- EG; reflexivity).
  injection EW as -> ->. clear. cbv -[Rplus Rminus Rmult Rdiv Rinv Ropp IZR]. same.
Qed.

Lemma conv_update : forall Fl (w b g h s : cplx (F Fl)) a,
  update_layer Fl s (([g], [h]), LConv (mkConv Fl 1 (from_body [from_body [w] 1 1] 1 1) [b] a)) =
  Ret (LConv (mkConv Fl 1 (from_body [from_body [sub_conj Fl w (c_mul_assign Fl g s)] 1 1] 1 1) [sub_conj Fl b (c_mul_assign Fl h s)] a)).
Proof. reflexivity. Qed.
Lemma dense_update : forall Fl (w1 w2 w3 w4 b1 b2 g1 g2 g3 g4 h1 h2 s : cplx (F Fl)) a,
  update_layer Fl s (([g1; g2; g3; g4], [h1; h2]), LDense (mkDense Fl (from_body [w1; w2; w3; w4] 2 2) [b1; b2] a)) =
  Ret (LDense (mkDense Fl (from_body [sub_conj Fl w1 (c_mul_assign Fl g1 s); sub_conj Fl w2 (c_mul_assign Fl g2 s); sub_conj Fl w3 (c_mul_assign Fl g3 s); sub_conj Fl w4 (c_mul_assign Fl g4 s)] 2 2)
                               [sub_conj Fl b1 (c_mul_assign Fl h1 s); sub_conj Fl b2 (c_mul_assign Fl h2 s)] a)).
Proof. reflexivity. Qed.
Lemma pool_update : forall Fl s a b c f k, update_layer Fl s (([], []), LReduce (red_init Fl a b c f k)) = Ret (LReduce (red_init Fl a b c f k)).
Proof. reflexivity. Qed.
Lemma flat_update : forall Fl s l, update_layer Fl s (([], []), LFlatten l) = Ret (LFlatten l).
Proof. reflexivity. Qed.

Lemma bad_step : forall t : R, net_gradient_opt ROps P64 (bad_net 0 0 1) bad_data MeanSquare (mkC t 0%R) =
  Ret (bad_net (8 * t) (27 / 4 * t) (1 - t), Ok tt).
Proof.
  intros t. unfold net_gradient_opt. cbn [length bad_net Nat.leb]. fold (bad_net 0 0 1). rewrite bad_gradient. cbn [obind fst snd].
  assert (D : c_div ROps (mkC t 0)%R (c_of_nat ROps (length (ds_inputs bad_data))) = Ret (mkC t 0)%R).
  { unfold c_of_nat. rewrite LossFacts.fofnat_R. unfold c_div, fsq. cbn [Cplx.re Cplx.im].
    change (fzero ROps) with 0%R. change (feqb ROps) with Reqb. cbn [fadd fsub fmul fdiv ROps length ds_inputs bad_data batch map INR].
    destruct (Reqb _ 0) eqn:E; [apply Reqb_eq in E; exfalso; lra|]. f_equal. f_equal; field. }
  rewrite D. cbn [obind]. unfold bad_net. cbn [combine mapM]. rewrite conv_update, pool_update, flat_update, dense_update. cbn [obind].
  assert (U : forall a g : R, sub_conj ROps (mkC a 0%R) (c_mul_assign ROps (mkC g 0%R) (mkC t 0%R)) = mkC (a - g * t)%R 0%R).
  { intros a g. unfold sub_conj, c_sub_assign, c_mul_assign, c_conj. cbn [Cplx.re Cplx.im fadd fsub fmul fneg ROps]. f_equal; ring. }
  rewrite !U.
  replace (0 - -8 * t)%R with (8 * t)%R by ring. replace (0 - - (27 / 4) * t)%R with (27 / 4 * t)%R by field.
  replace (1 - 1 * t)%R with (1 - t)%R by ring. replace (1 - 0 * t)%R with 1%R by ring. replace (-3 - 0 * t)%R with (-3)%R by ring.
  replace (0 - 0 * t)%R with 0%R by ring. reflexivity.
Qed.
