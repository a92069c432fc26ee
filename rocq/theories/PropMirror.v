(** * Properties C82, C83: conjugated networks and real networks *)
From Coq Require Import Reals Lra ZArith.
From Flocq Require Import Core BinarySingleNaN.
From Verif Require Import Base BaseFacts Float Matrix Cplx Act Input Loss Dense Conv Layer Dataset Network Examples RFloat BFloat CFacts SpecDead SpecRel
  RelFacts RelNet SpecMirror MirrorFacts MirrorIEEE MirrorNet PropSame.

(** ** C82 *)
(** Exact arithmetic: a network all of whose parameters are conjugated, given
    conjugated input, answers with the conjugated answer, or fails the same way. *)
Theorem C82_forward : forall p n n' x x', net_rel ROps ROps mirrored symmetric_act n n' -> io_rel ROps ROps mirrored x x' ->
  orel (rrel (io_rel ROps ROps mirrored)) (net_forward ROps p n x) (net_forward ROps p n' x').
Proof. exact exact_mirror_forward. Qed.
Print Assumptions C82_forward.

(** Trained with conjugated data and conjugated rates it stays the conjugate of
    the network trained with the original data. *)
Theorem C82_training : forall p s s' n n', net_rel ROps ROps mirrored symmetric_act n n' -> Forall2 (step_rel ROps ROps mirrored) s s' ->
  orel (net_rel ROps ROps mirrored symmetric_act) (train_steps ROps p n s) (train_steps ROps p n' s').
Proof. exact exact_mirror_training. Qed.
Print Assumptions C82_training.

(** Its losses and its accuracy are the same. *)
Theorem C82_loss : forall p f n n' d d', net_rel ROps ROps mirrored symmetric_act n n' -> data_rel ROps ROps mirrored d d' ->
  net_loss ROps p n d f = net_loss ROps p n' d' f.
Proof. exact exact_mirror_loss. Qed.
Print Assumptions C82_loss.
Theorem C82_accuracy : forall p n n' d d', net_rel ROps ROps mirrored symmetric_act n n' -> data_rel ROps ROps mirrored d d' ->
  net_max_pred_test ROps p n d = net_max_pred_test ROps p n' d'.
Proof. exact exact_mirror_test. Qed.
Print Assumptions C82_accuracy.

Lemma one_rel : forall f w b, net_rel ROps ROps mirrored (eq f) [LDense (one_one w b f)] [LDense (one_one (c_conj ROps w) (c_conj ROps b) f)].
Proof. intros. constructor; [|constructor]. constructor; [constructor; constructor; [reflexivity | constructor] | constructor; [reflexivity | constructor] | reflexivity]. Qed.

Lemma sig_half : forall p, sigmoid ROps p 0%R = (1 / 2)%R.
Proof.
  intros p. unfold sigmoid, sig_thr. cbn [fleb flit fneg fexp fdiv fadd fone ROps Rlit]. fl. 
  destruct p; rewrite (proj2 (Rleb_gt _ 0%R)) by lra; rewrite (proj2 (Rleb_gt 0%R _)) by lra; rewrite exp_0; lra.
Qed.

Ltac rl := repeat match goal with |- context [Rltb ?a ?b] => let H := fresh in destruct (Rltb a b) eqn:H; [apply Rltb_lt in H | apply Rltb_ge in H] end.

(** The other three activations break it. *)
Theorem C82_only_refuted : forall p f, ~ symmetric_act f -> exists n n' x x' y y', net_rel ROps ROps mirrored (eq f) n n' /\ io_rel ROps ROps mirrored x x' /\
  net_forward ROps p n x = Ret (Ok y) /\ net_forward ROps p n' x' = Ret (Ok y') /\ ~ io_rel ROps ROps mirrored y y'.
Proof.
  intros p f H.
  assert (G : forall z, exists y y', activate ROps p f (1 * z + 0)%RC = Ret y /\ activate ROps p f (c_conj ROps 1 * c_conj ROps z + c_conj ROps 0)%RC = Ret y').
  { intros z. destruct f; try (exfalso; apply H; exact Logic.I); do 2 eexists; split; reflexivity. }
  assert (K : forall z, (forall y y', activate ROps p f (1 * z + 0)%RC = Ret y -> activate ROps p f (c_conj ROps 1 * c_conj ROps z + c_conj ROps 0)%RC = Ret y' -> im y' <> (- im y)%R) ->
     exists n n' x x' y y', net_rel ROps ROps mirrored (eq f) n n' /\ io_rel ROps ROps mirrored x x' /\
     net_forward ROps p n x = Ret (Ok y) /\ net_forward ROps p n' x' = Ret (Ok y') /\ ~ io_rel ROps ROps mirrored y y').
  { intros z D. destruct (G z) as (y & y' & Y & Y'). exists [LDense (one_one 1%RC 0%RC f)], [LDense (one_one (c_conj ROps 1%RC) (c_conj ROps 0%RC) f)],
      (IOScalar [z]), (IOScalar [c_conj ROps z]), (IOScalar [y]), (IOScalar [y']).
    split; [apply one_rel|]. split; [constructor; constructor; [reflexivity | constructor]|]. rewrite !one_one_net, Y, Y'. repeat split. intros X. inversion X as [v v' V|]; subst. inversion V as [|? ? ? ? A _]; subst.
    apply (D y y' Y Y'). rewrite A. reflexivity. }
  destruct f; try (exfalso; apply H; exact Logic.I).
  - apply (K 0%RC). cbn [activate]. intros y y' [= <-] [= <-]. cbn [im ritsigmoid re c_add c_mul c_conj c_default c_unit]. fl.
    replace (1 * - 0 + - 0 * 0 + - 0)%R with 0%R by ring. replace (1 * 0 + 0 * 0 + 0)%R with 0%R by ring. rewrite sig_half. lra.
  - apply (K (mkC 0 1)%R). cbn [activate]. intros y y' [= <-] [= <-]. cbn [im ritrelu re c_add c_mul c_conj c_default c_unit]. unfold relu. fl.
    rl; intros E; lra.
  - apply (K (mkC 1 1)%R). cbn [activate]. intros y y' [= <-] [= <-]. unfold zrelu. cbn [im re c_add c_mul c_conj c_default c_unit]. fl.
    rl; cbn [orb im]; intros E; cbn [im re c_add c_mul c_conj c_default c_unit] in E; fl; lra.
Qed.
Print Assumptions C82_only_refuted.

(** IEEE arithmetic, any format and library: the same up to the signs of zeros,
    without activation, with [ModZ], and with tanh if the library's is odd. *)
Theorem C82_floats_forward : forall prec emax (Hp : Prec_gt_0 prec) (He : Prec_lt_emax prec emax) (L : libm (binary_float prec emax)) p,
  let Fl := BOps prec emax Hp He L in let NET := net_rel Fl Fl mirrored_ieee (symmetric_act_ieee L) in let IO := io_rel Fl Fl mirrored_ieee in
  forall n n' x x', NET n n' -> IO x x' -> orel (rrel IO) (net_forward Fl p n x) (net_forward Fl p n' x').
Proof. exact ieee_mirror_forward. Qed.
Print Assumptions C82_floats_forward.
Theorem C82_floats_training : forall prec emax (Hp : Prec_gt_0 prec) (He : Prec_lt_emax prec emax) (L : libm (binary_float prec emax)) p,
  let Fl := BOps prec emax Hp He L in let NET := net_rel Fl Fl mirrored_ieee (symmetric_act_ieee L) in
  forall s s' n n', NET n n' -> Forall2 (step_rel Fl Fl mirrored_ieee) s s' -> orel NET (train_steps Fl p n s) (train_steps Fl p n' s').
Proof. exact ieee_mirror_training. Qed.
Print Assumptions C82_floats_training.
(** The mean square loss and the accuracy are the same bit for bit, the other
    loss up to the sign of a zero. *)
Theorem C82_floats_loss : forall prec emax (Hp : Prec_gt_0 prec) (He : Prec_lt_emax prec emax) (L : libm (binary_float prec emax)) p,
  let Fl := BOps prec emax Hp He L in
  forall n n' d d', net_rel Fl Fl mirrored_ieee (symmetric_act_ieee L) n n' -> data_rel Fl Fl mirrored_ieee d d' ->
  net_loss Fl p n d MeanSquare = net_loss Fl p n' d' MeanSquare /\ net_max_pred_test Fl p n d = net_max_pred_test Fl p n' d' /\
  forall f, orel (rrel same_number) (net_loss Fl p n d f) (net_loss Fl p n' d' f).
Proof.
  intros prec emax Hp He L p Fl n n' d d' N D.
  exact (Logic.conj (ieee_mirror_mse prec emax Hp He L p n n' d d' N D) (Logic.conj (ieee_mirror_test prec emax Hp He L p n n' d d' N D) (fun f => ieee_mirror_loss prec emax Hp He L p f n n' d d' N D))).
Qed.
Print Assumptions C82_floats_loss.

(** Mean pooling, as in the examples, may be part of such a network. *)
Lemma avg_mirror : forall l l', Forall2 mirrored l l' -> orel mirrored (avg_block ROps l) (avg_block ROps l').
Proof.
  intros l l' H. unfold avg_block. rewrite (len_rel mirrored _ _ H). apply mirror_div; [|apply mirror_real].
  assert (G : forall a a', mirrored a a' -> mirrored (fold_left (fun acc e => c_add ROps acc e) l a) (fold_left (fun acc e => c_add ROps acc e) l' a')).
  { induction H as [|x x' l l' X H IH]; intros a a' A; [exact A|]. apply IH. now apply (nr_add _ _ _ mirror_num). }
  apply G, (nr_zero _ _ _ mirror_num).
Qed.
Example C82_ex : forall a b : RC,
  net_rel ROps ROps mirrored symmetric_act [LReduce (red_init ROps 1 2 2 (avg_block ROps) (from_body [a] 1 1)); LFlatten (mkFlat 1 1 1); LDense (one_one a b RITTanh)]
    [LReduce (red_init ROps 1 2 2 (avg_block ROps) (from_body [c_conj ROps a] 1 1)); LFlatten (mkFlat 1 1 1); LDense (one_one (c_conj ROps a) (c_conj ROps b) RITTanh)] /\
  io_rel ROps ROps mirrored (IOMatrix [from_body [mkC 1 2; mkC 3 4; mkC 0 1; mkC 0 0] 2 2])%R (IOMatrix [from_body [mkC 1 (-2); mkC 3 (-4); mkC 0 (-1); mkC 0 0] 2 2])%R.
Proof.
  intros a b. split.
  - constructor; [|constructor; [constructor|constructor; [|constructor]]].
    + constructor; [exact avg_mirror|]. constructor. constructor; [reflexivity | constructor].
    + constructor; [constructor; constructor; [reflexivity | constructor] | constructor; [reflexivity | constructor] | exact Logic.I].
  - constructor. constructor; [|constructor]. constructor. repeat constructor; unfold mirrored; apply c_ext; cbn; try reflexivity; lra.
Qed.

(** ** C83 *)
(** Exact arithmetic: a network with real parameters answers real inputs with
    real numbers, and training with real data and rates keeps it real. *)
Theorem C83_forward : forall p n x y, net_all ROps is_real real_act n -> io_all ROps is_real x -> net_forward ROps p n x = Ret (Ok y) -> io_all ROps is_real y.
Proof. exact exact_real_forward. Qed.
Print Assumptions C83_forward.
Theorem C83_training : forall p n s n', net_all ROps is_real real_act n -> steps_all ROps is_real s -> train_steps ROps p n s = Ret n' ->
  net_all ROps is_real real_act n'.
Proof. exact exact_real_training. Qed.
Print Assumptions C83_training.

(** Not with the split sigmoid, which gives the real number 0 the imaginary part 1/2. *)
Theorem C83_sigmoid_refuted : forall p, exists n x y, net_all ROps is_real (eq RITSigmoid) n /\ io_all ROps is_real x /\
  net_forward ROps p n x = Ret (Ok y) /\ ~ io_all ROps is_real y.
Proof.
  intros p. exists [LDense (one_one 1%RC 0%RC RITSigmoid)], (IOScalar [0%RC]), (IOScalar [mkC (1 / 2) (1 / 2)])%R.
  split; [constructor; [|constructor]; repeat split; constructor; (reflexivity || constructor)|]. split; [constructor; [reflexivity | constructor]|]. split.
  - rewrite one_one_net. replace (1 * 0 + 0)%RC with 0%RC by ring. cbn [activate obind]. do 4 f_equal. unfold ritsigmoid. cbn [re im c_default]. unfold fzero. cbn [flit ROps Rlit]. now rewrite sig_half.
  - intros H. inversion H as [|? ? E]; subst. unfold is_real in E. cbn [im] in E. lra.
Qed.
Print Assumptions C83_sigmoid_refuted.

(** IEEE arithmetic: imaginary parts stay zero unless they become NaN. *)
Theorem C83_floats : forall prec emax (Hp : Prec_gt_0 prec) (He : Prec_lt_emax prec emax) (L : libm (binary_float prec emax)) p,
  let Fl := BOps prec emax Hp He L in forall n, net_all Fl is_real_ieee (real_act_ieee L) n ->
  (forall x y, io_all Fl is_real_ieee x -> net_forward Fl p n x = Ret (Ok y) -> io_all Fl is_real_ieee y) /\
  (forall s n', steps_all Fl is_real_ieee s -> train_steps Fl p n s = Ret n' -> net_all Fl is_real_ieee (real_act_ieee L) n').
Proof.
  intros prec emax Hp He L p Fl n N.
  exact (Logic.conj (fun x y => ieee_real_forward prec emax Hp He L p n x y N) (fun s n' => ieee_real_training prec emax Hp He L p n s n' N)).
Qed.
Print Assumptions C83_floats.

Lemma avg_real : forall v z, Forall is_real v -> avg_block ROps v = Ret z -> is_real z.
Proof.
  intros v z H E. assert (K : orel both_real (avg_block ROps v) (avg_block ROps v)); [|rewrite E in K; inversion K as [? ? R|]; subst; apply R].
  unfold avg_block. apply real_div; [|apply real_mk].
  assert (G : forall a, both_real a a -> both_real (fold_left (fun acc e => c_add ROps acc e) v a) (fold_left (fun acc e => c_add ROps acc e) v a)).
  { clear E. induction H as [|x v X H IH]; intros a A; [exact A|]. apply IH. apply (nr_add _ _ _ real_num); [exact A | now split]. }
  apply G. apply (nr_zero _ _ _ real_num).
Qed.
Example C83_ex : forall a b : R,
  net_all ROps is_real real_act [LReduce (red_init ROps 1 2 2 (avg_block ROps) (from_body [mkC a 0%R] 1 1)); LFlatten (mkFlat 1 1 1); LDense (one_one (mkC a 0%R) (mkC b 0%R) Cardioid)] /\
  io_all ROps is_real (IOMatrix [from_body [mkC 1 0; mkC (-3) 0; mkC 2 0; mkC 0 0] 2 2])%R.
Proof.
  intros a b. split.
  - repeat constructor; try reflexivity. exact avg_real.
  - repeat constructor.
Qed.
