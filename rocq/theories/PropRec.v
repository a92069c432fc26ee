(** * Property C65: the regression example *)
From Coq Require Import NArith Reals Lra Lia Factorial.
From Verif Require Import Base Float Matrix Cplx Random Act Input Loss Dense Conv Layer Dataset Network Examples RFloat BFloat BFacts
  SpecMatrix SpecLayer SpecConv SpecNet SpecGeom SpecMnist SpecExamples GeomFacts SignalFacts PropSignal ExampleFacts RecFacts.
Local Open Scope nat_scope.
Local Open Scope list_scope.
Local Notation P32 := Float.P32.

(** Whatever the arithmetic: a pipeline that returns has run its epochs, every
    one of them from the same two seeds and hence on the same signals, and has
    recorded one value per epoch on each curve. *)
Theorem C65_epochs : forall Fl pr n f lr samples thr epochs batches size a b n' trl tel,
  rec_pipeline Fl pr n f lr samples thr epochs batches size a b = Ret (n', trl, tel) ->
  rec_epochs Fl pr f lr samples size thr batches a b epochs n n' trl tel /\
  length trl = epochs /\ length tel = epochs /\
  wf (curve_column Fl epochs trl) /\ wf (curve_column Fl epochs tel).
Proof. exact rec_pipeline_curves. Qed.
Print Assumptions C65_epochs.

(** It returns: in f32, whatever the mathematical library, and in exact
    arithmetic. *)
Theorem C65_total : forall pr f samples epochs batches size a b,
  Nat.even samples = true -> 0 < size -> seed_ok pr a -> seed_ok pr b ->
  (forall L n lr thr, 2 <= length n -> fit_all (B32Ops L) n (Vec samples) (Vec samples) -> Forall (trainable (B32Ops L)) n ->
     exists n' trl tel, rec_pipeline (B32Ops L) pr n f lr samples thr epochs batches size a b = Ret (n', trl, tel)) /\
  (forall n lr thr, 2 <= length n -> fit_all ROps n (Vec samples) (Vec samples) -> Forall (trainable ROps) n ->
     exists n' trl tel, rec_pipeline ROps pr n f lr samples thr epochs batches size a b = Ret (n', trl, tel)).
Proof. exact rec_total_both. Qed.
Print Assumptions C65_total.

(** The exported columns: for each of the first ten training signals the noisy
    samples, the clean ones and what the network makes of the noisy ones. *)
Theorem C65_explore : forall L pr n samples thr a b,
  Nat.even samples = true -> n <> [] -> fit_all (B32Ops L) n (Vec samples) (Vec samples) -> seed_ok pr a -> seed_ok pr b ->
  exists a' b' d d' out, signal_reconstruction (B32Ops L) pr samples 10 thr a b = Ret (a', b', d, d') /\
    explore (B32Ops L) pr n samples thr a b = Ret out /\ length out = 10 /\
    forall k, k < 10 -> exists x y v, nth_error (points d) k = Some (IOScalar x, IOScalar y) /\
      net_forward (B32Ops L) P32 n (IOScalar x) = Ret (Ok (IOScalar v)) /\
      length x = samples /\ length y = samples /\ length v = samples /\
      nth_error out k = Some (from_body x samples 1, from_body y samples 1, from_body v samples 1).
Proof. intros L pr. exact (explore_ok (B32Ops L) pr eq_refl (norm_divisible L)). Qed.
Print Assumptions C65_explore.

(** The whole program: with the auto-encoder, from every legal seed. *)
Theorem C65_program : forall L pr seed samples f lr thr epochs batches size a b,
  samples <> 0 -> Nat.even samples = true -> 0 < size -> seed_ok pr seed -> seed_ok pr a -> seed_ok pr b ->
  exists seed' n n' trl tel out, get_auto_encoder (B32Ops L) pr seed samples = Ret (seed', (3, n)) /\
    rec_pipeline (B32Ops L) pr n f lr samples thr epochs batches size a b = Ret (n', trl, tel) /\
    length trl = epochs /\ length tel = epochs /\ explore (B32Ops L) pr n' samples thr a b = Ret out.
Proof. exact program_rec. Qed.
Print Assumptions C65_program.

(** ** What the curves show *)
Local Open Scope R_scope.

(** In exact arithmetic the value recorded for the losses l_0 .. l_(B-1) of an
    epoch is the sum of l_i * i! / B!. *)
Theorem C65_recorded : forall ls : list R,
  recorded ROps ls = fold_right Rplus 0 (map (fun i => nth i ls 0 * (INR (fact i) / INR (fact (length ls)))) (seq 0 (length ls))).
Proof. exact recorded_weights. Qed.
Print Assumptions C65_recorded.

(** The losses of an epoch with the mean square loss are not negative, so the
    recorded value never exceeds their mean, and is the mean only if there are
    at most two batches or every batch but the last has loss zero. *)
Theorem C65_mean_refuted : forall pr lr samples size thr batches a b n n' ls ls',
  rounds ROps pr MeanSquare lr samples size thr batches a b n n' ls ls' ->
  forall l, l = ls \/ l = ls' ->
  recorded ROps l <= mean ROps l /\
  (recorded ROps l = mean ROps l <-> (batches <= 2)%nat \/ forall i v, nth_error l i = Some v -> (i < batches - 1)%nat -> v = 0).
Proof. exact recorded_below_mean. Qed.
Print Assumptions C65_mean_refuted.

(** Five batches of loss 1: the curve shows less than 0.3. *)
Example C65_flat : recorded ROps (repeat 1 5) < 3 / 10 /\ mean ROps (repeat 1 5) = 1.
Proof.
  split; [rewrite recorded_R | rewrite mean_R]; cbn [repeat length wsum fact Nat.mul Nat.add]; rewrite !INR_IZR_INZ; cbn [Z.of_nat Pos.of_succ_nat Pos.succ].
  - lra.
  - match goal with |- @eq _ ?a ?b => change (@eq R a b) end. field.
Qed.

Example C65_ex :
  (exists L seed' n n' trl tel out, get_auto_encoder (B32Ops L) Dev 328557473 512 = Ret (seed', (3%nat, n)) /\
     rec_pipeline (B32Ops L) Dev n MeanSquare (c_unit (B32Ops L)) 512 (fzero (B32Ops L)) 16 200 100 223895746827 4346877248692 = Ret (n', trl, tel) /\
     length trl = 16%nat /\ length tel = 16%nat /\ explore (B32Ops L) Dev n' 512 (fzero (B32Ops L)) 223895746827 4346877248692 = Ret out).
Proof.
  exists toy_libm. apply C65_program; [discriminate|reflexivity|apply Nat.lt_0_succ|right; reflexivity|right; reflexivity|right; reflexivity].
Qed.

(** There are runs to speak of: three batches with the auto-encoder. *)
Example C65_ex_rounds : exists n n' ls ls',
  rounds ROps Dev MeanSquare (c_unit ROps) 4 2 (fzero ROps) 3 7 11 n n' ls ls'.
Proof.
  destruct (auto_ok ROps Dev 4 1%N) as (s' & n & _ & _ & ST & TR & _); [discriminate|right; reflexivity|].
  pose proof (stages_length ROps _ _ ST) as LN. assert (L5 : length n = 5%nat) by (clear - LN; cbn in LN; lia).
  pose proof (stages_fit ROps n _ ST (Vec 0)) as FA. rewrite L5 in FA. cbn [nth auto_stages] in FA.
  destruct (C65_total Dev MeanSquare 4 1 3 2 7 11) as (_ & H); [reflexivity|apply Nat.lt_0_succ|right; reflexivity|right; reflexivity|].
  destruct (H n (c_unit ROps) (fzero ROps)) as (n' & trl & tel & E); [lia|exact FA|exact TR|].
  apply C65_epochs in E as (E & _). inversion E as [|? ? ? ? ls ls' ? ? R]; subst. eauto.
Qed.
