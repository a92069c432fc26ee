(** * Property C91: the numbering of features and classes *)
From Coq Require Import Reals Lra.
From Verif Require Import Base Float Matrix Cplx Act Input Loss Dense Conv Layer Dataset Network RFloat SpecMatrix
  SpecLayer SpecConv SpecNet SpecEval SpecGeom SpecDead SpecPerm SpecNames CFacts GeomFacts GradFacts2 MaxFacts PropGeom PropEval NamesFacts NamesEval.
Local Open Scope nat_scope.

(** Exact arithmetic.  A network whose features, units and classes are numbered
    anew, with the weights moved along, gives for an input with its features
    numbered anew the same outputs, numbered anew. *)
Theorem C91_forward : forall p r r' n n' x x' y, net_renamed ROps r r' n n' -> renamed ROps r x x' -> net_forward ROps p n x = Ret (Ok y) ->
  exists y', net_forward ROps p n' x' = Ret (Ok y') /\ renamed ROps r' y y'.
Proof. exact forward_renamed. Qed.
Print Assumptions C91_forward.

(** Training on data numbered anew gives the trained network, numbered anew:
    any number of steps, any losses and rates. *)
Theorem C91_training : forall p r r' steps steps' n n' n1, net_renamed ROps r r' n n' -> Forall2 (step_renamed ROps r r') steps steps' ->
  train_steps ROps p n steps = Ret n1 -> exists n1', train_steps ROps p n' steps' = Ret n1' /\ net_renamed ROps r r' n1 n1'.
Proof. exact steps_renamed_ok. Qed.
Print Assumptions C91_training.

(** The reported loss is the same number. *)
Theorem C91_loss : forall p r r' n n' d d' f l, net_renamed ROps r r' n n' -> data_renamed ROps r r' d d' ->
  net_loss ROps p n d f = Ret (Ok l) -> net_loss ROps p n' d' f = Ret (Ok l).
Proof. exact net_loss_renamed. Qed.
Print Assumptions C91_loss.

(** So is the reported accuracy, when no output and no target has a tie. *)
Theorem C91_accuracy : forall p r r' n n' d d' a, net_renamed ROps r r' n n' -> data_renamed ROps r r' d d' ->
  (forall x v, In x (ds_inputs d) -> predicts ROps p n x v -> no_tie ROps v) -> (forall v, In (IOScalar v) (ds_target d) -> no_tie ROps v) ->
  net_max_pred_test ROps p n d = Ret a -> net_max_pred_test ROps p n' d' = Ret a.
Proof. exact accuracy_renamed. Qed.
Print Assumptions C91_accuracy.

(** Numbering only the classes anew changes no bit of an output, for every float type. *)
Theorem C91_classes_floats : forall Fl p s front (l l' : dense Fl) x w, units_reordered Fl s l l' -> reorders s (units Fl l) ->
  net_forward Fl p (front ++ [LDense l]) x = Ret (Ok w) ->
  exists v v', w = IOScalar v /\ net_forward Fl p (front ++ [LDense l']) x = Ret (Ok (IOScalar v')) /\ length v = units Fl l /\ length v' = units Fl l /\
    forall i, i < units Fl l -> nth i v' (c_default Fl) = nth (s i) v (c_default Fl).
Proof. exact classes_forward. Qed.
Print Assumptions C91_classes_floats.

(** ** The hypotheses are met *)
Definition swap : numbering := Some (2, fun i => 1 - i).
Definition pair_layer (f : ComplexActFunc) (a b c d e g : RC) : clayer ROps := LDense (mkDense ROps (from_body [a; b; c; d] 2 2) [e; g] f).

Lemma swap_ok : reorders (fun i => 1 - i) 2.
Proof. split; intros; lia. Qed.
Lemma swap_layer : forall f a b c d e g, layer_renamed ROps swap swap (pair_layer f a b c d e g) (pair_layer f d c b a g e).
Proof.
  intros. right. do 2 eexists. split; [reflexivity|]. split; [reflexivity|].
  split; [repeat split; discriminate|]. split; [repeat split; discriminate|]. split; [reflexivity|]. split; [reflexivity|]. split; [reflexivity|].
  split; [split; [reflexivity | apply swap_ok]|]. split; [split; [reflexivity | apply swap_ok]|]. split.
  - intros [|[|i]] Hi; [reflexivity | reflexivity | cbn in Hi; lia].
  - intros [|[|i]] [|[|j]] Hi Hj; try (cbn in Hi, Hj; lia); reflexivity.
Qed.
Lemma swap_pair : forall a b : RC, renamed ROps swap (IOScalar [a; b]) (IOScalar [b; a]).
Proof.
  intros a b. exists [a; b], [b; a]. split; [reflexivity|]. split; [reflexivity|]. split; [split; [reflexivity | apply swap_ok]|]. split; [reflexivity|].
  intros [|[|i]] Hi; [reflexivity | reflexivity | cbn in Hi; lia].
Qed.
Definition pair_net (a b c d e g h i j k l m : RC) : network ROps := [pair_layer RITSigmoid a b c d e g; pair_layer ActNone h i j k l m].
Definition pair_data (x y t u : RC) : dataset RC RC := mkData [IOScalar [x; y]] [IOScalar [t; u]].

Example C91_ex : forall p f (lr : R) a b c d e g h i j k l m x y t u, (c_norm_sq ROps u < c_norm_sq ROps t)%R ->
  net_renamed ROps swap swap (pair_net a b c d e g h i j k l m) (pair_net d c b a g e k j i h m l) /\
  step_renamed ROps swap swap (pair_data x y t u, f, mkC lr 0%R) (pair_data y x u t, f, mkC lr 0%R) /\ no_tie ROps [t; u] /\
  exists n1, train_steps ROps p (pair_net a b c d e g h i j k l m) [(pair_data x y t u, f, mkC lr 0%R)] = Ret n1.
Proof.
  intros p f lr a b c d e g h i j k l m x y t u LT. split; [|split; [|split]].
  - econstructor; [apply swap_layer|]. econstructor; [apply swap_layer | constructor].
  - split; [|split; reflexivity]. split; (constructor; [apply swap_pair | constructor]).
  - exists 0. split; [cbn; lia|]. intros [|[|q]] Hq NQ; [congruence | | cbn in Hq; lia]. apply (proj2 (Rltb_lt _ _)). exact LT.
  - destruct (training_total ROps p (pair_net a b c d e g h i j k l m) (Vec 2) (Vec 2) (pair_data x y t u) f (mkC lr 0%R) (mkC (lr * / INR 1)%R 0%R)) as (n1 & E1 & _).
    + apply le_n.
    + apply fit_cons with (Vec 2); [apply (fits_dense ROps (mkDense ROps (from_body [a; b; c; d] 2 2) [e; g] RITSigmoid)); [repeat split; discriminate | discriminate]|].
      apply fit_cons with (Vec 2); [|apply fit_nil]. apply (fits_dense ROps (mkDense ROps (from_body [h; i; j; k] 2 2) [l; m] ActNone)); [repeat split; discriminate | discriminate].
    + repeat constructor.
    + split; [reflexivity|]. split; intros q [<-|[]]; [reflexivity | apply le_n].
    + apply (div_real lr 1). discriminate.
    + exists n1. cbn [train_steps]. rewrite E1. reflexivity.
Qed.

(** With a tie the first of the largest outputs wins, whichever class that is:
    the accuracy of one network on one point is 1 in one numbering of the
    classes and 0 in the other. *)
Theorem C91_tie_refuted : exists (n n' : network ROps) d d', net_renamed ROps None swap n n' /\ data_renamed ROps None swap d d' /\
  forall p, net_max_pred_test ROps p n d = Ret 1%R /\ net_max_pred_test ROps p n' d' = Ret 0%R.
Proof.
  pose (o := mkC 0%R 0%R : RC). pose (e := mkC 1%R 0%R : RC). pose (l := mkDense ROps (from_body [o; o] 2 1) [e; e] ActNone : dense ROps).
  exists [LDense l], [LDense l], (mkData [IOScalar [o]] [IOScalar [e; o]]), (mkData [IOScalar [o]] [IOScalar [o; e]]).
  split; [|split].
  - econstructor; [|constructor]. right. exists l, l. split; [reflexivity|]. split; [reflexivity|].
    split; [repeat split; discriminate|]. split; [repeat split; discriminate|]. do 3 (split; [reflexivity|]). split; [exact I|].
    split; [split; [reflexivity | apply swap_ok]|]. split; [intros [|[|i]] Hi; [reflexivity | reflexivity | cbn in Hi; lia]|].
    intros [|[|i]] [|j] Hi Hj; try (cbn in Hi, Hj; lia); reflexivity.
  - split; (constructor; [|constructor]); [reflexivity | apply swap_pair].
  - intros p.
    assert (P : predicts ROps p [LDense l] (IOScalar [o]) [e; e]).
    { unfold predicts. cbn. do 3 f_equal. unfold e, c_add, c_add_assign, c_mul. cbn. repeat f_equal; ring. }
    assert (NS : c_norm_sq ROps e = 1%R /\ c_norm_sq ROps o = 0%R) by (unfold c_norm_sq; cbn; split; ring). destruct NS as (N1 & N0).
    assert (M1 : max_index ROps [e; e] = 0).
    { apply (C56_index_unique [e; e]); [apply C56_index_exact; discriminate|]. split; [cbn; lia|]. split.
      - intros [|[|j]] a b H1 H2; cbn in H1, H2; try (destruct j; discriminate); injection H1 as <-; injection H2 as <-; apply Rltb_ge; apply Rle_refl.
      - intros j a b Hj. lia. }
    assert (M2 : max_index ROps [e; o] = 0).
    { apply max_unique; [cbn; lia|]. intros [|[|j]] Hj NJ; [congruence | | cbn in Hj; lia]. apply Rltb_lt. cbn [nth]. rewrite N1, N0. lra. }
    assert (M3 : max_index ROps [o; e] = 1).
    { apply max_unique; [cbn; lia|]. intros [|[|j]] Hj NJ; [ | congruence | cbn in Hj; lia]. apply Rltb_lt. cbn [nth]. rewrite N1, N0. lra. }
    split.
    + rewrite (C56_accuracy ROps p [LDense l] _ [[e; e]] [[e; o]]); [|constructor; [exact P | constructor] | reflexivity | reflexivity].
      cbn [map agreements]. rewrite M1, M2. cbn. f_equal. field.
    + rewrite (C56_accuracy ROps p [LDense l] _ [[e; e]] [[o; e]]); [|constructor; [exact P | constructor] | reflexivity | reflexivity].
      cbn [map agreements]. rewrite M1, M3. cbn. f_equal. field.
Qed.
Print Assumptions C91_tie_refuted.
