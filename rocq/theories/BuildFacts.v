(** * Lemmas about the construction of networks *)
From Verif Require Import Base BaseFacts Float Matrix Cplx Random Act Input Loss Dense Conv Layer Dataset Network SpecMatrix MatrixFacts
  SpecLayer SpecConv SpecNet DenseFacts LayerFacts NetFacts PropAct PropDense.

Lemma empty_iff : forall Fl (l : clayer Fl), layer_is_empty Fl l = true <-> uninitialised Fl l.
Proof.
  intros Fl [l|l|l|l]; cbn [layer_is_empty uninitialised].
  - unfold dense_is_empty. rewrite orb_true_iff, andb_true_iff, !Nat.eqb_eq, length_zero_iff_nil. reflexivity.
  - unfold conv_is_empty. rewrite andb_true_iff, !Nat.eqb_eq. reflexivity.
  - split; [discriminate | intros []].
  - split; [discriminate | intros []].
Qed.

Lemma nonempty_iff : forall Fl (l : clayer Fl), layer_is_empty Fl l = false <-> ~ uninitialised Fl l.
Proof. intros Fl l. rewrite <- empty_iff. destruct (layer_is_empty Fl l); split; congruence. Qed.

(** After any history of calls: the network holds exactly the accepted layers in
    order, none of them empty, consecutive shapes agree. *)
Lemma built_invariant : forall Fl os rs n, built Fl os rs n ->
  n = accepted Fl os rs /\ chained Fl n /\ (forall l, In l n -> layer_is_empty Fl l = false).
Proof.
  intros Fl os rs n H. induction H as [|os rs n o n' r H IH E].
  - repeat split; [intros [|k] l l' K; discriminate | intros l []].
  - destruct IH as (IA & IC & IE). rewrite accepted_snoc by (eapply built_length; eauto). rewrite <- IA.
    assert (NC : forall l l', nth_error n (length n - 1) = Some l -> layer_output_shape Fl l = layer_input_shape Fl l' ->
             layer_is_empty Fl l' = false -> chained Fl (n ++ [l']) /\ (forall q, In q (n ++ [l']) -> layer_is_empty Fl q = false)).
    { intros l l' L S EM. split.
      - intros k a b Ka Kb. apply nth_error_snoc_inv in Kb as [(K & Kb) | (K & ->)].
        + rewrite nth_error_app1 in Ka by lia. eauto.
        + rewrite nth_error_app1 in Ka by lia. replace (length n - 1) with k in L by lia. congruence.
      - intros q Q. apply in_app_or in Q as [Q | [<- | []]]; auto. }
    destruct o as [l|l]; cbn [build_call] in E.
    + unfold net_add_input in E. destruct n as [|a n]; cbn [length Nat.ltb Nat.leb] in E.
      * destruct (layer_is_empty Fl l) eqn:EM; cbn [negb] in E; injection E as <- <-; cbn [accepted app].
        { repeat split; auto. }
        { repeat split; [intros [|[|k]] a b Ka Kb; discriminate | intros q [<- | []]; auto]. }
      * injection E as <- <-. cbn [accepted app]. rewrite app_nil_r. auto.
    + unfold net_add in E. destruct (layer_is_empty Fl l) eqn:EM.
      * injection E as <- <-. cbn [accepted app]. rewrite app_nil_r. auto.
      * destruct (length n =? 0) eqn:L0; [discriminate|].
        destruct (nth_error n (length n - 1)) as [lst|] eqn:L; cbn [unwrap_opt obind] in E; [|discriminate].
        destruct (shape_eqb (layer_output_shape Fl lst) (layer_input_shape Fl l)) eqn:SE; cbn [negb] in E; injection E as <- <-; cbn [accepted app].
        { split; [reflexivity|]. apply (NC lst); auto. now apply shape_eqb_eq. }
        { rewrite app_nil_r. auto. }
Qed.

(** What every single call does, on any network. *)
Lemma add_input_cases : forall Fl (n : network Fl) l,
  (n <> [] -> net_add_input Fl n l = (n, Err ExistentInput)) /\
  (layer_is_empty Fl l = true -> net_add_input Fl [] l = ([], Err MissingInitialization)) /\
  (layer_is_empty Fl l = false -> net_add_input Fl [] l = ([l], Ok tt)).
Proof.
  intros Fl n l. repeat split.
  - intros N. destruct n; [congruence | reflexivity].
  - intros E. unfold net_add_input. cbn. now rewrite E.
  - intros E. unfold net_add_input. cbn. now rewrite E.
Qed.

Lemma add_cases : forall Fl (n : network Fl) l,
  (layer_is_empty Fl l = true -> net_add Fl n l = Ret (n, Err MissingInitialization)) /\
  (layer_is_empty Fl l = false -> net_add Fl [] l = Panic) /\
  (forall a, layer_is_empty Fl l = false -> layer_output_shape Fl a <> layer_input_shape Fl l ->
     net_add Fl (n ++ [a]) l = Ret (n ++ [a], Err IncompatibleIO)) /\
  (forall a, layer_is_empty Fl l = false -> layer_output_shape Fl a = layer_input_shape Fl l ->
     net_add Fl (n ++ [a]) l = Ret (n ++ [a] ++ [l], Ok tt)).
Proof.
  intros Fl n l.
  assert (L : forall a, (if length (n ++ [a]) =? 0 then None else nth_error (n ++ [a]) (length (n ++ [a]) - 1)) = Some a).
  { intros a. rewrite app_length. cbn [length]. replace (length n + 1 =? 0) with false by (symmetry; apply Nat.eqb_neq; lia).
    rewrite Nat.add_sub, nth_error_app2, Nat.sub_diag by lia. reflexivity. }
  repeat split.
  - intros E. unfold net_add. now rewrite E.
  - intros E. unfold net_add. now rewrite E.
  - intros a E N. unfold net_add. rewrite E, L. cbn [unwrap_opt obind].
    destruct (shape_eqb _ _) eqn:S; [apply shape_eqb_eq in S; congruence | reflexivity].
  - intros a E N. unfold net_add. rewrite E, L. cbn [unwrap_opt obind]. rewrite N.
    assert (S : forall s, shape_eqb s s = true) by (intros [s|s]; apply Nat.eqb_refl). rewrite S. cbn [negb]. now rewrite <- app_assoc.
Qed.

