(** * NaN in dense networks: the properties, proved *)
From Coq Require Import ZArith.
From Flocq Require Import Core BinarySingleNaN.
From Verif Require Import Base BaseFacts Float Matrix Cplx Random Act Input Loss Dense Conv Layer Dataset Network SpecMatrix MatrixFacts
  SpecLayer SpecConv SpecNet SpecEval DenseFacts LayerFacts NetFacts TrainFacts TrainDense PropAct PropDense PropLoss PropNet PropEval BFloat SpecNan NanFacts.
Local Open Scope nat_scope.
Local Notation re := Cplx.re. Local Notation im := Cplx.im.

Lemma first_max_unique : forall Fl (l : list (cplx (F Fl))) i j, first_max Fl l i -> first_max Fl l j -> i = j.
Proof.
  intros Fl l i j (Li & Mi & Fi) (Lj & Mj & Fj).
  destruct (nth_error l i) as [a|] eqn:Ei; [|apply nth_error_None in Ei; lia].
  destruct (nth_error l j) as [b|] eqn:Ej; [|apply nth_error_None in Ej; lia].
  destruct (Nat.lt_trichotomy i j) as [H|[H|H]]; auto; exfalso.
  - specialize (Fj i a b H Ei eq_refl). specialize (Mi j b a Ej eq_refl). congruence.
  - specialize (Fi j b a H Ej eq_refl). specialize (Mj i a b Ei eq_refl). congruence.
Qed.

Section NanCalc.
Context (prec emax : Z) (Hp : Prec_gt_0 prec) (He : Prec_lt_emax prec emax) (L : libm (binary_float prec emax)) (p : Float.prec).
Local Notation B := (binary_float prec emax).
Local Notation Fl := (BOps prec emax Hp He L).
Local Notation C := (cplx B).
Context (HL : nan_in_nan_out L).
Local Notation tainted_l := (layer_tainted prec emax Hp He L).
Local Notation ruined_l := (layer_ruined prec emax Hp He L).
Local Notation snet := (smooth_net prec emax Hp He L).
Local Notation fits := (batch_fits prec emax Hp He L).
Local Notation batch := (batch_of prec emax).

Lemma snet_fine : forall ls w, snet ls w -> Forall (fine prec emax Hp He L) ls.
Proof. intros ls w (_ & _ & H). apply Forall_forall. intros l Hl. apply H, Hl. Qed.
Lemma snet_modz : forall ls w, snet ls w -> forall l, In l ls -> d_func l <> ModZ.
Proof. intros ls w (_ & _ & H) l Hl. apply smooth_modz. apply H, Hl. Qed.

Lemma forward_poison : forall ls w x, snet ls w -> length x = w ->
  exists y, net_forward Fl p (map LDense ls) (IOScalar x) = Ret (Ok (IOScalar y)) /\ length y = out_width Fl ls w /\
    (Exists tainted x \/ Exists tainted_l (removelast ls) -> Forall ruined y) /\ (Exists tainted_l ls -> Exists tainted y).
Proof.
  intros ls w x S X. pose proof S as (NE & W & H).
  destruct (dense_sweep Fl p ls w x W X (snet_modz ls w S)) as (vs & ys & T & N & Ly & _).
  exists ys. assert (NE' : map (@LDense Fl) ls <> []) by (destruct ls; [congruence|discriminate]).
  split; [|split; [exact Ly|]].
  - rewrite forward_fold by exact NE'. rewrite (fwd_fold _ _ _ _ _ T). cbn [obind]. do 2 f_equal. exact N.
  - destruct (net_nan prec emax Hp He L p HL ls w x vs ys W X (snet_fine ls w S) T N) as (N1 & N2 & N3). split.
    + intros [A|A]; [apply N2; assumption | apply N3; exact A].
    + intros A. apply N1. right. exact A.
Qed.

Lemma loss_poison : forall ls w pts f, snet ls w -> fits ls w pts ->
  Exists tainted_l ls \/ Exists (fun q => Exists tainted (fst q)) pts ->
  exists v, net_loss Fl p (map LDense ls) (batch pts) f = Ret (Ok v) /\ is_nan v = true.
Proof.
  intros ls w pts f S (NE & HP) HT.
  assert (G : exists preds vs, Forall2 (fun x y => net_forward Fl p (map LDense ls) x = Ret (Ok y)) (map (fun q => IOScalar (fst q)) pts) preds /\
     Forall2 (fun q v => loss Fl (fst q) (snd q) f = Ok v) (combine (map (fun q => IOScalar (snd q)) pts) preds) vs /\
     length vs = length pts /\ (pts <> [] -> Exists tainted_l ls \/ Exists (fun q => Exists tainted (fst q)) pts -> Exists (fun v : B => is_nan v = true) vs)).
  { clear NE HT. induction pts as [|(x & t) pts IH].
    - exists [], []. split; [constructor|]. split; [constructor|]. split; [reflexivity|]. congruence.
    - destruct IH as (preds & vs & F1 & F2 & F3 & F4); [intros x' t' H; apply HP; now right|].
      destruct (HP x t (or_introl eq_refl)) as (Lx & Lt). destruct (forward_poison ls w x S Lx) as (y & Ey & Ly & P1 & P2).
      assert (LV : exists v : B, loss Fl (IOScalar t) (IOScalar y) f = Ok v /\ (Exists tainted y -> is_nan v = true)).
      { destruct (loss Fl (IOScalar t) (IOScalar y) f) as [v|e] eqn:EV; [|destruct f; discriminate]. exists v. split; [reflexivity|]. intros T.
        destruct (loss_nan prec emax Hp He L HL f t y) as (v' & EV' & NV); [exact (Nat.le_trans _ _ _ (Nat.eq_le_incl _ _ Ly) Lt) | exact T |].
        apply (eq_trans (eq_sym EV)) in EV'. injection EV' as ->. exact NV. }
      destruct LV as (v & EV & NV). exists (IOScalar y :: preds), (v :: vs). cbn [map combine fst snd].
      split; [constructor; assumption|]. split; [constructor; assumption|]. split; [exact (f_equal Datatypes.S F3)|].
      intros _ [T|T]; [left; apply NV, P2, T|]. apply Exists_cons in T as [T|T].
      + left. apply NV. cbn [fst] in T. apply ruined_some; [apply P1; left; exact T|]. destruct S as (NE & W & H).
        assert (OW : 0 < out_width Fl ls w).
        { clear - NE H. unfold out_width. destruct (exists_last NE) as (a & b & ->). rewrite fold_left_app. cbn [fold_left].
          apply (H b). apply in_or_app. right. left. reflexivity. }
        exact (Nat.lt_le_trans _ _ _ OW (Nat.eq_le_incl _ _ (eq_sym Ly))).
      + right. apply F4; [intros ->; inversion T | right; exact T]. }
  destruct G as (preds & vs & F1 & F2 & F3 & F4). specialize (F4 NE HT). destruct vs as [|v vs]; [destruct pts; [congruence | discriminate]|].
  eexists. split.
  - eapply C57_mean; [exact F1 | unfold batch_of; cbn [ds_target ds_inputs]; now rewrite !map_length | exact F2].
  - cbn [fdiv BOps]. apply nan_div. left. apply fold_add_nan. apply Exists_cons in F4. exact F4.
Qed.

Lemma accuracy_poison : forall ls w pts its, snet ls w -> fits ls w pts ->
  Exists tainted_l (removelast ls) \/ Forall (fun q => Exists tainted (fst q)) pts ->
  Forall (fun q => Forall (fun z => is_nan (re z) = false /\ is_nan (im z) = false) (snd q)) pts ->
  Forall2 (first_max Fl) (map snd pts) its ->
  net_max_pred_test Fl p (map LDense ls) (batch pts) =
    Ret (fdiv Fl (fofnat Fl (count_occ Nat.eq_dec its 0)) (fofnat Fl (length pts))).
Proof.
  intros ls w pts its S (_ & HP) HT HN FM.
  assert (G : exists preds, Forall2 (predicts Fl p (map LDense ls)) (map (fun q => IOScalar (fst q)) pts) preds /\ length preds = length pts /\
     map (max_index Fl) preds = repeat 0 (length pts)).
  { clear HN FM. induction pts as [|(x & t) pts IH]; [exists []; repeat split; constructor|].
    destruct IH as (preds & F1 & F2 & F3); [intros x' t' H; apply HP; now right | destruct HT as [H|H]; [now left | right; now inversion H] |].
    destruct (HP x t (or_introl eq_refl)) as (Lx & Lt). destruct (forward_poison ls w x S Lx) as (y & Ey & Ly & P1 & _).
    exists (y :: preds). cbn [map length repeat fst]. split; [constructor; [exact Ey | exact F1]|]. split; [exact (f_equal Datatypes.S F2)|]. rewrite F3. f_equal.
    apply max_index_nan. assert (R : Forall ruined y). { apply P1. destruct HT as [H|H]; [now right | left; now inversion H]. }
    revert R. apply Forall_impl. intros z (Hz & _). now left. }
  destruct G as (preds & F1 & F2 & F3).
  assert (EM : map (max_index Fl) (map snd pts) = its).
  { clear - FM HN. revert its FM. induction pts as [|(x & t) pts IH]; intros its FM; inversion FM; subst; [reflexivity|].
    cbn [map snd] in *. inversion HN; subst. f_equal; [|apply IH; assumption]. apply (first_max_unique Fl t); [|assumption].
    apply C56_index_ieee; [|intros z Hz; eapply Forall_forall in Hz; [|eassumption]; exact Hz].
    match goal with H : first_max _ t _ |- _ => destruct H as (Q & _); intros ->; inversion Q end. }
  assert (EE := C56_accuracy Fl p (map LDense ls) (batch pts) preds (map snd pts)).
  assert (ET : ds_target (batch pts) = map (@IOScalar _) (map snd pts)) by (unfold batch_of; cbn [ds_target]; now rewrite map_map).
  rewrite EE; [|exact F1 | exact ET | rewrite map_length; symmetry; exact F2].
  rewrite EM, F3, map_length. do 3 f_equal.
  assert (LI : length its = length pts) by (rewrite <- EM, !map_length; reflexivity).
  clear - LI. revert its LI. induction pts as [|q pts IH]; intros [|i its] LI; try discriminate; [reflexivity|].
  cbn [length repeat agreements count_occ]. cbn [length] in LI. rewrite (IH its) by lia. destruct i; cbn; reflexivity.
Qed.

Lemma smooth_after : forall (ls ls' : list (dense Fl)) w, snet ls w -> widths_fit Fl ls' w ->
  map d_func ls' = map d_func ls -> map (units Fl) ls' = map (units Fl) ls -> snet ls' w.
Proof.
  intros ls ls' w (NE & _ & H) W F U. split; [destruct ls'; [destruct ls; [congruence | discriminate] | discriminate]|]. split; [exact W|].
  clear NE W. revert ls' F U. induction ls as [|l ls IH]; intros [|l' ls'] F U q Hq; try discriminate; [inversion Hq|].
  cbn [map] in F, U. destruct Hq as [<-|Hq].
  - destruct (H l (or_introl eq_refl)) as (H1 & H2). split; [replace (d_func l') with (d_func l) by congruence; exact H1|].
    replace (units Fl l') with (units Fl l) by congruence. exact H2.
  - apply (IH (fun q Hq => H q (or_intror Hq)) ls'); [congruence | congruence | exact Hq].
Qed.

Lemma out_after : forall (ls ls' : list (dense Fl)) w, map (units Fl) ls' = map (units Fl) ls -> out_width Fl ls' w = out_width Fl ls w.
Proof.
  intros ls ls' w. unfold out_width. revert ls' w. induction ls as [|l ls IH]; intros [|l' ls'] w U; try discriminate; [reflexivity|].
  cbn [map fold_left] in *. replace (units Fl l') with (units Fl l) by congruence. apply IH. congruence.
Qed.

Lemma step_poison : forall ls w pts f lr n r, snet ls w -> fits ls w pts ->
  net_gradient_opt Fl p (map LDense ls) (batch pts) f lr = Ret (n, r) -> 2 <= length ls ->
  exists ls', n = map LDense ls' /\ r = Ok tt /\ snet ls' w /\ length ls' = length ls /\ out_width Fl ls' w = out_width Fl ls w /\
    (Exists tainted_l (removelast ls) \/ Exists (fun q => Exists tainted (fst q)) pts -> Forall ruined_l ls') /\
    (Exists tainted_l ls \/ Exists (fun q => Exists tainted (firstn (out_width Fl ls w) (snd q))) pts -> Forall ruined_l (removelast ls')).
Proof.
  intros ls w pts f lr n r S (NE & HP) E L2.
  assert (W : widths_fit Fl ls w) by (destruct S as (_ & W & _); exact W).
  assert (NM := snet_modz ls w S). assert (FI := snet_fine ls w S).
  (* what any step does *)
  assert (BASE : exists ls', n = map LDense ls' /\ r = Ok tt /\ widths_fit Fl ls' w /\ map d_func ls' = map d_func ls /\ map (units Fl) ls' = map (units Fl) ls).
  { destruct (step_nan prec emax Hp He L p HL ls w pts f lr 0 n r W FI (Nat.le_0_l _) HP (or_introl eq_refl) L2 E) as (ls' & A1 & A2 & A3 & A4 & A5 & _). exists ls'. auto. }
  destruct BASE as (ls' & -> & -> & W' & F1 & F2).
  assert (LL : length ls' = length ls) by (apply (f_equal (@length nat)) in F2; now rewrite !map_length in F2).
  exists ls'. split; [reflexivity|]. split; [reflexivity|]. split; [exact (smooth_after ls ls' w S W' F1 F2)|]. split; [exact LL|]. split; [exact (out_after ls ls' w F2)|].
  assert (INJ : forall a b : list (dense Fl), map (@LDense Fl) a = map LDense b -> a = b).
  { clear. induction a as [|x a IH]; intros [|y b] H; try discriminate; [reflexivity|]. cbn [map] in H. injection H as -> H. now rewrite (IH b H). }
  assert (HIT : forall k, k <= length ls -> (exists x t, In (x, t) pts /\ hit prec emax Hp He L ls w k x t) ->
     forall j l, j < k -> nth_error ls' j = Some l -> ruined_l l).
  { intros k Hk HX j l Hj Hl. destruct (step_nan prec emax Hp He L p HL ls w pts f lr k _ _ W FI Hk HP (or_intror HX) L2 E) as (ls2 & A1 & _ & _ & _ & _ & A6).
    apply INJ in A1. subst ls2. exact (A6 j l Hj Hl). }
  assert (PT : exists x t, In (x, t) pts) by (destruct pts as [|(x & t) pts]; [congruence | exists x, t; now left]).
  split; intros H.
  - apply Forall_forall. intros l Hl. apply In_nth_error in Hl as (j & Hj).
    apply (HIT (length ls) (Nat.le_refl _)) with (j := j); [|rewrite <- LL; apply nth_error_Some; rewrite Hj; discriminate|exact Hj].
    destruct H as [H|H].
    + destruct PT as (x & t & IN). exists x, t. split; [exact IN|]. right. split; [reflexivity|]. left. exact H.
    + apply Exists_exists in H as ((x & t) & IN & H). exists x, t. split; [exact IN|]. right. split; [reflexivity|]. right. exact H.
  - apply Forall_forall. intros l Hl. apply In_nth_error in Hl as (j & Hj).
    assert (RL : nth_error ls' j = Some l /\ j < length ls - 1).
    { rewrite <- LL. clear - Hj. revert j Hj. induction ls' as [|a ls' IH]; intros j Hj; [destruct j; discriminate|].
      destruct ls' as [|b ls']; [destruct j; discriminate|]. change (removelast (a :: b :: ls')) with (a :: removelast (b :: ls')) in Hj.
      destruct j as [|j]; cbn [nth_error] in Hj |- *; [split; [exact Hj | cbn; lia]|]. apply IH in Hj as (H1 & H2). split; [exact H1 | cbn [length] in H2 |- *; lia]. }
    destruct RL as (Hj' & LJ).
    apply (HIT (length ls - 1)) with (j := j); [lia | | exact LJ | exact Hj'].
    destruct H as [H|H].
    + destruct PT as (x & t & IN). exists x, t. split; [exact IN|]. left. split; [reflexivity|]. left. exact H.
    + apply Exists_exists in H as ((x & t) & IN & H). exists x, t. split; [exact IN|]. left. split; [reflexivity|]. right. exact H.
Qed.

Lemma dense_net_values : forall ls : list (dense Fl), net_values Fl (map LDense ls) = concat (map (dense_numbers prec emax Hp He L) ls).
Proof. intros ls. unfold net_values. rewrite map_map. reflexivity. Qed.

Lemma ruined_values : forall ls, Forall ruined_l ls -> Forall ruined (net_values Fl (map LDense ls)).
Proof. intros ls H. rewrite dense_net_values. apply Forall_concat. apply Forall_map. exact H. Qed.

Lemma forever : forall n n', trained Fl p n n' ->
  Forall2 (fun z z' : C => (is_nan (re z) = true -> is_nan (re z') = true) /\ (is_nan (im z) = true -> is_nan (im z') = true)) (net_values Fl n) (net_values Fl n').
Proof.
  intros n n' T. apply (trained_keep Fl p (fun z z' : C => (is_nan (re z) = true -> is_nan (re z') = true) /\ (is_nan (im z) = true -> is_nan (im z') = true))); auto.
  - intros a b. unfold sub_conj, c_sub_assign. cbn [re im fsub BOps]. split; intros H; apply nan_minus; left; exact H.
  - intros a b c (H1 & H2) (H3 & H4). auto.
Qed.

Lemma two_steps : forall ls w pts pts' f f' lr lr' n n' r r', snet ls w -> 2 <= length ls -> fits ls w pts -> fits ls w pts' ->
  Exists tainted_l ls \/ Exists (fun q => Exists tainted (fst q) \/ Exists tainted (firstn (out_width Fl ls w) (snd q))) pts ->
  net_gradient_opt Fl p (map LDense ls) (batch pts) f lr = Ret (n, r) ->
  net_gradient_opt Fl p n (batch pts') f' lr' = Ret (n', r') -> Forall ruined (net_values Fl n').
Proof.
  intros ls w pts pts' f f' lr lr' n n' r r' S L2 F1 F2 H E1 E2.
  destruct (step_poison ls w pts f lr n r S F1 E1 L2) as (ls1 & -> & -> & S1 & LL & OW & A1 & A2).
  assert (F2' : fits ls1 w pts') by (destruct F2 as (NE & F2); split; [exact NE | rewrite OW; exact F2]).
  assert (L2' : 2 <= length ls1) by (rewrite LL; exact L2).
  destruct (step_poison ls1 w pts' f' lr' n' r' S1 F2' E2 L2') as (ls2 & -> & -> & S2 & _ & _ & A3 & _).
  apply ruined_values. apply A3. left.
  assert (R1 : Forall ruined_l (removelast ls1)).
  { assert (H' : Exists (fun q => Exists tainted (fst q)) pts \/ (Exists tainted_l ls \/ Exists (fun q => Exists tainted (firstn (out_width Fl ls w) (snd q))) pts)).
    { destruct H as [H|H]; [right; left; exact H|]. apply Exists_exists in H as (q & IN & [H|H]); [left | right; right]; apply Exists_exists; exists q; auto. }
    destruct H' as [H'|H']; [|apply A2, H'].
    assert (R : Forall ruined_l ls1) by (apply A1; right; exact H').
    clear - R. induction R as [|a l Ha R IH]; [constructor|]. destruct l as [|b l]; [constructor|]. change (removelast (a :: b :: l)) with (a :: removelast (b :: l)). constructor; auto. }
  destruct ls1 as [|a [|b ls1]]; [inversion L2' | exfalso; clear - L2'; cbn in L2'; lia|].
  change (removelast (a :: b :: ls1)) with (a :: removelast (b :: ls1)) in R1 |- *. inversion R1 as [|? ? Ra _]; subst. left.
  destruct S1 as (_ & ((Wa & Wb & _) & _) & HS). destruct (HS a (or_introl eq_refl)) as (_ & U).
  unfold layer_tainted. unfold layer_ruined in Ra. apply ruined_some; [exact Ra|].
  unfold dense_numbers. rewrite app_length. unfold units in U. apply (Nat.lt_le_trans _ (length (d_biases a))); [rewrite Wb; exact U|]. apply Nat.le_add_l.
Qed.

End NanCalc.
