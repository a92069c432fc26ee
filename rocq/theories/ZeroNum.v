(** * Inputs that are always zero: exact and IEEE arithmetic *)
From Coq Require Import ZArith Reals Lra.
From Flocq Require Import Core BinarySingleNaN.
From Verif Require Import Base BaseFacts Float Matrix Cplx Act Input Loss Dense Conv Layer Dataset Network RFloat BFloat CFacts SpecMatrix MatrixFacts
  SpecLayer SpecConv SpecNet SpecGeom SpecNan NanFacts DeadFacts SpecDead DeadNum SpecZero ZeroFacts.
Local Open Scope nat_scope.
Local Notation re := Cplx.re. Local Notation im := Cplx.im.

Section Exact.
Context (p : Float.prec).
Local Notation z := (c_default ROps).
Lemma nil_exact : forall c : RC, c = z -> nilc ROps (fun x => x = 0%R) c.
Proof. intros c ->. split; exact rx0. Qed.

Theorem exact_feature_step : forall n data f lr n' r k (l : dense ROps) j, nth_error n k = Some (LDense l) -> dense_wf ROps l -> j < inputs ROps l ->
  (forall x v, In x (ds_inputs data) -> arrives ROps p n k x (IOScalar v) -> nth j v z = z) ->
  net_gradient_opt ROps p n data f lr = Ret (n', Ok r) ->
  exists l', nth_error n' k = Some (LDense l') /\ feature_weights ROps l' j = feature_weights ROps l j.
Proof.
  intros n data f lr n' r k l j K W Hj O E.
  destruct (feature_step ROps p (fun x => x = 0%R) eq rx0 rxadd rxsub rxneg rxmul rxkeep n data f lr n' r k l j K W Hj
    (fun x v Hx A => nil_exact _ (O x v Hx A)) E) as (l' & K' & _ & H).
  exists l'. split; [exact K' | now apply exact_eq].
Qed.

Theorem exact_channel_step : forall n g g' data f lr n' r k a b (l : conv ROps) ch, fit_all ROps n g g' -> Forall (trainable ROps) n -> batch_for ROps g g' data ->
  nth_error n k = Some (LConv l) -> conv_wf ROps a b l -> ch < channels ROps l ->
  (forall x ms i j, In x (ds_inputs data) -> arrives ROps p n k x (IOMatrix ms) ->
     i < sh0 (nth ch ms m_new) -> j < sh1 (nth ch ms m_new) -> px z ms ch i j = z) ->
  net_gradient_opt ROps p n data f lr = Ret (n', Ok r) ->
  exists l', nth_error n' k = Some (LConv l') /\ channel_kernels ROps a b l' ch = channel_kernels ROps a b l ch.
Proof.
  intros n g g' data f lr n' r k a b l ch FA TR BF K W Hc O E.
  destruct (channel_step ROps p (fun x => x = 0%R) eq rx0 rxadd rxsub rxneg rxmul rxkeep n g g' data f lr n' r k a b l ch FA TR BF K W Hc
    (fun x ms i j Hx A Hi Hj => nil_exact _ (O x ms i j Hx A Hi Hj)) E) as (l' & K' & _ & H).
  exists l'. split; [exact K' | now apply exact_eq].
Qed.

Theorem exact_feature_forever : forall steps n n' k (l : dense ROps) j, nth_error n k = Some (LDense l) -> dense_wf ROps l -> j < inputs ROps l ->
  Forall (unweighted ROps) (firstn k n) ->
  (forall d f lr x v, In (d, f, lr) steps -> In x (ds_inputs d) -> arrives ROps p n k x (IOScalar v) -> nth j v z = z) ->
  train_steps ROps p n steps = Ret n' ->
  exists l', nth_error n' k = Some (LDense l') /\ feature_weights ROps l' j = feature_weights ROps l j.
Proof.
  intros steps n n' k l j K W Hj U H E.
  destruct (feature_forever ROps p (fun x => x = 0%R) eq rx0 rxadd rxsub rxneg rxmul rxkeep (@eq_refl R) (@eq_trans R) steps n n' k l j K W Hj U
    (fun d f lr x v Hs Hx A => nil_exact _ (H d f lr x v Hs Hx A)) E) as (l' & K' & _ & S).
  exists l'. split; [exact K' | now apply exact_eq].
Qed.

Theorem exact_channel_forever : forall steps n n' g g' k a b (l : conv ROps) ch, fit_all ROps n g g' -> Forall (trainable ROps) n ->
  (forall d f lr, In (d, f, lr) steps -> batch_for ROps g g' d) ->
  nth_error n k = Some (LConv l) -> conv_wf ROps a b l -> ch < channels ROps l -> Forall (unweighted ROps) (firstn k n) ->
  (forall d f lr x ms i j, In (d, f, lr) steps -> In x (ds_inputs d) -> arrives ROps p n k x (IOMatrix ms) ->
     i < sh0 (nth ch ms m_new) -> j < sh1 (nth ch ms m_new) -> px z ms ch i j = z) ->
  train_steps ROps p n steps = Ret n' ->
  exists l', nth_error n' k = Some (LConv l') /\ channel_kernels ROps a b l' ch = channel_kernels ROps a b l ch.
Proof.
  intros steps n n' g g' k a b l ch FA TR BF K W Hc U H E.
  destruct (channel_forever ROps p (fun x => x = 0%R) eq rx0 rxadd rxsub rxneg rxmul rxkeep (@eq_refl R) (@eq_trans R) steps n n' g g' k a b l ch FA TR BF K W Hc U
    (fun d f lr x ms i j Hs Hx A Hi Hj => nil_exact _ (H d f lr x ms i j Hs Hx A Hi Hj)) E) as (l' & K' & _ & S).
  exists l'. split; [exact K' | now apply exact_eq].
Qed.
End Exact.

Section IEEE.
Context (prec emax : Z) (Hp : Prec_gt_0 prec) (He : Prec_lt_emax prec emax) (L : libm (binary_float prec emax)) (p : Float.prec).
Local Notation B := (binary_float prec emax).
Local Notation Fl := (BOps prec emax Hp He L).
Local Notation z := (c_default Fl).
Local Notation nilb := (nilb prec emax).
Local Notation keptb := (keptb prec emax).

Lemma nil_ieee : forall c : cplx B, csame c z -> nilc Fl nilb c.
Proof.
  assert (G : forall x : B, same_number x (fzero Fl) -> nilb x).
  { intros x [->|(s & t & -> & _)]; right; eexists; reflexivity. }
  intros c (H1 & H2). split; apply G; assumption.
Qed.
Lemma kbrefl : forall a : B, keptb a a. Proof. intros a. left. now left. Qed.
Lemma kbtrans : forall a b c : B, keptb a b -> keptb b c -> keptb a c.
Proof.
  intros a b c [H|H] [K|K]; try (right; exact K); [left; eapply bstrans; eauto|]. right. destruct K as [<-|(s & t & -> & _)]; [exact H | discriminate].
Qed.

Theorem ieee_feature_forever : forall steps n n' k (l : dense Fl) j, nth_error n k = Some (LDense l) -> dense_wf Fl l -> j < inputs Fl l ->
  Forall (unweighted Fl) (firstn k n) ->
  (forall d f lr x v, In (d, f, lr) steps -> In x (ds_inputs d) -> arrives Fl p n k x (IOScalar v) -> csame (nth j v z) z) ->
  train_steps Fl p n steps = Ret n' ->
  exists l', nth_error n' k = Some (LDense l') /\ Forall2 same_or_nan (feature_weights Fl l j) (feature_weights Fl l' j).
Proof.
  intros steps n n' k l j K W Hj U H E.
  destruct (feature_forever Fl p nilb keptb (bx0 prec emax Hp He L) (bxadd prec emax Hp He L) (bxsub prec emax Hp He L) (bxneg prec emax Hp He L)
    (bxmul prec emax Hp He L) (bxkeep prec emax Hp He L) kbrefl kbtrans steps n n' k l j K W Hj U
    (fun d f lr x v Hs Hx A => nil_ieee _ (H d f lr x v Hs Hx A)) E) as (l' & K' & _ & S).
  exists l'. split; [exact K' | now apply (ieee_step_all prec emax Hp He L)].
Qed.

Theorem ieee_feature_step : forall n data f lr n' r k (l : dense Fl) j, nth_error n k = Some (LDense l) -> dense_wf Fl l -> j < inputs Fl l ->
  (forall x v, In x (ds_inputs data) -> arrives Fl p n k x (IOScalar v) -> csame (nth j v z) z) ->
  net_gradient_opt Fl p n data f lr = Ret (n', Ok r) ->
  exists l', nth_error n' k = Some (LDense l') /\ Forall2 same_or_nan (feature_weights Fl l j) (feature_weights Fl l' j).
Proof.
  intros n data f lr n' r k l j K W Hj O E.
  destruct (feature_step Fl p nilb keptb (bx0 prec emax Hp He L) (bxadd prec emax Hp He L) (bxsub prec emax Hp He L) (bxneg prec emax Hp He L)
    (bxmul prec emax Hp He L) (bxkeep prec emax Hp He L) n data f lr n' r k l j K W Hj (fun x v Hx A => nil_ieee _ (O x v Hx A)) E) as (l' & K' & _ & H).
  exists l'. split; [exact K' | now apply (ieee_step_all prec emax Hp He L)].
Qed.

Theorem ieee_channel_step : forall n g g' data f lr n' r k a b (l : conv Fl) ch, fit_all Fl n g g' -> Forall (trainable Fl) n -> batch_for Fl g g' data ->
  nth_error n k = Some (LConv l) -> conv_wf Fl a b l -> ch < channels Fl l ->
  (forall x ms i j, In x (ds_inputs data) -> arrives Fl p n k x (IOMatrix ms) ->
     i < sh0 (nth ch ms m_new) -> j < sh1 (nth ch ms m_new) -> csame (px z ms ch i j) z) ->
  net_gradient_opt Fl p n data f lr = Ret (n', Ok r) ->
  exists l', nth_error n' k = Some (LConv l') /\ Forall2 same_or_nan (channel_kernels Fl a b l ch) (channel_kernels Fl a b l' ch).
Proof.
  intros n g g' data f lr n' r k a b l ch FA TR BF K W Hc O E.
  destruct (channel_step Fl p nilb keptb (bx0 prec emax Hp He L) (bxadd prec emax Hp He L) (bxsub prec emax Hp He L) (bxneg prec emax Hp He L)
    (bxmul prec emax Hp He L) (bxkeep prec emax Hp He L) n g g' data f lr n' r k a b l ch FA TR BF K W Hc
    (fun x ms i j Hx A Hi Hj => nil_ieee _ (O x ms i j Hx A Hi Hj)) E) as (l' & K' & _ & H).
  exists l'. split; [exact K' | now apply (ieee_step_all prec emax Hp He L)].
Qed.

Theorem ieee_channel_forever : forall steps n n' g g' k a b (l : conv Fl) ch, fit_all Fl n g g' -> Forall (trainable Fl) n ->
  (forall d f lr, In (d, f, lr) steps -> batch_for Fl g g' d) ->
  nth_error n k = Some (LConv l) -> conv_wf Fl a b l -> ch < channels Fl l -> Forall (unweighted Fl) (firstn k n) ->
  (forall d f lr x ms i j, In (d, f, lr) steps -> In x (ds_inputs d) -> arrives Fl p n k x (IOMatrix ms) ->
     i < sh0 (nth ch ms m_new) -> j < sh1 (nth ch ms m_new) -> csame (px z ms ch i j) z) ->
  train_steps Fl p n steps = Ret n' ->
  exists l', nth_error n' k = Some (LConv l') /\ Forall2 same_or_nan (channel_kernels Fl a b l ch) (channel_kernels Fl a b l' ch).
Proof.
  intros steps n n' g g' k a b l ch FA TR BF K W Hc U H E.
  destruct (channel_forever Fl p nilb keptb (bx0 prec emax Hp He L) (bxadd prec emax Hp He L) (bxsub prec emax Hp He L) (bxneg prec emax Hp He L)
    (bxmul prec emax Hp He L) (bxkeep prec emax Hp He L) kbrefl kbtrans steps n n' g g' k a b l ch FA TR BF K W Hc U
    (fun d f lr x ms i j Hs Hx A Hi Hj => nil_ieee _ (H d f lr x ms i j Hs Hx A Hi Hj)) E) as (l' & K' & _ & S).
  exists l'. split; [exact K' | now apply (ieee_step_all prec emax Hp He L)].
Qed.
End IEEE.
