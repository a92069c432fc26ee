(** * Property C87: what belongs to an input that is always zero is never trained *)
From Coq Require Import ZArith Reals Lra.
From Flocq Require Import Core BinarySingleNaN.
From Verif Require Import Base BaseFacts Float Matrix Cplx Act Input Loss Dense Conv Layer Dataset Network RFloat BFloat SpecMatrix
  SpecLayer SpecConv SpecNet SpecGeom SpecNan SpecDead SpecZero GeomFacts PropGeom PropNan PropDead ZeroNum.
Local Open Scope nat_scope.
Local Notation re := Cplx.re. Local Notation im := Cplx.im.

(** Exact arithmetic: if input [j] of a dense layer, at any position, is zero
    for every point of the batch, a step leaves the weights of that input. *)
Theorem C87_feature : forall p n data f lr n' r k (l : dense ROps) j, nth_error n k = Some (LDense l) -> dense_wf ROps l -> j < inputs ROps l ->
  (forall x v, In x (ds_inputs data) -> arrives ROps p n k x (IOScalar v) -> nth j v (c_default ROps) = c_default ROps) ->
  net_gradient_opt ROps p n data f lr = Ret (n', Ok r) ->
  exists l', nth_error n' k = Some (LDense l') /\ feature_weights ROps l' j = feature_weights ROps l j.
Proof. exact exact_feature_step. Qed.
Print Assumptions C87_feature.

(** The same for the kernels of a channel of a convolutional layer. *)
Theorem C87_channel : forall p n g g' data f lr n' r k a b (l : conv ROps) ch,
  fit_all ROps n g g' -> Forall (trainable ROps) n -> batch_for ROps g g' data ->
  nth_error n k = Some (LConv l) -> conv_wf ROps a b l -> ch < channels ROps l ->
  (forall x ms i j, In x (ds_inputs data) -> arrives ROps p n k x (IOMatrix ms) ->
     i < sh0 (nth ch ms m_new) -> j < sh1 (nth ch ms m_new) -> px (c_default ROps) ms ch i j = c_default ROps) ->
  net_gradient_opt ROps p n data f lr = Ret (n', Ok r) ->
  exists l', nth_error n' k = Some (LConv l') /\ channel_kernels ROps a b l' ch = channel_kernels ROps a b l ch.
Proof. exact exact_channel_step. Qed.
Print Assumptions C87_channel.

(** Whole training runs, for the first layer with weights: inputs that are zero
    in all the data keep their initial weights. *)
Theorem C87_feature_forever : forall p steps n n' k (l : dense ROps) j, nth_error n k = Some (LDense l) -> dense_wf ROps l -> j < inputs ROps l ->
  Forall (unweighted ROps) (firstn k n) ->
  (forall d f lr x v, In (d, f, lr) steps -> In x (ds_inputs d) -> arrives ROps p n k x (IOScalar v) -> nth j v (c_default ROps) = c_default ROps) ->
  train_steps ROps p n steps = Ret n' ->
  exists l', nth_error n' k = Some (LDense l') /\ feature_weights ROps l' j = feature_weights ROps l j.
Proof. exact exact_feature_forever. Qed.
Print Assumptions C87_feature_forever.

Theorem C87_channel_forever : forall p steps n n' g g' k a b (l : conv ROps) ch, fit_all ROps n g g' -> Forall (trainable ROps) n ->
  (forall d f lr, In (d, f, lr) steps -> batch_for ROps g g' d) ->
  nth_error n k = Some (LConv l) -> conv_wf ROps a b l -> ch < channels ROps l -> Forall (unweighted ROps) (firstn k n) ->
  (forall d f lr x ms i j, In (d, f, lr) steps -> In x (ds_inputs d) -> arrives ROps p n k x (IOMatrix ms) ->
     i < sh0 (nth ch ms m_new) -> j < sh1 (nth ch ms m_new) -> px (c_default ROps) ms ch i j = c_default ROps) ->
  train_steps ROps p n steps = Ret n' ->
  exists l', nth_error n' k = Some (LConv l') /\ channel_kernels ROps a b l' ch = channel_kernels ROps a b l ch.
Proof. exact exact_channel_forever. Qed.
Print Assumptions C87_channel_forever.

(** IEEE arithmetic of any precision, with zeros of either sign: each part of
    each of these weights keeps its number or becomes NaN. *)
Theorem C87_ieee_feature : forall prec emax Hp He L p n data f lr n' r k (l : dense (BOps prec emax Hp He L)) j,
  let Fl := BOps prec emax Hp He L in
  nth_error n k = Some (LDense l) -> dense_wf Fl l -> j < inputs Fl l ->
  (forall x v, In x (ds_inputs data) -> arrives Fl p n k x (IOScalar v) -> csame (nth j v (c_default Fl)) (c_default Fl)) ->
  net_gradient_opt Fl p n data f lr = Ret (n', Ok r) ->
  exists l', nth_error n' k = Some (LDense l') /\ Forall2 same_or_nan (feature_weights Fl l j) (feature_weights Fl l' j).
Proof. exact ieee_feature_step. Qed.
Print Assumptions C87_ieee_feature.

Theorem C87_ieee_channel : forall prec emax Hp He L p n g g' data f lr n' r k a b (l : conv (BOps prec emax Hp He L)) ch,
  let Fl := BOps prec emax Hp He L in
  fit_all Fl n g g' -> Forall (trainable Fl) n -> batch_for Fl g g' data ->
  nth_error n k = Some (LConv l) -> conv_wf Fl a b l -> ch < channels Fl l ->
  (forall x ms i j, In x (ds_inputs data) -> arrives Fl p n k x (IOMatrix ms) ->
     i < sh0 (nth ch ms m_new) -> j < sh1 (nth ch ms m_new) -> csame (px (c_default Fl) ms ch i j) (c_default Fl)) ->
  net_gradient_opt Fl p n data f lr = Ret (n', Ok r) ->
  exists l', nth_error n' k = Some (LConv l') /\ Forall2 same_or_nan (channel_kernels Fl a b l ch) (channel_kernels Fl a b l' ch).
Proof. exact ieee_channel_step. Qed.
Print Assumptions C87_ieee_channel.

Theorem C87_ieee_feature_forever : forall prec emax Hp He L p steps n n' k (l : dense (BOps prec emax Hp He L)) j,
  let Fl := BOps prec emax Hp He L in
  nth_error n k = Some (LDense l) -> dense_wf Fl l -> j < inputs Fl l -> Forall (unweighted Fl) (firstn k n) ->
  (forall d f lr x v, In (d, f, lr) steps -> In x (ds_inputs d) -> arrives Fl p n k x (IOScalar v) -> csame (nth j v (c_default Fl)) (c_default Fl)) ->
  train_steps Fl p n steps = Ret n' ->
  exists l', nth_error n' k = Some (LDense l') /\ Forall2 same_or_nan (feature_weights Fl l j) (feature_weights Fl l' j).
Proof. exact ieee_feature_forever. Qed.
Print Assumptions C87_ieee_feature_forever.

Theorem C87_ieee_channel_forever : forall prec emax Hp He L p steps n n' g g' k a b (l : conv (BOps prec emax Hp He L)) ch,
  let Fl := BOps prec emax Hp He L in
  fit_all Fl n g g' -> Forall (trainable Fl) n -> (forall d f lr, In (d, f, lr) steps -> batch_for Fl g g' d) ->
  nth_error n k = Some (LConv l) -> conv_wf Fl a b l -> ch < channels Fl l -> Forall (unweighted Fl) (firstn k n) ->
  (forall d f lr x ms i j, In (d, f, lr) steps -> In x (ds_inputs d) -> arrives Fl p n k x (IOMatrix ms) ->
     i < sh0 (nth ch ms m_new) -> j < sh1 (nth ch ms m_new) -> csame (px (c_default Fl) ms ch i j) (c_default Fl)) ->
  train_steps Fl p n steps = Ret n' ->
  exists l', nth_error n' k = Some (LConv l') /\ Forall2 same_or_nan (channel_kernels Fl a b l ch) (channel_kernels Fl a b l' ch).
Proof. exact ieee_channel_forever. Qed.
Print Assumptions C87_ieee_channel_forever.

(** ** Cases that meet the hypotheses *)
Section Ex.
Context (Fl : FloatOps).
Local Notation C := (cplx (F Fl)).
Local Notation o := (mkC (fzero Fl) (fzero Fl)).
Local Notation one := (mkC (fone Fl) (fzero Fl)).
(** A 1 x 2 image whose first pixel is always black. *)
Definition black_layer (b : C) : dense Fl := mkDense Fl (from_body [one; one] 1 2) [b] ActNone.
Definition black_net (b : C) : network Fl := [LFlatten (flat_init 1 2 1); LDense (black_layer b)].
Definition black_data (t : C) : dataset C C := mkData [IOMatrix [from_body [o; one] 1 2]] [IOScalar [t]].
(** Two channels of which the second is black. *)
Definition black_conv : conv Fl := mkConv Fl 2 (from_body [from_body [one] 1 1; from_body [one] 1 1] 1 2) [o] ActNone.
Definition black_cnet (b : C) : network Fl := [LConv black_conv; LFlatten (flat_init 1 2 1); LDense (black_layer b)].
Definition black_images (t : C) : dataset C C := mkData [IOMatrix [from_body [one; one] 1 2; from_body [o; o] 1 2]] [IOScalar [t]].

Lemma black_meets : forall p f lr b t s, c_div Fl lr (c_of_nat Fl 1) = Ret s ->
  nth_error (black_net b) 1 = Some (LDense (black_layer b)) /\ dense_wf Fl (black_layer b) /\ 0 < inputs Fl (black_layer b) /\
  Forall (unweighted Fl) (firstn 1 (black_net b)) /\
  (forall x v, In x (ds_inputs (black_data t)) -> arrives Fl p (black_net b) 1 x (IOScalar v) -> nth 0 v (c_default Fl) = o) /\
  (exists n', train_steps Fl p (black_net b) [(black_data t, f, lr); (black_data t, f, lr)] = Ret n') /\
  fit_all Fl (black_cnet b) (Maps 2 1 2) (Vec 1) /\ Forall (trainable Fl) (black_cnet b) /\ batch_for Fl (Maps 2 1 2) (Vec 1) (black_images t) /\
  conv_wf Fl 1 1 black_conv /\ 1 < channels Fl black_conv /\
  (forall x ms i j, In x (ds_inputs (black_images t)) -> arrives Fl p (black_cnet b) 0 x (IOMatrix ms) ->
     i < sh0 (nth 1 ms m_new) -> j < sh1 (nth 1 ms m_new) -> px (c_default Fl) ms 1 i j = o) /\
  exists n', train_steps Fl p (black_cnet b) [(black_images t, f, lr); (black_images t, f, lr)] = Ret n'.
Proof.
  intros p f lr b t s D.
  assert (T : forall n g g' d, 2 <= length n -> fit_all Fl n g g' -> Forall (trainable Fl) n -> batch_for Fl g g' d -> length (ds_inputs d) = 1 ->
    exists n', train_steps Fl p n [(d, f, lr); (d, f, lr)] = Ret n').
  { intros n g g' d L FA TR BF E. rewrite <- E in D.
    destruct (training_total Fl p n g g' d f lr s L FA TR BF D) as (n1 & E1 & FA1 & TR1 & L1).
    destruct (training_total Fl p n1 g g' d f lr s ltac:(lia) FA1 TR1 BF D) as (n2 & E2 & _).
    exists n2. cbn [train_steps]. rewrite E1. cbn [obind fst snd]. rewrite E2. reflexivity. }
  assert (W1 : dense_wf Fl (black_layer b)) by (repeat split; discriminate).
  assert (WC : conv_wf Fl 1 1 black_conv).
  { repeat (split; [cbn; lia || reflexivity|]). intros m [<-|[<-|[]]]; repeat split. }
  assert (FD : fit_all Fl (black_net b) (Maps 1 1 2) (Vec 1)).
  { apply fit_cons with (Vec (1 * (1 * 2))); [apply fits_flatten|].
    apply fit_cons with (Vec 1); [|apply fit_nil]. apply (fits_dense Fl (black_layer b)); [exact W1 | discriminate]. }
  assert (FC : fit_all Fl (black_cnet b) (Maps 2 1 2) (Vec 1)).
  { apply fit_cons with (Maps 1 1 2); [|exact FD]. apply (fits_conv Fl black_conv 1 1 1 2); [exact WC | discriminate | lia | lia]. }
  assert (BC : batch_for Fl (Maps 2 1 2) (Vec 1) (black_images t)).
  { split; [reflexivity|]. split; intros x [<-|[]]; [|apply le_n]. split; [reflexivity|]. intros m [<-|[<-|[]]]; repeat split. }
  split; [reflexivity|]. split; [exact W1|]. split; [apply Nat.lt_0_succ|]. split; [repeat constructor|]. split; [|split].
  - intros x v [<-|[]] (vs & TR & LS). cbn [firstn black_net] in TR. inversion TR as [|? ? ? y ws E1 T1]; subst. inversion T1; subst.
    cbn in E1. cbn [last] in LS. subst y. injection E1 as <-. reflexivity.
  - apply (T _ (Maps 1 1 2) (Vec 1)); [apply le_n | exact FD | repeat constructor | | reflexivity].
    split; [reflexivity|]. split; intros x [<-|[]]; [|apply le_n]. split; [reflexivity|]. intros m [<-|[]]; repeat split.
  - split; [exact FC|]. split; [repeat constructor|]. split; [exact BC|]. split; [exact WC|]. split; [apply le_n|]. split.
    + intros x ms i j [<-|[]] (vs & TR & LS). cbn [firstn] in TR. inversion TR; subst. cbn [last] in LS. injection LS as <-. cbn. intros Hi Hj.
      destruct i as [|i]; [|lia]. destruct j as [|[|j]]; [reflexivity | reflexivity | lia].
    + apply (T _ (Maps 2 1 2) (Vec 1)); auto; [cbn; lia | repeat constructor].
Qed.
End Ex.

Example C87_ex : (exists s, c_div ROps (mkC 1 0)%R (c_of_nat ROps 1) = Ret s) /\ (exists s, c_div (B32Ops nan_libm) m32 (c_of_nat (B32Ops nan_libm) 1) = Ret s) /\
  csame (mkC (fzero (B32Ops nan_libm)) (fzero (B32Ops nan_libm))) (c_default (B32Ops nan_libm)).
Proof.
  split; [|split]. - destruct (C62_rate 1) as (H & _); [discriminate | apply H]. - destruct (C62_rate 1) as (_ & H & _); [discriminate | apply H].
  - split; left; reflexivity.
Qed.

(** The NaN case happens: the input is zero and every parameter finite, but the
    error overflows, and zero times infinity is NaN. *)
Theorem C87_nan_refuted : exists (n : network (B32Ops nan_libm)) (d : dataset (cplx b32) (cplx b32)) lr l n' l',
  nth_error n 1 = Some (LDense l) /\
  (forall x v, In x (ds_inputs d) -> arrives (B32Ops nan_libm) Float.P32 n 1 x (IOScalar v) -> nth 0 v (c_default (B32Ops nan_libm)) = c_default (B32Ops nan_libm)) /\
  Forall (fun z => is_finite (re z) = true /\ is_finite (im z) = true) (net_values (B32Ops nan_libm) n) /\
  net_gradient_opt (B32Ops nan_libm) Float.P32 n d MeanSquare lr = Ret (n', Ok tt) /\
  nth_error n' 1 = Some (LDense l') /\ is_nan (re (weight (B32Ops nan_libm) l' 0 0)) = true.
Proof.
  set (Fl := B32Ops nan_libm). set (n := black_net Fl (mkC big big)). set (d := black_data Fl (mkC (Bopp big) (Bopp big))).
  set (lr := mkC (fone Fl) (fzero Fl)).
  set (R := net_gradient_opt Fl Float.P32 n d MeanSquare lr).
  assert (H : match R with
    | Ret (n', Ok tt) => match nth_error n' 1 with Some (LDense l') => is_nan (re (weight Fl l' 0 0)) | _ => false end
    | _ => false end = true) by (vm_compute; reflexivity).
  destruct R as [[n' [[]|e]]|] eqn:E; try discriminate H. destruct (nth_error n' 1) as [[l'| | |]|] eqn:N; try discriminate H.
  exists n, d, lr, (black_layer Fl (mkC big big)), n', l'. split; [reflexivity|]. split; [|split; [|split; [exact E | split; [exact N | exact H]]]].
  - destruct C87_ex as (_ & (s & D) & _). intros x v. apply (black_meets Fl Float.P32 MeanSquare m32 (mkC big big) (mkC (Bopp big) (Bopp big)) s D).
  - repeat constructor.
Qed.
Print Assumptions C87_nan_refuted.

(** The weight of the other pixel is trained in the same step. *)
Example C87_other : match net_gradient_opt (B32Ops nan_libm) Float.P32 (black_net (B32Ops nan_libm) m32) (black_data (B32Ops nan_libm) m32) MeanSquare (mkC Bone (B754_zero false)) with
  | Ret (n', Ok tt) => match nth_error n' 1 with
    | Some (LDense l') => Beqb (re (weight (B32Ops nan_libm) l' 0 0)) Bone && negb (Beqb (re (weight (B32Ops nan_libm) l' 0 1)) Bone)
    | _ => false end
  | _ => false end = true.
Proof. vm_compute. reflexivity. Qed.
