(** * Property C76: rectifiers that are switched off stay off *)
From Coq Require Import ZArith Reals Lra.
From Flocq Require Import Core BinarySingleNaN.
From Verif Require Import Base BaseFacts Float Matrix Cplx Act Input Loss Dense Conv Layer Dataset Network RFloat BFloat SpecMatrix
  SpecLayer SpecConv SpecNet SpecGeom SpecNan SpecDead GeomFacts PropDense PropConv PropGeom PropNan DeadNum.
Local Open Scope nat_scope.
Local Notation re := Cplx.re. Local Notation im := Cplx.im.

(** A unit that is switched off outputs zero, and so does a filter at a
    position where it is. *)
Theorem C76_silent : forall Fl p,
  (forall (l : dense Fl) x ys i, dense_wf Fl l -> length x = inputs Fl l -> i < units Fl l -> off Fl (d_func l) (pre Fl l x i) ->
     dense_forward Fl p l (IOScalar x) = Ret (Ok (IOScalar ys)) -> nth i ys (c_default Fl) = mkC (fzero Fl) (fzero Fl)) /\
  (forall a b r c (l : conv Fl) ms, conv_wf Fl a b l -> maps_wf (channels Fl l) r c ms -> a <= r -> b <= c -> k_func l <> ModZ ->
     exists y : nat -> nat -> nat -> cplx (F Fl),
       conv_forward Fl p l (IOMatrix ms) = Ret (Ok (IOMatrix (map (fun o => mat (r - a + 1) (c - b + 1) (y o)) (seq 0 (filters Fl l))))) /\
       forall o i j, off Fl (k_func l) (cpre Fl a b l ms o i j) -> y o i j = mkC (fzero Fl) (fzero Fl)).
Proof.
  intros Fl p.
  assert (S : forall f q y, off Fl f q -> activate Fl p f q = Ret y -> y = mkC (fzero Fl) (fzero Fl)).
  { intros f q y O E. destruct f; cbn in O; try contradiction; cbn in E; injection E as <-.
    - destruct O as (A & B). unfold ritrelu, relu. now rewrite A, B.
    - unfold zrelu. destruct O as [A|A]; rewrite A; [|rewrite orb_true_r]; reflexivity. }
  split.
  - intros l x ys i W X Hi O E. apply (proj1 (C40_forward Fl p l x W X ys)) in E. destruct E as (_ & E). exact (S _ _ _ O (E i Hi)).
  - intros a b r c l ms W M A B NM.
    assert (T : forall q, exists y, activate Fl p (k_func l) q = Ret y).
    { intros q. destruct (k_func l); try (eexists; reflexivity). now destruct NM. }
    exists (fun o i j => match activate Fl p (k_func l) (cpre Fl a b l ms o i j) with Ret y => y | Panic => c_default Fl end). split.
    + apply C44_forward; auto. intros o i j _ _ _. destruct (T (cpre Fl a b l ms o i j)) as (y & ->). reflexivity.
    + intros o i j O. destruct (T (cpre Fl a b l ms o i j)) as (y & E). rewrite E. exact (S _ _ _ O E).
Qed.
Print Assumptions C76_silent.

(** Exact arithmetic: a unit, in any layer, that is off for every point of the
    batch keeps its bias and its weights. *)
Theorem C76_step : forall p n data f lr n' r k (l : dense ROps) i, nth_error n k = Some (LDense l) -> dense_wf ROps l -> i < units ROps l ->
  (forall x v, In x (ds_inputs data) -> arrives ROps p n k x (IOScalar v) -> off ROps (d_func l) (pre ROps l v i)) ->
  net_gradient_opt ROps p n data f lr = Ret (n', Ok r) ->
  exists l', nth_error n' k = Some (LDense l') /\ unit_params ROps l' i = unit_params ROps l i.
Proof. exact exact_unit_step. Qed.
Print Assumptions C76_step.

(** The same for a filter that is off at every position for every point. *)
Theorem C76_filter_step : forall p n g g' data f lr n' r k a b (l : conv ROps) o,
  fit_all ROps n g g' -> Forall (trainable ROps) n -> batch_for ROps g g' data ->
  nth_error n k = Some (LConv l) -> conv_wf ROps a b l -> o < filters ROps l ->
  (forall x ms i j, In x (ds_inputs data) -> arrives ROps p n k x (IOMatrix ms) ->
     i < sh0 (nth 0 ms m_new) - a + 1 -> j < sh1 (nth 0 ms m_new) - b + 1 -> off ROps (k_func l) (cpre ROps a b l ms o i j)) ->
  net_gradient_opt ROps p n data f lr = Ret (n', Ok r) ->
  exists l', nth_error n' k = Some (LConv l') /\ filter_params ROps a b l' o = filter_params ROps a b l o.
Proof. exact exact_filter_step. Qed.
Print Assumptions C76_filter_step.

(** A unit of the first layer that is below zero for everything in the data is
    never changed by training on that data, whatever the other units do, the
    losses, the rates and the number of steps; and it is still off wherever it
    was at the start. *)
Theorem C76_forever : forall p steps n n' (l : dense ROps) i, nth_error n 0 = Some (LDense l) -> dense_wf ROps l -> i < units ROps l ->
  (forall d f lr v, In (d, f, lr) steps -> In (IOScalar v) (ds_inputs d) -> below ROps (d_func l) (pre ROps l v i)) ->
  train_steps ROps p n steps = Ret n' ->
  exists l', nth_error n' 0 = Some (LDense l') /\ unit_params ROps l' i = unit_params ROps l i /\
    forall v, below ROps (d_func l) (pre ROps l v i) -> below ROps (d_func l') (pre ROps l' v i).
Proof. exact exact_unit_forever. Qed.
Print Assumptions C76_forever.

Theorem C76_filter_forever : forall p steps n n' g g' a b (l : conv ROps) o, fit_all ROps n g g' -> Forall (trainable ROps) n ->
  nth_error n 0 = Some (LConv l) -> conv_wf ROps a b l -> o < filters ROps l ->
  (forall d f lr, In (d, f, lr) steps -> batch_for ROps g g' d) ->
  (forall d f lr ms, In (d, f, lr) steps -> In (IOMatrix ms) (ds_inputs d) -> filter_below ROps a b l o ms) ->
  train_steps ROps p n steps = Ret n' ->
  exists l', nth_error n' 0 = Some (LConv l') /\ filter_params ROps a b l' o = filter_params ROps a b l o /\
    forall ms, filter_below ROps a b l o ms -> filter_below ROps a b l' o ms.
Proof. exact exact_filter_forever. Qed.
Print Assumptions C76_filter_forever.

(** IEEE arithmetic of any precision: each part of each parameter keeps its
    number (a zero may change sign) or becomes NaN. *)
Theorem C76_ieee_step : forall prec emax Hp He L p n data f lr n' r k (l : dense (BOps prec emax Hp He L)) i,
  let Fl := BOps prec emax Hp He L in
  nth_error n k = Some (LDense l) -> dense_wf Fl l -> i < units Fl l ->
  (forall x v, In x (ds_inputs data) -> arrives Fl p n k x (IOScalar v) -> off Fl (d_func l) (pre Fl l v i)) ->
  net_gradient_opt Fl p n data f lr = Ret (n', Ok r) ->
  exists l', nth_error n' k = Some (LDense l') /\ Forall2 same_or_nan (unit_params Fl l i) (unit_params Fl l' i).
Proof. exact ieee_unit_step. Qed.
Print Assumptions C76_ieee_step.

Theorem C76_ieee_filter_step : forall prec emax Hp He L p n g g' data f lr n' r k a b (l : conv (BOps prec emax Hp He L)) o,
  let Fl := BOps prec emax Hp He L in
  fit_all Fl n g g' -> Forall (trainable Fl) n -> batch_for Fl g g' data ->
  nth_error n k = Some (LConv l) -> conv_wf Fl a b l -> o < filters Fl l ->
  (forall x ms i j, In x (ds_inputs data) -> arrives Fl p n k x (IOMatrix ms) ->
     i < sh0 (nth 0 ms m_new) - a + 1 -> j < sh1 (nth 0 ms m_new) - b + 1 -> off Fl (k_func l) (cpre Fl a b l ms o i j)) ->
  net_gradient_opt Fl p n data f lr = Ret (n', Ok r) ->
  exists l', nth_error n' k = Some (LConv l') /\ Forall2 same_or_nan (filter_params Fl a b l o) (filter_params Fl a b l' o).
Proof. exact ieee_filter_step. Qed.
Print Assumptions C76_ieee_filter_step.

(** Over any number of steps the unit is unchanged and off, or holds a NaN. *)
Theorem C76_ieee_forever : forall prec emax Hp He L p steps n n' (l : dense (BOps prec emax Hp He L)) i,
  let Fl := BOps prec emax Hp He L in
  nth_error n 0 = Some (LDense l) -> dense_wf Fl l -> i < units Fl l ->
  (forall d f lr v, In (d, f, lr) steps -> In (IOScalar v) (ds_inputs d) -> below Fl (d_func l) (pre Fl l v i)) ->
  train_steps Fl p n steps = Ret n' ->
  exists l', nth_error n' 0 = Some (LDense l') /\
    (Exists tainted (unit_params Fl l' i) \/
     Forall2 csame (unit_params Fl l i) (unit_params Fl l' i) /\ forall v, below Fl (d_func l) (pre Fl l v i) -> below Fl (d_func l') (pre Fl l' v i)).
Proof. exact ieee_unit_forever. Qed.
Print Assumptions C76_ieee_forever.

Theorem C76_ieee_filter_forever : forall prec emax Hp He L p steps n n' g g' a b (l : conv (BOps prec emax Hp He L)) o,
  let Fl := BOps prec emax Hp He L in
  fit_all Fl n g g' -> Forall (trainable Fl) n ->
  nth_error n 0 = Some (LConv l) -> conv_wf Fl a b l -> o < filters Fl l ->
  (forall d f lr, In (d, f, lr) steps -> batch_for Fl g g' d) ->
  (forall d f lr ms, In (d, f, lr) steps -> In (IOMatrix ms) (ds_inputs d) -> filter_below Fl a b l o ms) ->
  train_steps Fl p n steps = Ret n' ->
  exists l', nth_error n' 0 = Some (LConv l') /\
    (Exists tainted (filter_params Fl a b l' o) \/
     Forall2 csame (filter_params Fl a b l o) (filter_params Fl a b l' o) /\ forall ms, filter_below Fl a b l o ms -> filter_below Fl a b l' o ms).
Proof. exact ieee_filter_forever. Qed.
Print Assumptions C76_ieee_filter_forever.

(** ** Cases that meet the hypotheses *)
Section Ex.
Context (Fl : FloatOps).
Local Notation C := (cplx (F Fl)).
Local Notation o := (mkC (fzero Fl) (fzero Fl)).
Local Notation one := (mkC (fone Fl) (fzero Fl)).
(** Two units of which the first has bias [a] and no input. *)
Definition dead_layer (a : C) : dense Fl := mkDense Fl (from_body [o; one] 2 1) [a; o] RITReLU.
Definition dead_net (a b : C) : network Fl := [LDense (dead_layer a); LDense (mkDense Fl (from_body [one; one] 1 2) [b] ActNone)].
Definition dead_data (t : C) : dataset C C := mkData [IOScalar [one]] [IOScalar [t]].
(** A 1 x 2 kernel of zeros with bias [a] on 1 x 3 maps. *)
Definition dead_conv (a : C) : conv Fl := mkConv Fl 1 (from_body [from_body [o; o] 1 2] 1 1) [a] ZReLU.
Definition dead_cnet (a b : C) : network Fl := [LConv (dead_conv a); LFlatten (flat_init 1 2 1); LDense (mkDense Fl (from_body [one; one] 1 2) [b] ActNone)].
Definition dead_map : list (matrix C) := [from_body [one; o; one] 1 3].
Definition dead_images (t : C) : dataset C C := mkData [IOMatrix dead_map] [IOScalar [t]].

Lemma dead_meets : forall p f lr a b t s, c_div Fl lr (c_of_nat Fl 1) = Ret s ->
  dense_wf Fl (dead_layer a) /\ 0 < units Fl (dead_layer a) /\
  (exists n', train_steps Fl p (dead_net a b) [(dead_data t, f, lr); (dead_data t, f, lr)] = Ret n') /\
  fit_all Fl (dead_cnet a b) (Maps 1 1 3) (Vec 1) /\ Forall (trainable Fl) (dead_cnet a b) /\ conv_wf Fl 1 2 (dead_conv a) /\ 0 < filters Fl (dead_conv a) /\
  batch_for Fl (Maps 1 1 3) (Vec 1) (dead_images t) /\
  exists n', train_steps Fl p (dead_cnet a b) [(dead_images t, f, lr); (dead_images t, f, lr)] = Ret n'.
Proof.
  intros p f lr a b t s D.
  assert (T : forall n g g' d, 2 <= length n -> fit_all Fl n g g' -> Forall (trainable Fl) n -> batch_for Fl g g' d -> length (ds_inputs d) = 1 ->
    exists n', train_steps Fl p n [(d, f, lr); (d, f, lr)] = Ret n').
  { intros n g g' d L FA TR BF E. rewrite <- E in D.
    destruct (training_total Fl p n g g' d f lr s L FA TR BF D) as (n1 & E1 & FA1 & TR1 & L1).
    destruct (training_total Fl p n1 g g' d f lr s ltac:(lia) FA1 TR1 BF D) as (n2 & E2 & _).
    exists n2. cbn [train_steps]. rewrite E1. cbn [obind fst snd]. rewrite E2. reflexivity. }
  assert (W1 : dense_wf Fl (dead_layer a)) by (repeat split; discriminate).
  assert (W2 : dense_wf Fl (mkDense Fl (from_body [one; one] 1 2) [b] ActNone)) by (repeat split; discriminate).
  assert (WC : conv_wf Fl 1 2 (dead_conv a)).
  { repeat (split; [cbn; lia || reflexivity|]). intros m [<-|[]]. repeat split. }
  assert (FC : fit_all Fl (dead_cnet a b) (Maps 1 1 3) (Vec 1)).
  { unfold dead_cnet. apply fit_cons with (Maps 1 (1 - 1 + 1) (3 - 2 + 1)).
    { apply (fits_conv Fl (dead_conv a) 1 2 1 3); [exact WC | discriminate | lia | lia]. }
    apply fit_cons with (Vec (1 * (1 * 2))); [apply fits_flatten|].
    apply fit_cons with (Vec 1); [|apply fit_nil]. apply (fits_dense Fl (mkDense Fl (from_body [one; one] 1 2) [b] ActNone)); [exact W2 | discriminate]. }
  assert (BC : batch_for Fl (Maps 1 1 3) (Vec 1) (dead_images t)).
  { split; [reflexivity|]. split; intros x [<-|[]]; [|apply le_n]. split; [reflexivity|]. intros m [<-|[]]. repeat split. }
  split; [exact W1|]. split; [apply Nat.lt_0_succ|]. split.
  { apply (T _ (Vec 1) (Vec 1)); [apply le_n | | repeat constructor | | reflexivity].
    - unfold dead_net. apply fit_cons with (Vec 2); [apply (fits_dense Fl (dead_layer a)); [exact W1 | discriminate]|].
      apply fit_cons with (Vec 1); [|apply fit_nil]. apply (fits_dense Fl (mkDense Fl (from_body [one; one] 1 2) [b] ActNone)); [exact W2 | discriminate].
    - split; [reflexivity|]. split; intros x [<-|[]]; [reflexivity | apply le_n]. }
  split; [exact FC|]. split; [repeat constructor|]. split; [exact WC|]. split; [apply Nat.lt_0_succ|]. split; [exact BC|].
  apply (T _ (Maps 1 1 3) (Vec 1)); auto; [cbn; lia | repeat constructor].
Qed.
End Ex.

Definition m32 : cplx b32 := mkC (Bopp (Bone : b32)) (Bopp (Bone : b32)).
Example C76_ex :
  below ROps RITReLU (pre ROps (dead_layer ROps (mkC (-1) (-1)))%R [mkC (fone ROps) (fzero ROps)] 0) /\
  filter_below ROps 1 2 (dead_conv ROps (mkC (-1) (-1)))%R 0 (dead_map ROps) /\
  below (B32Ops nan_libm) RITReLU (pre (B32Ops nan_libm) (dead_layer (B32Ops nan_libm) m32) [mkC (fone (B32Ops nan_libm)) (fzero (B32Ops nan_libm))] 0) /\
  filter_below (B32Ops nan_libm) 1 2 (dead_conv (B32Ops nan_libm) m32) 0 (dead_map (B32Ops nan_libm)) /\
  (exists s, c_div ROps (mkC 1 0)%R (c_of_nat ROps 1) = Ret s) /\ (exists s, c_div (B32Ops nan_libm) m32 (c_of_nat (B32Ops nan_libm) 1) = Ret s).
Proof.
  split; [|split; [|split; [|split; [|split]]]].
  - split; apply Rltb_lt; cbv -[Rplus Rminus Rmult Rdiv Rinv Ropp IZR Rlt]; lra.
  - intros i j Hi Hj. cbn in Hi, Hj. destruct i as [|i]; [|lia]. left. apply Rltb_lt.
    destruct j as [|[|j]]; [| |lia]; cbv -[Rplus Rminus Rmult Rdiv Rinv Ropp IZR Rlt]; lra.
  - split; vm_compute; reflexivity.
  - intros i j Hi Hj. cbn in Hi, Hj. destruct i as [|i]; [|lia]. left. destruct j as [|[|j]]; [vm_compute; reflexivity | vm_compute; reflexivity | lia].
  - destruct (C62_rate 1) as (H & _); [discriminate | apply H].
  - destruct (C62_rate 1) as (_ & H & _); [discriminate | apply H].
Qed.

(** The NaN case happens: every parameter and value is finite and the unit is
    off, but the error at the output overflows, and infinity times the zero
    derivative is NaN.  The unit's bias is NaN after one step. *)
Definition big : b32 := @B754_finite 24 128 false 16777215 104 eq_refl.
Theorem C76_nan_refuted : exists (n : network (B32Ops nan_libm)) (d : dataset (cplx b32) (cplx b32)) lr l n' l',
  nth_error n 0 = Some (LDense l) /\
  (forall v, In (IOScalar v) (ds_inputs d) -> below (B32Ops nan_libm) (d_func l) (pre (B32Ops nan_libm) l v 0)) /\
  Forall (fun z => is_finite (re z) = true /\ is_finite (im z) = true) (net_values (B32Ops nan_libm) n) /\
  net_gradient_opt (B32Ops nan_libm) Float.P32 n d MeanSquare lr = Ret (n', Ok tt) /\
  nth_error n' 0 = Some (LDense l') /\ is_nan (re (nth 0 (d_biases l') (c_default (B32Ops nan_libm)))) = true.
Proof.
  set (Fl := B32Ops nan_libm). set (n := dead_net Fl m32 (mkC big big)). set (d := dead_data Fl (mkC (Bopp big) (Bopp big))).
  set (lr := mkC (fone Fl) (fzero Fl)).
  set (R := net_gradient_opt Fl Float.P32 n d MeanSquare lr).
  assert (H : match R with
    | Ret (n', Ok tt) => match nth_error n' 0 with Some (LDense l') => is_nan (re (nth 0 (d_biases l') (c_default Fl))) | _ => false end
    | _ => false end = true) by (vm_compute; reflexivity).
  destruct R as [[n' [[]|e]]|] eqn:E; try discriminate H. destruct (nth_error n' 0) as [[l'| | |]|] eqn:N; try discriminate H.
  exists n, d, lr, (dead_layer Fl m32), n', l'. split; [reflexivity|]. split; [|split; [|split; [exact E | split; [exact N | exact H]]]].
  - intros v [V|[]]. injection V as <-. split; vm_compute; reflexivity.
  - repeat constructor.
Qed.
Print Assumptions C76_nan_refuted.
