(** * Property C77: copies stay copies *)
From Coq Require Import ZArith Reals Lra.
From Flocq Require Import Core BinarySingleNaN.
From Verif Require Import Base BaseFacts Float Matrix Cplx Act Input Loss Dense Conv Layer Dataset Network RFloat BFloat SpecMatrix
  SpecLayer SpecConv SpecNet SpecGeom SpecDead SpecTwin GeomFacts NetFacts PropDense PropConv PropGeom PropNan TwinFacts TwinOut.
Local Open Scope nat_scope.

(** Units that are copies output the same number for every input, and filters
    that are copies the same map. *)
Theorem C77_same_output : forall Fl p,
  (forall n k i j x y, twins Fl n k i j -> arrives Fl p n (S k) x (IOScalar y) -> nth i y (c_default Fl) = nth j y (c_default Fl)) /\
  (forall n g g' k a b a' b' i j x ms, fit_all Fl n g g' -> has_geom g x -> twin_filters Fl n k a b a' b' i j ->
     arrives Fl p n (S k) x (IOMatrix ms) -> nth i ms m_new = nth j ms m_new).
Proof. exact twins_output. Qed.
Print Assumptions C77_same_output.

(** No training tells copies apart: whatever the rest of the network, the
    batches, the losses, the rates and the number of steps, and whatever the
    rounding. *)
Theorem C77_forever : forall Fl p n n' k i j, trained Fl p n n' -> twins Fl n k i j -> twins Fl n' k i j.
Proof. exact twins_trained. Qed.
Print Assumptions C77_forever.

Theorem C77_filters : forall Fl p steps n g g' n' k a b a' b' i j, fit_all Fl n g g' -> Forall (trainable Fl) n ->
  (forall d f lr, In (d, f, lr) steps -> batch_for Fl g g' d) ->
  twin_filters Fl n k a b a' b' i j -> train_steps Fl p n steps = Ret n' -> twin_filters Fl n' k a b a' b' i j.
Proof. exact twin_filters_steps. Qed.
Print Assumptions C77_filters.

(** A network of dense layers each of which starts with one weight for all and
    one bias for all: after any training every hidden layer still computes a
    single number, repeated. *)
Theorem C77_constant : forall Fl p ls n', trained Fl p (map LDense ls) n' ->
  Forall (dense_wf Fl) ls -> (forall k l m, nth_error ls k = Some l -> nth_error ls (S k) = Some m -> inputs Fl m = units Fl l) ->
  Forall (fun l => exists w b, constant_layer Fl l w b) ls ->
  forall k x y i j, S k < length ls -> arrives Fl p n' (S k) x (IOScalar y) -> i < length y -> j < length y ->
    nth i y (c_default Fl) = nth j y (c_default Fl).
Proof. exact constant_forever. Qed.
Print Assumptions C77_constant.

(** ** The hypotheses are met *)
Section Ex.
Context (Fl : FloatOps).
Local Notation C := (cplx (F Fl)).
Local Notation one := (mkC (fone Fl) (fzero Fl) : C).
Definition twin_layers (w b : C) : list (dense Fl) := [mkDense Fl (from_body [w; w] 2 1) [b; b] RITSigmoid; mkDense Fl (from_body [w; w] 1 2) [b] ActNone].
Definition twin_data (t : C) : dataset C C := mkData [IOScalar [one]] [IOScalar [t]].
Definition twin_conv (w b : C) : conv Fl := mkConv Fl 1 (from_body [from_body [w; b] 1 2; from_body [w; b] 1 2] 2 1) [b; b] RITReLU.
Definition twin_conv2 (w b : C) : conv Fl := mkConv Fl 2 (from_body [from_body [w] 1 1; from_body [w] 1 1] 1 2) [b] ActNone.
Definition twin_cnet (w b : C) : network Fl := [LConv (twin_conv w b); LConv (twin_conv2 w b)].
Definition twin_maps (t : C) : dataset C C := mkData [IOMatrix [from_body [one; t; one] 1 3]] [IOMatrix [from_body [t; one] 1 2]].

Example C77_ex : forall p f lr w b t s, c_div Fl lr (c_of_nat Fl 1) = Ret s ->
  Forall (dense_wf Fl) (twin_layers w b) /\
  (forall k l m, nth_error (twin_layers w b) k = Some l -> nth_error (twin_layers w b) (S k) = Some m -> inputs Fl m = units Fl l) /\
  Forall (fun l => exists w b, constant_layer Fl l w b) (twin_layers w b) /\
  twins Fl (map LDense (twin_layers w b)) 0 0 1 /\
  (exists n', net_gradient_opt Fl p (map LDense (twin_layers w b)) (twin_data t) f lr = Ret (n', Ok tt)) /\
  fit_all Fl (twin_cnet w b) (Maps 1 1 3) (Maps 1 1 2) /\ Forall (trainable Fl) (twin_cnet w b) /\
  batch_for Fl (Maps 1 1 3) (Maps 1 1 2) (twin_maps t) /\ twin_filters Fl (twin_cnet w b) 0 1 2 1 1 0 1 /\
  exists n', train_steps Fl p (twin_cnet w b) [(twin_maps t, f, lr); (twin_maps t, f, lr)] = Ret n'.
Proof.
  intros p f lr w b t s D.
  assert (W : Forall (dense_wf Fl) (twin_layers w b)) by (repeat constructor; discriminate).
  assert (W1 : conv_wf Fl 1 2 (twin_conv w b)).
  { repeat (split; [cbn; lia || reflexivity|]). intros m [<-|[<-|[]]]; repeat split. }
  assert (W2 : conv_wf Fl 1 1 (twin_conv2 w b)).
  { repeat (split; [cbn; lia || reflexivity|]). intros m [<-|[<-|[]]]; repeat split. }
  assert (FC : fit_all Fl (twin_cnet w b) (Maps 1 1 3) (Maps 1 1 2)).
  { unfold twin_cnet. apply fit_cons with (Maps 2 (1 - 1 + 1) (3 - 2 + 1)); [apply (fits_conv Fl (twin_conv w b) 1 2 1 3); [exact W1 | discriminate | lia | lia]|].
    apply fit_cons with (Maps 1 (1 - 1 + 1) (2 - 1 + 1)); [apply (fits_conv Fl (twin_conv2 w b) 1 1 1 2); [exact W2 | discriminate | lia | lia]|]. apply fit_nil. }
  assert (TC : Forall (trainable Fl) (twin_cnet w b)) by (repeat constructor).
  assert (BC : batch_for Fl (Maps 1 1 3) (Maps 1 1 2) (twin_maps t)).
  { split; [reflexivity|]. split; intros x [<-|[]]; [|cbn; lia]. split; [reflexivity|]. intros m [<-|[]]. repeat split. }
  split; [exact W|]. split; [intros [|[|k]] l m; cbn; try discriminate; intros E1 E2; injection E1 as <-; injection E2 as <-; reflexivity|].
  split; [repeat constructor; exists w, b; split; cbn; intros x H; repeat destruct H as [H|H]; auto; contradiction|].
  split.
  { inversion W as [|? ? Wa Wr]; subst. inversion Wr; subst. eexists _, _. split; [reflexivity|]. split; [reflexivity|].
    split; [assumption|]. split; [assumption|]. split; [reflexivity|]. split; [cbn; lia|]. split; [cbn; lia|]. split; [reflexivity|]. split.
    - intros [|q] Hq; [reflexivity | cbn in Hq; lia].
    - intros [|q] Hq; [reflexivity | cbn in Hq; lia]. }
  split.
  { destruct (training_total Fl p (map LDense (twin_layers w b)) (Vec 1) (Vec 1) (twin_data t) f lr s) as (n1 & E1 & _); [apply le_n | | repeat constructor | | exact D | eauto].
    - cbn [map twin_layers]. inversion W as [|? ? Wa Wr]; subst. inversion Wr; subst.
      apply fit_cons with (Vec 2); [apply (fits_dense Fl (mkDense Fl (from_body [w; w] 2 1) [b; b] RITSigmoid)); [assumption | discriminate]|].
      apply fit_cons with (Vec 1); [|apply fit_nil]. apply (fits_dense Fl (mkDense Fl (from_body [w; w] 1 2) [b] ActNone)); [assumption | discriminate].
    - split; [reflexivity|]. split; intros x [<-|[]]; [reflexivity | apply le_n]. }
  split; [exact FC|]. split; [exact TC|]. split; [exact BC|]. split.
  { eexists _, _. split; [reflexivity|]. split; [reflexivity|]. split; [exact W1|]. split; [exact W2|]. split; [reflexivity|]. split; [cbn; lia|]. split; [cbn; lia|].
    split; [reflexivity|]. split.
    - intros [|ch] [|u] [|[|v]] H1 H2 H3; cbn in H1; try lia; reflexivity.
    - intros [|o] [|u] [|v] H1 H2 H3; cbn in H1; try lia; reflexivity. }
  destruct (training_total Fl p (twin_cnet w b) _ _ (twin_maps t) f lr s (le_n 2) FC TC BC D) as (n1 & E1 & FA1 & TR1 & L1).
  destruct (training_total Fl p n1 _ _ (twin_maps t) f lr s ltac:(rewrite L1; apply le_n) FA1 TR1 BC D) as (n2 & E2 & _).
  exists n2. cbn [train_steps]. rewrite E1. cbn [obind fst snd]. rewrite E2. reflexivity.
Qed.
End Ex.

(** Being copies needs the layer that follows too: two units with the same
    parameters that are weighed differently are told apart by one step. *)
Theorem C77_outgoing_refuted : exists (n : network (B32Ops nan_libm)) l d lr n' l',
  nth_error n 0 = Some (LDense l) /\ unit_params (B32Ops nan_libm) l 0 = unit_params (B32Ops nan_libm) l 1 /\
  net_gradient_opt (B32Ops nan_libm) Float.P32 n d MeanSquare lr = Ret (n', Ok tt) /\
  nth_error n' 0 = Some (LDense l') /\ unit_params (B32Ops nan_libm) l' 0 <> unit_params (B32Ops nan_libm) l' 1.
Proof.
  set (Fl := B32Ops nan_libm). set (o := mkC (fzero Fl) (fzero Fl)). set (one := mkC (fone Fl) (fzero Fl)).
  set (l := mkDense Fl (from_body [one; one] 2 1) [o; o] ActNone). set (n := [LDense l; LDense (mkDense Fl (from_body [one; o] 1 2) [o] ActNone)] : network Fl).
  set (d := mkData [IOScalar [one]] [IOScalar [o]]). set (R := net_gradient_opt Fl Float.P32 n d MeanSquare one).
  assert (H : match R with
    | Ret (n', Ok tt) => match nth_error n' 0 with Some (LDense l') => Beqb (Cplx.re (nth 0 (d_biases l') (c_default Fl)) : b32) (Cplx.re (nth 1 (d_biases l') (c_default Fl))) | _ => true end
    | _ => true end = false) by (vm_compute; reflexivity).
  assert (H2 : match R with
    | Ret (n', Ok tt) => match nth_error n' 0 with Some (LDense l') => is_nan (Cplx.re (nth 0 (d_biases l') (c_default Fl)) : b32) | _ => true end
    | _ => true end = false) by (vm_compute; reflexivity).
  destruct R as [[n' [[]|e]]|] eqn:E; try discriminate H. destruct (nth_error n' 0) as [[l'| | |]|] eqn:N; try discriminate H.
  exists n, l, d, one, n', l'. split; [reflexivity|]. split; [reflexivity|]. split; [exact E|]. split; [exact N|]. intros U. unfold unit_params in U. 
  pose proof (f_equal (fun u => Cplx.re (hd (c_default Fl) u)) U) as U1. cbn [hd] in U1.
  change (Cplx.re (nth 0 (d_biases l') (c_default Fl)) = Cplx.re (nth 1 (d_biases l') (c_default Fl)) :> b32) in U1.
  rewrite <- U1, Beqb_refl, H2 in H. discriminate.
Qed.
Print Assumptions C77_outgoing_refuted.
