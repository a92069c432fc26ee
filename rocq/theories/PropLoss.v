(** * Properties of the loss functions and of IOType (C33-C38) *)
From Coq Require Import Reals Lra Psatz.
From Coquelicot Require Import Coquelicot.
From Flocq Require Import Core BinarySingleNaN.
From Verif Require Import Base BaseFacts Float Matrix Cplx Input Loss RFloat BFloat SpecMatrix CFacts SpecCalculus CalcFacts
  SpecLoss LossFacts.
Local Open Scope R_scope.
Local Notation re := Cplx.re.
Local Notation im := Cplx.im.

(** ** C33 *)

(** Any arithmetic: the sum is accumulated in order and divided by n-1. *)
Theorem C33_in_order : forall Fl (t p : list (cplx (F Fl))),
  let n := Nat.min (length t) (length p) in
  loss Fl (IOScalar t) (IOScalar p) MeanSquare =
  Ok (fdiv Fl (sum_from (fadd Fl) (fzero Fl)
        (fun k => c_norm_sq Fl (c_sub Fl (nth k t (c_default Fl)) (nth k p (c_default Fl)))) n)
      (fofnat Fl (n - 1))).
Proof. intros. cbn [loss release_loss]. f_equal. apply mean_sq_spec. Qed.
Print Assumptions C33_in_order.

Theorem C33_exact : forall t p : list RC, (2 <= Nat.min (length t) (length p))%nat ->
  exists l : R, loss ROps (IOScalar t) (IOScalar p) MeanSquare = Ok l /\
    l = sse t p / (INR (Nat.min (length t) (length p)) - 1) /\ 0 <= l /\
    (l = 0 <-> forall k, (k < Nat.min (length t) (length p))%nat -> nth k t 0%RC = nth k p 0%RC).
Proof.
  intros t p H. eexists. split; [apply C33_in_order|]. cbv zeta. rewrite fofnat_R, minus_INR by lia.
  cbn [fdiv fadd ROps]. change (fzero ROps) with 0. fold (sse t p).
  set (n := Nat.min (length t) (length p)) in *. change (INR 1) with 1.
  assert (N : 0 < INR n - 1). { apply le_INR in H. change (INR 2) with 2 in H. lra. }
  set (e := fun k => c_norm_sq ROps (nth k t 0 - nth k p 0)%RC : R).
  change (sse t p) with (rsum e n).
  assert (EN : forall k, 0 <= e k) by (intros; apply norm_sq_nonneg).
  split; [reflexivity|]. split.
  - apply Rmult_le_pos; [apply rsum_nonneg; auto | left; now apply Rinv_0_lt_compat].
  - split.
    + intros Z k Hk. assert (S0 : rsum e n = 0).
      { apply (Rmult_eq_reg_r (/ (INR n - 1))); [rewrite Rmult_0_l; exact Z | apply Rinv_neq_0_compat; lra]. }
      pose proof (rsum_ge e n k ltac:(auto) Hk) as G. rewrite S0 in G.
      assert (E0 : e k = 0) by (pose proof (EN k); lra). apply norm_sq_0 in E0.
      revert E0. generalize (nth k t 0%RC) (nth k p 0%RC). intros [a b] [c d] E0.
      pose proof (f_equal re E0) as E1. pose proof (f_equal im E0) as E2. cbn in E1, E2.
      apply c_ext; cbn [re im]; lra.
    + intros Z. transitivity (0 / (INR n - 1)); [|unfold Rdiv; ring]. f_equal. apply (rsum_zero e n). intros k Hk. unfold e. rewrite Z by auto.
      generalize (nth k p 0%RC). intros [c d]. cbn. ring.
Qed.
Print Assumptions C33_exact.

(** IEEE arithmetic, both formats: with a single output the loss is never
    finite, whatever the numbers are; with no common entry it is NaN. *)
Theorem C33_single : forall prec emax Hp He L (t p : cplx (binary_float prec emax)),
  exists l, loss (BOps prec emax Hp He L) (IOScalar [t]) (IOScalar [p]) MeanSquare = Ok l /\ is_finite l = false.
Proof.
  intros prec emax Hp He L t p. eexists. split; [reflexivity|].
  unfold release_loss, mean_sq_loss. cbn [combine fold_left].
  cbn [fofnat fofN N.of_nat Z.of_N BOps fdiv].
  assert (Z0 : Bofz prec emax Hp He 0 = B754_zero false) by reflexivity. rewrite Z0.
  destruct (fadd _ _ _) as [s|s| |s m e H]; reflexivity.
Qed.
Print Assumptions C33_single.

Theorem C33_empty : forall prec emax Hp He L (t p : list (cplx (binary_float prec emax))), t = [] \/ p = [] ->
  exists l, loss (BOps prec emax Hp He L) (IOScalar t) (IOScalar p) MeanSquare = Ok l /\ is_nan l = true.
Proof.
  intros prec emax Hp He L t p H. eexists. split; [reflexivity|].
  unfold release_loss, mean_sq_loss. destruct H as [-> | ->]; [reflexivity | destruct t; reflexivity].
Qed.
Print Assumptions C33_empty.

Example C33_ex : let t : list RC := [mkC 1 0; mkC 0 1] in let p : list RC := [mkC 0 0; mkC 0 0] in
  (2 <= Nat.min (length t) (length p))%nat /\ sse t p = 2.
Proof. cbv zeta. split; [cbn; lia|]. unfold sse. cbn. ring. Qed.

(** ** C34 *)
Theorem C34_entries : forall Fl (t p : list (cplx (F Fl))),
  exists g, d_loss Fl (IOScalar t) (IOScalar p) MeanSquare = Ok g /\
    length g = Nat.min (length t) (length p) /\
    forall k d, (k < length g)%nat -> nth k g d = c_conj Fl (c_sub Fl (nth k p d) (nth k t d)).
Proof.
  intros Fl t p. eexists. split; [reflexivity|]. unfold release_dloss, d_mean_sq_loss.
  rewrite map_length, combine_length. split; [reflexivity|]. intros k d Hk.
  rewrite (combine_nth_seq d d), map_map, nth_map_seq by exact Hk. reflexivity.
Qed.
Print Assumptions C34_entries.

(** The prediction moves along any differentiable curve, in any direction: the
    summed squared error changes at the rate 2 Re(sum g_k v_k), the reported
    loss at 1/(n-1) of it. *)
Theorem C34_gradient : forall (t : list RC) (p : R -> list RC) (v : list RC),
  length t = length v -> vderiv p v ->
  exists g, d_loss ROps (IOScalar t) (IOScalar (p 0)) MeanSquare = Ok g /\
    is_derive (fun s => sse t (p s)) 0 (rate g v) /\
    ((2 <= length v)%nat -> exists l : R -> R,
      (forall s, loss ROps (IOScalar t) (IOScalar (p s)) MeanSquare = Ok (l s)) /\
      is_derive l 0 (rate g v / (INR (length v) - 1))).
Proof.
  intros t p v E D. eexists. split; [reflexivity|]. pose proof (sse_derive t p v E D) as S.
  split; [exact S|]. intros H2. destruct D as [L D].
  exists (fun s => sse t (p s) / (INR (length v) - 1)). split.
  - intros s. destruct (C33_exact t (p s)) as (l & El & -> & _).
    + rewrite L, E, Nat.min_id. exact H2.
    + rewrite El, L, E, Nat.min_id. reflexivity.
  - unfold Rdiv. apply (is_derive_ext (fun s => (/ (INR (length v) - 1)) * sse t (p s))); [intros; apply Rmult_comm|].
    rewrite Rmult_comm. apply is_derive_scal, S.
Qed.
Print Assumptions C34_gradient.

(** A straight line is such a curve. *)
Definition line (p v : list RC) (s : R) : list RC :=
  map (fun k => (nth k p 0 + mkC s 0%R * nth k v 0)%RC) (seq 0 (length v)).

Lemma line_vderiv : forall p v, vderiv (line p v) v.
Proof.
  intros p v. split; [intros; unfold line; now rewrite map_length, seq_length|].
  intros k Hk. apply (cderiv_ext (fun s => (nth k p 0 + mkC s 0%R * nth k v 0)%RC)).
  - intros s. unfold line. rewrite nth_map_seq by auto. reflexivity.
  - generalize (nth k p 0%RC) (nth k v 0%RC). intros [a b] [c d]. split; cbn.
    + auto_derive; [auto | ring].
    + auto_derive; [auto | ring].
Qed.

Example C34_ex : vderiv (line [mkC 1 2; mkC 3 4] [mkC 1 0; mkC 0 1]) [mkC 1 0; mkC 0 1]
  /\ line [mkC 1 2; mkC 3 4] [mkC 1 0; mkC 0 1] 0 = [mkC 1 2; mkC 3 4].
Proof.
  split; [apply line_vderiv|]. unfold line. cbn [length seq map nth]. repeat (f_equal; try (apply c_ext; cbn; ring)).
Qed.

(** ** C35 *)
Theorem C35_in_order : forall Fl (t p : list (cplx (F Fl))), length t = length p ->
  let e k := fexp Fl (c_norm_sq Fl (nth k p (c_default Fl))) in
  loss Fl (IOScalar t) (IOScalar p) NormCrossEntropy =
  Ok (sum_from (fun acc k => fsub Fl acc (fmul Fl (re (nth k t (c_default Fl)))
        (fln Fl (fdiv Fl (e k) (sum_from (fadd Fl) (fzero Fl) e (length p))))))
      (fzero Fl) (fun k => k) (length p)).
Proof. intros Fl t p E e. cbn [loss release_loss]. f_equal. now apply norm_ce_spec. Qed.
Print Assumptions C35_in_order.

Theorem C35_softmax : forall t p : list RC, length t = length p ->
  loss ROps (IOScalar t) (IOScalar p) NormCrossEntropy =
  Ok (- rsum (fun k => re (nth k t 0%RC) * ln (softmax p k)) (length p)).
Proof. intros t p E. cbn [loss release_loss]. f_equal. now apply norm_ce_R. Qed.
Print Assumptions C35_softmax.

(** With nonnegative targets the loss is nonnegative; it is positive as soon as
    one target is positive and there are at least two outputs, and it is zero
    with a single output. *)
Theorem C35_sign : forall (t p : list RC) l, length t = length p ->
  (forall k, (k < length p)%nat -> 0 <= re (nth k t 0%RC)) ->
  loss ROps (IOScalar t) (IOScalar p) NormCrossEntropy = Ok l ->
  0 <= l /\
  ((2 <= length p)%nat -> (exists k, (k < length p)%nat /\ 0 < re (nth k t 0%RC)) -> 0 < l) /\
  ((length p <= 1)%nat -> l = 0).
Proof.
  intros t p l E T H. rewrite C35_softmax in H by auto.
  set (f := fun k => - (re (nth k t 0%RC) * ln (softmax p k))).
  assert (El : l = rsum f (length p)).
  { assert (E0 : rsum f (length p) = - rsum (fun k => re (nth k t 0%RC) * ln (softmax p k)) (length p)).
    { unfold f. rewrite (rsum_ext _ (fun k => (-1) * (re (nth k t 0%RC) * ln (softmax p k)))) by (intros; ring).
      rewrite rsum_scal. ring. }
    rewrite E0. congruence. }
  clear H. subst l.
  assert (LN : forall k, (k < length p)%nat -> ln (softmax p k) <= 0).
  { intros k Hk. destruct (softmax_range p k Hk) as [S1 S2]. rewrite <- ln_1. destruct S2 as [S2| ->]; [|lra].
    left. now apply ln_increasing. }
  assert (FN : forall k, (k < length p)%nat -> 0 <= f k).
  { intros k Hk. unfold f. pose proof (LN k Hk). pose proof (T k Hk). cbn in *. nra. }
  split; [apply rsum_nonneg, FN|]. split.
  - intros L2 (k & Hk & Tk). pose proof (rsum_ge f _ k FN Hk) as G.
    assert (S : ln (softmax p k) < 0).
    { rewrite <- ln_1. apply ln_increasing; [apply softmax_range, Hk | apply softmax_lt1; auto]. }
    assert (0 < f k); [|lra]. unfold f. cbn in *. nra.
  - intros L1. apply rsum_zero. intros k Hk. unfold f.
    assert (S : softmax p k = 1).
    { destruct p as [|x [|y q]]; cbn [length] in *; [lia| |lia]. replace k with 0%nat by lia.
      unfold softmax. cbn [length nth]. rewrite rsum_S, rsum_0, Rplus_0_l. apply Rinv_r. pose proof (exp_pos (c_norm_sq ROps x)). cbn in *. lra. }
    rewrite S, ln_1. ring.
Qed.
Print Assumptions C35_sign.

(** A one-hot target meets the hypotheses. *)
Example C35_ex : let t := [mkC 0 0; mkC 1 0; mkC 0 0] in
  (forall k, (k < length t)%nat -> 0 <= re (nth k t 0%RC)) /\ exists k, (k < length t)%nat /\ 0 < re (nth k t 0%RC).
Proof.
  cbv zeta. split.
  - intros k Hk. cbn in Hk. destruct k as [|[|[|k]]]; cbn; try lra. lia.
  - exists 1%nat. cbn. split; [lia | lra].
Qed.

(** ** C36 *)
Theorem C36_same_as_mean_square : forall Fl (t p : IOType (cplx (F Fl))),
  d_loss Fl t p NormCrossEntropy = d_loss Fl t p MeanSquare.
Proof. intros Fl [t|t] [p|p]; reflexivity. Qed.
Print Assumptions C36_same_as_mean_square.

(** What the gradient should have been. *)
Theorem C36_true_gradient : forall (t : list RC) (p : R -> list RC) (v : list RC),
  length t = length v -> (0 < length v)%nat -> vderiv p v ->
  exists l : R -> R, (forall s, loss ROps (IOScalar t) (IOScalar (p s)) NormCrossEntropy = Ok (l s)) /\
    is_derive l 0 (rate (ce_grad t (p 0)) v).
Proof.
  intros t p v E Z D. exists (fun s => norm_ce_loss ROps t (p s)). split; [reflexivity | now apply ce_derive].
Qed.
Print Assumptions C36_true_gradient.

(** Target (1, 0), prediction (-1, 0): moving the prediction against the
    conjugate of the returned gradient increases the cross entropy. *)
Theorem C36_refuted : exists (t p g : list RC) (l : R -> R) (r : R),
  d_loss ROps (IOScalar t) (IOScalar p) NormCrossEntropy = Ok g /\
  let step := map (fun x => (- conj x)%RC) g in
  (forall s, loss ROps (IOScalar t) (IOScalar (line p step s)) NormCrossEntropy = Ok (l s)) /\
  is_derive l 0 r /\ 0 < r /\ rate g step < 0.
Proof.
  destruct (C36_true_gradient [mkC 1 0; mkC 0 0] (line [mkC (-1) 0; mkC 0 0] [mkC 2 0; mkC 0 0]) [mkC 2 0; mkC 0 0]) as (l & L & D);
    [reflexivity | cbn; lia | apply line_vderiv|].
  exists [mkC 1 0; mkC 0 0], [mkC (-1) 0; mkC 0 0]. eexists. exists l. eexists. split; [reflexivity|]. cbv zeta.
  set (step := map _ _).
  assert (ES : step = [mkC 2 0; mkC 0 0]).
  { unfold step. cbn. repeat (f_equal; try (apply c_ext; cbn; ring)). }
  clearbody step. subst step.
  split; [exact L|]. split; [exact D|].
  set (q := line _ _ 0). assert (EQ : q = [mkC (-1) 0; mkC 0 0]).
  { unfold q, line. cbn [length seq map nth]. repeat (f_equal; try (apply c_ext; cbn; ring)). }
  clearbody q. subst q. split.
  - unfold rate, ce_grad. cbn [length seq map nth]. rewrite !rsum_S, !rsum_0. cbn [nth].
    assert (S : softmax [mkC (-1) 0; mkC 0 0] 0 < 1) by (apply softmax_lt1; cbn; lia).
    set (s0 := softmax _ 0) in *. set (s1 := softmax _ 1). cbn -[Rplus Rmult Rminus Ropp]. lra.
  - unfold rate. cbn [length]. rewrite !rsum_S, rsum_0. cbn. lra.
Qed.
Print Assumptions C36_refuted.

Example C36_ex : ce_grad [mkC 1 0; mkC 0 0] [mkC 0 0; mkC 0 0] = [mkC 0 0; mkC 0 0].
Proof.
  unfold ce_grad. cbn [length seq map nth]. set (a := softmax _ 0). set (b := softmax _ 1).
  repeat (f_equal; try (apply c_ext; cbn; ring)).
Qed.

(** ** C37 *)
Definition same_kind {T} (a b : IOType T) : Prop :=
  match a, b with IOScalar _, IOScalar _ | IOMatrix _, IOMatrix _ => True | _, _ => False end.

Theorem C37_type_check : forall Fl (t p : IOType (cplx (F Fl))) f,
  (same_kind t p -> (exists l, loss Fl t p f = Ok l) /\ (exists g, d_loss Fl t p f = Ok g)) /\
  (~ same_kind t p -> loss Fl t p f = Err InconsistentIO /\ d_loss Fl t p f = Err InconsistentIO).
Proof. intros Fl [t|t] [p|p] f; cbn; split; intros H; try tauto; split; eauto. Qed.
Print Assumptions C37_type_check.

(** On feature maps the entries are those of the concatenated bodies. *)
Theorem C37_maps : forall Fl (t p : list (matrix (cplx (F Fl)))) f,
  loss Fl (IOMatrix t) (IOMatrix p) f = loss Fl (IOScalar (concat (map body t))) (IOScalar (concat (map body p))) f /\
  d_loss Fl (IOMatrix t) (IOMatrix p) f = d_loss Fl (IOScalar (concat (map body t))) (IOScalar (concat (map body p))) f.
Proof. intros. cbn [loss d_loss]. rewrite !flat_map_concat_map. auto. Qed.
Print Assumptions C37_maps.

Example C37_ex : same_kind (IOScalar [1%nat]) (IOScalar []) /\ ~ same_kind (IOScalar [1%nat]) (IOMatrix []).
Proof. cbn. tauto. Qed.

(** ** C38 *)
Theorem C38_release : forall T (x : IOType T),
  (forall v, release_vec x = Ok v <-> x = IOScalar v) /\ (forall m, release_maps x = Ok m <-> x = IOMatrix m) /\
  (forall e, release_vec x = Err e <-> exists m, x = IOMatrix m) /\ (forall e, release_maps x = Err e <-> exists v, x = IOScalar v).
Proof.
  intros T [v|m]; cbn; repeat split; intros; try congruence; try (destruct H; congruence); try (eexists; reflexivity);
    destruct e; reflexivity.
Qed.
Print Assumptions C38_release.

Theorem C38_slices : forall T (x : IOType T),
  (forall v, as_slice x = Ret v <-> x = IOScalar v) /\ (forall v, to_vec x = Ret v <-> x = IOScalar v) /\
  (as_slice x = Panic <-> exists m, x = IOMatrix m) /\ (to_vec x = Panic <-> exists m, x = IOMatrix m) /\
  (forall w, as_mut_write x w = Panic <-> exists m, x = IOMatrix m) /\
  (forall v w, x = IOScalar v -> length w = length v -> as_mut_write x w = Ret (IOScalar w)).
Proof.
  intros T [v|m]; cbn; repeat split; intros; try congruence; try (destruct H; congruence); try (eexists; reflexivity).
  injection H as <-. f_equal. f_equal. revert w H0. induction v as [|a v IH]; intros [|b w] H0; cbn in *; try discriminate; [reflexivity|].
  f_equal. apply IH. congruence.
Qed.
Print Assumptions C38_slices.

Example C38_ex : as_mut_write (IOScalar [1; 2]%nat) [3; 4]%nat = Ret (IOScalar [3; 4]%nat).
Proof. reflexivity. Qed.
