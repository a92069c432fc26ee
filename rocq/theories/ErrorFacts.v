(** * Lemmas about loss and error rate *)
From Coq Require Import Reals Lra.
From Verif Require Import Base BaseFacts Float Matrix Cplx Random Act Input Loss Dense Conv Layer Dataset Network SpecMatrix RFloat CFacts SpecLoss LossFacts SpecEval PropEval PropLoss SpecError.
Local Open Scope nat_scope.

Lemma one_hot_length : forall m k, length (one_hot m k) = m.
Proof. intros. unfold one_hot. now rewrite map_length, seq_length. Qed.

Lemma one_hot_nth : forall m k i, i < m -> nth i (one_hot m k) 0%RC = if i =? k then mkC 1%R 0%R else mkC 0%R 0%R.
Proof.
  intros m k i H. apply nth_error_nth. unfold one_hot. rewrite nth_error_map, (nth_error_nth' (seq 0 m) 0) by (now rewrite seq_length). cbn [option_map]. rewrite seq_nth by assumption. reflexivity.
Qed.

Lemma sq_nonneg : forall c : RC, (0 <= c_norm_sq ROps c)%R.
Proof. intros [x y]. unfold c_norm_sq, fsq. cbn. nra. Qed.

Lemma max_is : forall (v : list RC) k, k < length v -> (forall j, j < length v -> j <> k -> (c_norm_sq ROps (nth j v 0%RC) < c_norm_sq ROps (nth k v 0%RC))%R) -> max_index ROps v = k.
Proof.
  intros v k Hk H. apply (C56_index_unique v); [apply C56_index_exact; intros ->; cbn in Hk; lia|]. split; [exact Hk|]. split.
  - intros j a b Ha Hb. assert (j < length v) by (apply nth_error_Some; congruence). apply Rltb_ge. apply (nth_error_nth v j 0%RC) in Ha. apply (nth_error_nth v k 0%RC) in Hb.
    destruct (Nat.eq_dec j k) as [->|N]; [rewrite <- Ha, <- Hb; apply Rle_refl|]. specialize (H j H0 N). rewrite <- Ha, <- Hb. apply Rlt_le. exact H.
  - intros j a b L Ha Hb. apply Rltb_lt. apply (nth_error_nth v j 0%RC) in Ha. apply (nth_error_nth v k 0%RC) in Hb. rewrite <- Ha, <- Hb. apply H; lia.
Qed.

Lemma max_ge : forall (v : list RC) j, j < length v -> (c_norm_sq ROps (nth j v 0%RC) <= c_norm_sq ROps (nth (max_index ROps v) v 0%RC))%R.
Proof.
  intros v j Hj. destruct (C56_index_exact v) as (L & M & _); [intros ->; cbn in Hj; lia|]. apply Rltb_ge. apply (M j); apply nth_error_nth'; assumption.
Qed.

Lemma max_lt : forall v : list RC, v <> [] -> max_index ROps v < length v.
Proof. intros v H. exact (proj1 (C56_index_exact v H)). Qed.

Lemma max_one_hot : forall m k, k < m -> max_index ROps (one_hot m k) = k.
Proof.
  intros m k H. apply max_is; rewrite one_hot_length; [exact H|]. intros j Hj N. rewrite !one_hot_nth by assumption. rewrite Nat.eqb_refl, (proj2 (Nat.eqb_neq j k) N).
  unfold c_norm_sq, fsq. cbn. lra.
Qed.

Lemma rsum_ge2 : forall f n i j, (forall a, a < n -> (0 <= f a)%R) -> i < n -> j < n -> i <> j -> (f i + f j <= rsum f n)%R.
Proof.
  intros f n i j P Hi Hj N. pose (g := fun a => if a =? j then 0%R else f a). pose (h := fun a => if a =? j then f a else 0%R).
  rewrite (rsum_ext f (fun a => g a + h a)%R) by (intros a _; unfold g, h; destruct (a =? j); ring). rewrite rsum_plus.
  assert (G : (f i <= rsum g n)%R).
  { replace (f i) with (g i) by (unfold g; now rewrite (proj2 (Nat.eqb_neq i j) N)). apply rsum_ge; [|exact Hi]. intros a Ha. unfold g. destruct (a =? j); [lra | auto]. }
  assert (H : (f j <= rsum h n)%R).
  { replace (f j) with (h j) by (unfold h; now rewrite Nat.eqb_refl). apply rsum_ge; [|exact Hj]. intros a Ha. unfold h. destruct (a =? j); [auto | lra]. }
  lra.
Qed.

(** ** One point *)
Lemma wrong_beaten : forall m k (v : list RC), length v = m -> k < m -> max_index ROps v <> k ->
  exists j, j < m /\ j <> k /\ (c_norm_sq ROps (nth k v 0%RC) <= c_norm_sq ROps (nth j v 0%RC))%R.
Proof.
  intros m k v L Hk N. exists (max_index ROps v). split; [rewrite <- L; apply max_lt; intros ->; cbn in L; lia|]. split; [exact N|]. apply max_ge. lia.
Qed.

Lemma square_point : forall m k (v : list RC), 2 <= m -> k < m -> length v = m ->
  exists l : R, loss ROps (IOScalar (one_hot m k)) (IOScalar v) MeanSquare = Ok l /\ (0 <= l)%R /\ (max_index ROps v <> k -> (/ (2 * (INR m - 1)) <= l)%R).
Proof.
  intros m k v M Hk L. destruct (C33_exact (one_hot m k) v) as (l & E & EL & P & _); [rewrite one_hot_length; lia|]. exists l. split; [exact E|]. split; [exact P|]. intros N.
  rewrite one_hot_length, L, Nat.min_id in EL. assert (M1 : (1 < INR m)%R) by (apply (lt_INR 1); lia).
  destruct (wrong_beaten m k v L Hk N) as (j & Hj & JK & B). unfold sse in EL. rewrite one_hot_length, L, Nat.min_id in EL.
  pose proof (rsum_ge2 (fun i => c_norm_sq ROps (nth i (one_hot m k) 0 - nth i v 0)%RC) m k j ltac:(intros; apply sq_nonneg) Hk Hj ltac:(congruence)) as G. cbv beta in G.
  rewrite !one_hot_nth in G by assumption. rewrite Nat.eqb_refl, (proj2 (Nat.eqb_neq j k) JK) in G.
  assert (H : (/ 2 <= rsum (fun i => c_norm_sq ROps (nth i (one_hot m k) 0 - nth i v 0)%RC) m)%R).
  { eapply Rle_trans; [|exact G]. revert B. generalize (nth k v 0%RC) (nth j v 0%RC). intros [x y] [u w]. unfold c_norm_sq, fsq. cbn. change (F ROps) with R in *. clear. intros B. 
    pose proof (Rle_0_sqr (x - / 2)). unfold Rsqr in *. pose proof (Rle_0_sqr y). unfold Rsqr in *. lra. }
  rewrite EL. rewrite Rinv_mult_distr by lra. apply Rmult_le_compat_r; [apply Rlt_le, Rinv_0_lt_compat; lra | exact H].
Qed.

Lemma entropy_point : forall m k (v : list RC), k < m -> length v = m ->
  exists l : R, loss ROps (IOScalar (one_hot m k)) (IOScalar v) NormCrossEntropy = Ok l /\ l = (- ln (softmax v k))%R /\ (0 <= l)%R /\
    (max_index ROps v <> k -> (ln 2 <= l)%R) /\ (max_index ROps v = k -> (l <= ln (INR m))%R).
Proof.
  intros m k v Hk L. exists (- ln (softmax v k))%R. split; [|split; [reflexivity|]].
  - rewrite C35_softmax by (rewrite one_hot_length; congruence). do 2 f_equal. rewrite L.
    rewrite (rsum_ext _ (fun i => if i =? k then ln (softmax v k) else 0)%R).
    + clear - Hk. induction m as [|m IH]; [lia|]. rewrite rsum_S. destruct (Nat.eq_dec m k) as [->|N].
      * rewrite Nat.eqb_refl, rsum_zero; [ring|]. intros i Hi. rewrite (proj2 (Nat.eqb_neq i k)) by lia. reflexivity.
      * rewrite (proj2 (Nat.eqb_neq m k) N), IH by lia. ring.
    + intros i Hi. rewrite one_hot_nth by assumption. destruct (Nat.eqb_spec i k) as [->|]; cbn; ring.
  - pose (e := fun j => exp (c_norm_sq ROps (nth j v 0%RC))). assert (EP : forall j, (0 < e j)%R) by (intros; apply exp_pos).
    assert (S1 : (e k <= rsum e m)%R) by (apply rsum_ge; [intros; apply Rlt_le, EP | exact Hk]). pose proof (EP k) as P.
    assert (SD : softmax v k = (e k / rsum e m)%R) by (unfold softmax; rewrite L; reflexivity). assert (SP : (0 < softmax v k)%R) by (rewrite SD; apply Rdiv_lt_0_compat; lra).
    assert (U : forall a, (0 < a)%R -> (a * e k <= rsum e m)%R -> (ln a <= - ln (softmax v k))%R).
    { intros a A H. rewrite <- ln_Rinv by exact SP. assert (Q : (/ softmax v k = rsum e m / e k)%R) by (rewrite SD; field; lra). rewrite Q.
      assert (D : (a <= rsum e m / e k)%R). { apply (Rmult_le_reg_r (e k)); [exact P|]. unfold Rdiv. rewrite Rmult_assoc, Rinv_l by lra. lra. }
      destruct D as [D| ->]; [apply Rlt_le, ln_increasing; assumption | apply Rle_refl]. }
    split; [|split].
    + rewrite <- ln_1. apply U; lra.
    + intros N. destruct (wrong_beaten m k v L Hk N) as (j & Hj & JK & B). apply U; [lra|]. pose proof (rsum_ge2 e m k j ltac:(intros; apply Rlt_le, EP) Hk Hj ltac:(congruence)) as G.
      assert (e k <= e j)%R by (unfold e; destruct B as [B|B]; [apply Rlt_le, exp_increasing, B | right; now f_equal]). lra.
    + intros MX. assert (T : (rsum e m <= INR m * e k)%R).
      { assert (Q : forall q, q <= m -> (rsum e q <= INR q * e k)%R); [|apply Q; lia]. induction q as [|q IH]; intros Hq; [rewrite rsum_0; cbn; lra|]. rewrite rsum_S, S_INR.
        assert (e q <= e k)%R by (unfold e; pose proof (max_ge v q ltac:(lia)) as B; rewrite MX in B; destruct B as [B|B]; [apply Rlt_le, exp_increasing, B | right; now f_equal]).
        specialize (IH ltac:(lia)). lra. }
      rewrite <- ln_Rinv by exact SP. assert (Q : (/ softmax v k = rsum e m / e k)%R) by (rewrite SD; field; lra). rewrite Q.
      assert (D : (rsum e m / e k <= INR m)%R). { apply (Rmult_le_reg_r (e k)); [exact P|]. unfold Rdiv. rewrite Rmult_assoc, Rinv_l by lra. lra. }
      assert (PP : (0 < rsum e m / e k)%R) by (apply Rdiv_lt_0_compat; lra). destruct D as [D|D]; [apply Rlt_le, ln_increasing; assumption | rewrite D; apply Rle_refl].
Qed.

(** ** A dataset *)
Lemma fold_sum : forall l (a : R), fold_left Rplus l a = (a + fold_right Rplus 0 l)%R.
Proof. induction l as [|x l IH]; intros a; cbn [fold_left fold_right]; [ring|]. rewrite IH. ring. Qed.

Section Data.
Context (p : prec) (n : network ROps) (m : nat) (f : ComplexLossFunc) (c : R).
Context (HL : forall k v, k < m -> length v = m -> exists l : R, loss ROps (IOScalar (one_hot m k)) (IOScalar v) f = Ok l /\ (0 <= l)%R /\ (max_index ROps v <> k -> (c <= l)%R)).

Lemma evaluate : (0 <= c)%R -> forall xs ks, length ks = length xs -> (forall k, In k ks -> k < m) -> (forall x, In x xs -> exists v, predicts ROps p n x v /\ length v = m) ->
  exists preds vals, Forall2 (predicts ROps p n) xs preds /\ Forall2 (fun q v => loss ROps (fst q) (snd q) f = Ok v) (combine (map (fun k => IOScalar (one_hot m k)) ks) (map (@IOScalar _) preds)) vals /\
    length vals = length xs /\ agreements (map (max_index ROps) preds) (map (max_index ROps) (map (one_hot m) ks)) <= length xs /\
    (c * (INR (length xs) - INR (agreements (map (max_index ROps) preds) (map (max_index ROps) (map (one_hot m) ks)))) <= fold_right Rplus 0 vals)%R /\
    (forall C, (forall k v l, k < m -> length v = m -> max_index ROps v = k -> loss ROps (IOScalar (one_hot m k)) (IOScalar v) f = Ok l -> (l <= C)%R) ->
       agreements (map (max_index ROps) preds) (map (max_index ROps) (map (one_hot m) ks)) = length xs -> (fold_right Rplus 0 vals <= INR (length xs) * C)%R).
Proof.
  intros CP. induction xs as [|x xs IH]; intros [|k ks] L HK HX; try discriminate.
  - exists [], []. cbn [map combine length agreements fold_right INR]. split; [constructor|]. split; [constructor|]. split; [reflexivity|]. split; [lia|]. split; [rewrite Rminus_eq_0, Rmult_0_r; apply Rle_refl|]. intros C _ _. rewrite Rmult_0_l. apply Rle_refl.
  - destruct (IH ks (eq_add_S _ _ L) ltac:(intros; apply HK; now right) ltac:(intros; apply HX; now right)) as (preds & vals & F1 & F2 & L1 & A & B & D).
    destruct (HX x (or_introl eq_refl)) as (v & PV & LV). destruct (HL k v (HK k (or_introl eq_refl)) LV) as (l & E & P & W).
    exists (v :: preds), (l :: vals). split; [now constructor|]. split; [cbn [map combine]; constructor; [exact E | exact F2]|]. split; [exact (f_equal S L1)|]. cbn [map agreements length fold_right].
    rewrite (max_one_hot m k (HK k (or_introl eq_refl))). rewrite plus_INR, S_INR. destruct (Nat.eqb_spec (max_index ROps v) k) as [Q|Q]; cbn [INR]; change (F ROps) with R in *.
    + split; [lia|]. split; [lra|]. intros C HC AG. specialize (D C HC ltac:(lia)). pose proof (HC k v l (HK k (or_introl eq_refl)) LV Q E). lra.
    + split; [lia|]. split; [specialize (W Q); lra|]. intros C HC AG. exfalso. lia.
Qed.

Theorem rate_bound : (0 < c)%R -> forall xs ks, classifies p n m xs ks ->
  exists L a : R, net_loss ROps p n (labelled m xs ks) f = Ret (Ok L) /\ net_max_pred_test ROps p n (labelled m xs ks) = Ret a /\
    (c * (1 - a) <= L)%R /\ ((INR (length xs) * L < c)%R -> a = 1%R) /\
    (forall C, (forall k v l, k < m -> length v = m -> max_index ROps v = k -> loss ROps (IOScalar (one_hot m k)) (IOScalar v) f = Ok l -> (l <= C)%R) -> a = 1%R -> (L <= C)%R).
Proof.
  intros CP xs ks (NE & LK & HK & HX). destruct (evaluate ltac:(lra) xs ks LK HK HX) as (preds & vals & F1 & F2 & L1 & A & B & D).
  destruct vals as [|v vs]; [destruct xs; [congruence | discriminate]|].
  assert (FN : forall q, (fofnat ROps q : R) = INR q) by (intros; apply fofnat_R).
  exists (fold_left Rplus vs v / INR (length xs))%R. eexists. split.
  { rewrite (C57_mean ROps p n (labelled m xs ks) f (map (@IOScalar _) preds) v vs).
    - unfold ds_n_points, labelled. cbn [ds_inputs ds_target fdiv ROps]. rewrite FN. try rewrite map_length, LK. reflexivity.
    - unfold labelled. cbn [ds_inputs]. clear - F1. induction F1; cbn; constructor; auto.
    - unfold labelled. cbn [ds_inputs ds_target]. now rewrite map_length.
    - exact F2. }
  split.
  { apply (C56_accuracy ROps p n (labelled m xs ks) preds (map (one_hot m) ks) F1).
    - unfold labelled. cbn [ds_target]. now rewrite map_map.
    - rewrite map_length, LK. now apply Forall2_len in F1. }
  rewrite map_length, LK. cbn [fdiv ROps]. rewrite !FN. set (g := agreements _ _) in *. assert (N0 : (0 < INR (length xs))%R) by (apply lt_0_INR; destruct xs; [congruence | cbn; lia]).
  rewrite fold_sum. change (v + fold_right Rplus 0 vs)%R with (fold_right Rplus 0%R (v :: vs)) in *. set (s := fold_right Rplus 0%R (v :: vs)) in *. clearbody s g.
  assert (GA : (INR g <= INR (length xs))%R) by (apply le_INR, A). set (N := INR (length xs)) in *.
  assert (Q1 : (N * (s / N) = s)%R) by (field; lra). assert (Q2 : (N * (INR g / N) = INR g)%R) by (field; lra).
  split; [|split].
  - apply (Rmult_le_reg_l N); [exact N0|]. rewrite Q1. replace (N * (c * (1 - INR g / N)))%R with (c * (N - N * (INR g / N)))%R by ring. rewrite Q2. exact B.
  - rewrite Q1. intros H. assert (G : (N - INR g < 1)%R).
    { apply (Rmult_lt_reg_l c); [exact CP|]. lra. }
    assert (g = length xs).
    { destruct (Nat.eq_dec g (length xs)) as [|NQ]; [assumption|]. exfalso. assert (S g <= length xs) by lia. apply le_INR in H0. rewrite S_INR in H0. fold N in H0. lra. }
    subst g. fold N. field. lra.
  - intros C HC H1. assert (INR g = N) by (rewrite <- Q2, H1; ring). specialize (D C HC ltac:(apply INR_eq; exact H)). apply (Rmult_le_reg_l N); [exact N0|]. rewrite Q1. exact D.
Qed.
End Data.
