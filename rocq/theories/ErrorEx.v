(** * The bounds on the error rate, and networks that attain them *)
From Coq Require Import Reals Lra.
From Verif Require Import Base BaseFacts Float Matrix Cplx Random Act Input Loss Dense Conv Layer Dataset Network SpecMatrix RFloat CFacts SpecLoss LossFacts SpecEval PropRandom PropEval PropLoss SpecError ErrorFacts.
Local Open Scope nat_scope.

Theorem targets_one_hot : forall m k s, k < m -> c_gen_pred ROps m k s = Ret (Ok (one_hot m k)).
Proof.
  intros m k s H. destruct (proj1 (C12_one_hot (c_default ROps) (c_unit ROps) (c_add_assign ROps) m k s) H) as (v & E & L & N). unfold c_gen_pred. rewrite E. do 2 f_equal.
  apply (nth_ext _ _ 0%RC 0%RC); [now rewrite one_hot_length|]. intros i Hi. rewrite L in Hi. rewrite one_hot_nth by assumption. rewrite (nth_error_nth _ _ _ (N i Hi)).
  destruct (i =? k); apply c_ext; cbn; ring.
Qed.

Theorem square_rate : forall p n m xs ks, 2 <= m -> classifies p n m xs ks ->
  exists L a : R, net_loss ROps p n (labelled m xs ks) MeanSquare = Ret (Ok L) /\ net_max_pred_test ROps p n (labelled m xs ks) = Ret a /\
    (1 - a <= 2 * (INR m - 1) * L)%R /\ ((2 * (INR m - 1) * INR (length xs) * L < 1)%R -> a = 1%R).
Proof.
  intros p n m xs ks M H. assert (M1 : (1 < INR m)%R) by (apply (lt_INR 1); lia). assert (CP : (0 < / (2 * (INR m - 1)))%R) by (apply Rinv_0_lt_compat; lra).
  destruct (rate_bound p n m MeanSquare _ (fun k v Hk Hv => square_point m k v M Hk Hv) CP xs ks H) as (L & a & E1 & E2 & B1 & B2 & _).
  exists L, a. split; [exact E1|]. split; [exact E2|]. assert (I : (2 * (INR m - 1) * / (2 * (INR m - 1)) = 1)%R) by (field; lra). set (c := (/ (2 * (INR m - 1)))%R) in *. split.
  - replace (1 - a)%R with (2 * (INR m - 1) * (c * (1 - a)))%R by (rewrite <- Rmult_assoc, I; ring). apply Rmult_le_compat_l; lra.
  - intros Q. apply B2. apply (Rmult_lt_reg_l (2 * (INR m - 1))); [lra|]. rewrite I. lra.
Qed.

Lemma ln2_pos : (0 < ln 2)%R.
Proof. rewrite <- ln_1. apply ln_increasing; lra. Qed.

Theorem entropy_rate : forall p n m xs ks, classifies p n m xs ks ->
  exists L a : R, net_loss ROps p n (labelled m xs ks) NormCrossEntropy = Ret (Ok L) /\ net_max_pred_test ROps p n (labelled m xs ks) = Ret a /\
    (1 - a <= L / ln 2)%R /\ ((INR (length xs) * L < ln 2)%R -> a = 1%R) /\ (a = 1%R -> (L <= ln (INR m))%R).
Proof.
  intros p n m xs ks H. pose proof ln2_pos as P.
  assert (HL : forall k v, k < m -> length v = m -> exists l : R, loss ROps (IOScalar (one_hot m k)) (IOScalar v) NormCrossEntropy = Ok l /\ (0 <= l)%R /\ (max_index ROps v <> k -> (ln 2 <= l)%R)).
  { intros k v Hk Hv. destruct (entropy_point m k v Hk Hv) as (l & E & _ & Q & W & _). eauto. }
  destruct (rate_bound p n m NormCrossEntropy _ HL P xs ks H) as (L & a & E1 & E2 & B1 & B2 & B3). exists L, a. split; [exact E1|]. split; [exact E2|]. split; [|split; [exact B2|]].
  - apply (Rmult_le_reg_r (ln 2)); [exact P|]. unfold Rdiv. rewrite Rmult_assoc, Rinv_l by lra. lra.
  - apply B3. intros k v l Hk Hv Q E. destruct (entropy_point m k v Hk Hv) as (l' & E' & _ & _ & _ & W). assert (l' = l) by congruence. subst l'. exact (W Q).
Qed.

(** A network with constant outputs [u], [v]. *)
Definition fixed (u v : RC) : network ROps := [LDense (mkDense ROps (from_body [0%RC; 0%RC] 2 1) [u; v] ActNone)].
Lemma fixed_forward : forall p u v x, predicts ROps p (fixed u v) (IOScalar [x]) [u; v].
Proof.
  intros. unfold predicts. cbn. change (c_add_assign ROps) with (c_add ROps). assert (E : forall w : RC, (0%RC + 0%RC * x + w)%RC = w) by (intros; ring).
  exact (f_equal (fun l => Ret (Ok (IOScalar l))) (f_equal2 (fun a b => [a; b]) (E u) (E v))).
Qed.

Lemma fixed_classifies : forall p u v x, classifies p (fixed u v) 2 [IOScalar [x]] [1].
Proof.
  intros. split; [discriminate|]. split; [reflexivity|]. split; [intros k [<-|[]]; lia|]. intros q [<-|[]]. exists [u; v]. split; [apply fixed_forward | reflexivity].
Qed.

Lemma fixed_loss : forall p u v x f l, loss ROps (IOScalar (one_hot 2 1)) (IOScalar [u; v]) f = Ok l -> net_loss ROps p (fixed u v) (labelled 2 [IOScalar [x]] [1]) f = Ret (Ok l).
Proof.
  intros p u v x f l E. rewrite (C57_mean ROps p (fixed u v) (labelled 2 [IOScalar [x]] [1]) f [IOScalar [u; v]] l []).
  - do 2 f_equal. cbn [fold_left]. rewrite fofnat_R. unfold Rdiv. cbn. unfold Rdiv. change (l * / 1 = l)%R. rewrite Rinv_1. apply Rmult_1_r.
  - constructor; [apply fixed_forward | constructor].
  - reflexivity.
  - constructor; [exact E | constructor].
Qed.

Lemma fixed_rate : forall p u v x, net_max_pred_test ROps p (fixed u v) (labelled 2 [IOScalar [x]] [1]) = Ret (if max_index ROps [u; v] =? 1 then 1%R else 0%R).
Proof.
  intros p u v x. rewrite (C56_accuracy ROps p (fixed u v) (labelled 2 [IOScalar [x]] [1]) [[u; v]] [one_hot 2 1]).
  - cbn [map agreements length]. rewrite max_one_hot by lia. rewrite !fofnat_R. destruct (_ =? 1); cbn; f_equal; lra.
  - constructor; [apply fixed_forward | constructor].
  - reflexivity.
  - reflexivity.
Qed.

Lemma two_square : forall u v : RC, loss ROps (IOScalar (one_hot 2 1)) (IOScalar [u; v]) MeanSquare = Ok (c_norm_sq ROps u + c_norm_sq ROps (mkC 1%R 0%R - v)%RC)%R.
Proof.
  intros u v. destruct (C33_exact (one_hot 2 1) [u; v]) as (l & E & EL & _); [cbn; lia|]. rewrite E. f_equal. rewrite EL. unfold sse. cbn [length Nat.min one_hot map seq]. rewrite !rsum_S, rsum_0. cbn [nth Nat.eqb].
  destruct u as [a b], v as [c d]. unfold c_norm_sq, fsq. cbn. field.
Qed.

Theorem bounds_attained : exists n xs ks, forall p, classifies p n 2 xs ks /\ net_max_pred_test ROps p n (labelled 2 xs ks) = Ret 0%R /\
  net_loss ROps p n (labelled 2 xs ks) MeanSquare = Ret (Ok (/ 2)%R) /\ net_loss ROps p n (labelled 2 xs ks) NormCrossEntropy = Ret (Ok (ln 2)).
Proof.
  pose (h := mkC (/ 2)%R 0%R : RC). exists (fixed h h), [IOScalar [mkC 0%R 0%R]], [1]. intros p. split; [apply fixed_classifies|].
  assert (MX : max_index ROps [h; h] = 0).
  { apply (C56_index_unique [h; h]); [apply C56_index_exact; discriminate|]. split; [cbn; lia|]. split; [|intros; lia]. intros j a b Ha Hb. apply Rltb_ge.
    assert (a = h) by (destruct j as [|[|[|j]]]; cbn in Ha; congruence). assert (b = h) by (cbn in Hb; congruence). subst a b. apply Rle_refl. }
  split; [rewrite fixed_rate, MX; reflexivity|]. split.
  - apply fixed_loss. rewrite two_square. apply (f_equal (@Ok R LossCalcError)). unfold h, c_norm_sq, fsq. cbn. field.
  - apply fixed_loss. destruct (entropy_point 2 1 [h; h] ltac:(lia) eq_refl) as (l & E & EL & _). rewrite E, EL. apply (f_equal (@Ok R LossCalcError)). rewrite <- ln_Rinv.
    + f_equal. unfold softmax. cbn [length nth]. rewrite !rsum_S, rsum_0. cbn [nth]. pose proof (exp_pos (c_norm_sq ROps h)). field. split; lra.
    + unfold softmax. apply Rdiv_lt_0_compat; [apply exp_pos|]. cbn [length]. rewrite !rsum_S, rsum_0. cbn [nth]. pose proof (exp_pos (c_norm_sq ROps h)). lra.
Qed.

Theorem large_loss : forall B : R, exists n xs ks, forall p, classifies p n 2 xs ks /\ net_max_pred_test ROps p n (labelled 2 xs ks) = Ret 1%R /\
  exists L : R, net_loss ROps p n (labelled 2 xs ks) MeanSquare = Ret (Ok L) /\ (B < L)%R.
Proof.
  intros B. pose (s := (Rabs B + 2)%R). pose (v := mkC s 0%R : RC). pose (o := mkC 0%R 0%R : RC). exists (fixed o v), [IOScalar [o]], [1]. intros p. split; [apply fixed_classifies|].
  pose proof (Rabs_pos B) as P. pose proof (Rle_abs B) as Q.
  assert (MX : max_index ROps [o; v] = 1).
  { apply max_is; [cbn; lia|]. intros [|[|j]] Hj N; cbn in Hj; try lia. cbn [nth]. unfold o, v, s, c_norm_sq, fsq. cbn. nra. }
  split; [rewrite fixed_rate, MX; reflexivity|]. eexists. split; [apply fixed_loss, two_square|]. unfold o, v, s, c_norm_sq, fsq. cbn. nra.
Qed.
