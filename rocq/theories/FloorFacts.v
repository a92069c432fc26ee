(** * The cross entropy of nearly perfect classifiers *)
From Coq Require Import Reals Lra Psatz.
From Verif Require Import Base BaseFacts Float Matrix Cplx Random Act Input Loss Dense Conv Layer Dataset Network SpecMatrix RFloat CFacts SpecLoss LossFacts SpecEval PropEval PropLoss FitFacts SpecError ErrorFacts SpecFloor.
Local Open Scope nat_scope.

Lemma ln_le : forall a b : R, (0 < a)%R -> (a <= b)%R -> (ln a <= ln b)%R.
Proof. intros a b A [H| ->]; [now apply Rlt_le, ln_increasing | apply Rle_refl]. Qed.
Lemma exp_le : forall a b : R, (a <= b)%R -> (exp a <= exp b)%R.
Proof. intros a b [H| ->]; [now apply Rlt_le, exp_increasing | apply Rle_refl]. Qed.
Lemma rsum_pos : forall f n, 0 < n -> (forall i, i < n -> (0 < f i)%R) -> (0 < rsum f n)%R.
Proof.
  intros f [|n] H P; [lia|]. rewrite rsum_S. assert (0 <= rsum f n)%R by (apply rsum_nonneg; intros; apply Rlt_le, P; lia). specialize (P n ltac:(lia)). lra.
Qed.

(** ln (sum of exp) moves no more than the largest of the exponents. *)
Lemma lse_moves : forall (a b : nat -> R) d n, 0 < n -> (forall i, i < n -> (a i <= b i + d)%R) ->
  (ln (rsum (fun i => exp (a i)) n) <= ln (rsum (fun i => exp (b i)) n) + d)%R.
Proof.
  intros a b d n N H. assert (PA : (0 < rsum (fun i => exp (a i)) n)%R) by (apply rsum_pos; [exact N | intros; apply exp_pos]).
  assert (PB : (0 < rsum (fun i => exp (b i)) n)%R) by (apply rsum_pos; [exact N | intros; apply exp_pos]).
  rewrite <- (ln_exp d) at 1. rewrite <- ln_mult by (try exact PB; apply exp_pos). apply ln_le; [exact PA|]. rewrite Rmult_comm. rewrite <- rsum_scal.
  apply rsum_le. intros i Hi. rewrite <- exp_plus. apply exp_le. specialize (H i Hi). lra.
Qed.

(** One entry, against 1 and against 0. *)
Lemma entry_moves : forall (w z : RC) s, (w = mkC 1%R 0%R \/ w = mkC 0%R 0%R) -> (c_norm_sq ROps (w - z)%RC <= s)%R ->
  (Rabs (c_norm_sq ROps z - c_norm_sq ROps w) <= 2 * sqrt s + s)%R.
Proof.
  intros w [x y] s H L. assert (S0 : (0 <= s)%R) by (eapply Rle_trans; [apply sq_nonneg | exact L]). pose proof (sqrt_pos s) as R0. pose proof (sqrt_sqrt s S0) as RR.
  unfold c_norm_sq, fsq in *. destruct H as [-> | ->]; cbn in *; change (F ROps) with R in *; set (r := sqrt s) in *; clearbody r.
  - assert (A : (Rabs (x - 1) <= r)%R) by (apply Rabs_le; split; nra). apply Rabs_le. apply Rabs_le_between in A || idtac. unfold Rabs in A. destruct (Rcase_abs (x - 1)); split; nra.
  - apply Rabs_le. split; nra.
Qed.

Lemma hot_sum : forall m k, k < m -> rsum (fun j => exp (c_norm_sq ROps (nth j (one_hot m k) 0%RC))) m = (exp 1 + (INR m - 1))%R.
Proof.
  intros m k H. rewrite (rsum_ext _ (fun j => if j =? k then exp 1 else 1)%R).
  - assert (Q : forall q, rsum (fun j => if j =? k then exp 1 else 1)%R q = (INR q + if k <? q then exp 1 - 1 else 0)%R).
    { induction q as [|q IH]; [rewrite rsum_0; cbn; ring|]. rewrite rsum_S, S_INR, IH. destruct (Nat.eqb_spec q k), (Nat.ltb_spec k q), (Nat.ltb_spec k (S q)); try lia; ring. }
    rewrite Q, (proj2 (Nat.ltb_lt k m) H). ring.
  - intros j Hj. rewrite one_hot_nth by assumption. destruct (j =? k); unfold c_norm_sq, fsq; cbn; [f_equal; ring|]. rewrite <- exp_0. f_equal. ring.
Qed.

Lemma floor_eq : forall m, 0 < m -> ce_floor m = (ln (exp 1 + (INR m - 1)) - 1)%R.
Proof.
  intros m H. apply (le_INR 1) in H. cbn [INR] in H. unfold ce_floor. pose proof (exp_pos 1) as E.
  replace (1 + (INR m - 1) / exp 1)%R with ((exp 1 + (INR m - 1)) * / exp 1)%R by (field; lra). rewrite ln_mult; [|lra|now apply Rinv_0_lt_compat]. rewrite ln_Rinv, ln_exp by exact E. ring.
Qed.

Lemma floor_point : forall m k (v : list RC), k < m -> length v = m ->
  exists c : R, loss ROps (IOScalar (one_hot m k)) (IOScalar v) NormCrossEntropy = Ok c /\
    (Rabs (c - ce_floor m) <= 2 * (2 * sqrt (sse (one_hot m k) v) + sse (one_hot m k) v))%R.
Proof.
  intros m k v Hk L. destruct (entropy_point m k v Hk L) as (c & E & EC & _). exists c. split; [exact E|]. rewrite EC, (floor_eq m) by lia. rewrite <- (hot_sum m k Hk).
  set (s := sse (one_hot m k) v). set (dl := (2 * sqrt s + s)%R).
  assert (SE : s = rsum (fun i => c_norm_sq ROps (nth i (one_hot m k) 0 - nth i v 0)%RC) m) by (unfold s, sse; now rewrite one_hot_length, L, Nat.min_id).
  assert (MV : forall j, j < m -> (Rabs (c_norm_sq ROps (nth j v 0%RC) - c_norm_sq ROps (nth j (one_hot m k) 0%RC)) <= dl)%R).
  { intros j Hj. apply entry_moves.
    - rewrite one_hot_nth by assumption. destruct (j =? k); [now left | now right].
    - rewrite SE. apply (rsum_ge (fun i => c_norm_sq ROps (nth i (one_hot m k) 0 - nth i v 0)%RC)); [intros; apply sq_nonneg | exact Hj]. }
  pose (a := fun j => c_norm_sq ROps (nth j v 0%RC) : R). pose (o := fun j => c_norm_sq ROps (nth j (one_hot m k) 0%RC) : R).
  assert (MV' : forall j, j < m -> (- dl <= a j - o j <= dl)%R) by (intros j Hj; specialize (MV j Hj); fold (a j) (o j) in MV; unfold Rabs in MV; destruct (Rcase_abs (a j - o j)); lra).
  assert (U1 : (ln (rsum (fun i => exp (a i)) m) <= ln (rsum (fun i => exp (o i)) m) + dl)%R) by (apply lse_moves; [lia|]; intros i Hi; specialize (MV' i Hi); lra).
  assert (U2 : (ln (rsum (fun i => exp (o i)) m) <= ln (rsum (fun i => exp (a i)) m) + dl)%R) by (apply lse_moves; [lia|]; intros i Hi; specialize (MV' i Hi); lra).
  assert (OK : o k = 1%R) by (unfold o; rewrite one_hot_nth, Nat.eqb_refl by assumption; unfold c_norm_sq, fsq; cbn; ring). pose proof (MV' k Hk) as UK. rewrite OK in UK.
  assert (SX : (- ln (softmax v k) = ln (rsum (fun i => exp (a i)) m) - a k)%R).
  { unfold softmax. rewrite L. unfold Rdiv. rewrite ln_mult; [|apply exp_pos | apply Rinv_0_lt_compat, rsum_pos; [lia | intros; apply exp_pos]]. rewrite ln_exp, ln_Rinv by (apply rsum_pos; [lia | intros; apply exp_pos]). change (- (a k + - ln (rsum (fun i => exp (a i)) m)) = ln (rsum (fun i => exp (a i)) m) - a k)%R. ring. }
  rewrite SX. apply Rabs_le. change (rsum (fun j => exp (c_norm_sq ROps (nth j (one_hot m k) 0%RC))) m) with (rsum (fun i => exp (o i)) m). split; lra.
Qed.

(** ** Data sets *)
Local Notation total := (fold_right Rplus 0%R).
Lemma cauchy : forall l : list R, Forall (fun s => (0 <= s)%R) l -> (total (map sqrt l) * total (map sqrt l) <= INR (length l) * total l)%R.
Proof.
  induction 1 as [|s l S H IH]; [cbn; lra|]. cbn [map fold_right length]. rewrite S_INR. pose proof (sqrt_pos s) as B. pose proof (sqrt_sqrt s S) as BB. set (b := sqrt s) in *. rewrite <- BB.
  assert (A0 : (0 <= total (map sqrt l))%R) by (clear; induction l as [|x l IH]; cbn [map fold_right]; [lra|]; pose proof (sqrt_pos x); lra). pose proof (pos_INR (length l)) as N0.
  assert (T0 : (0 <= total l)%R) by (clear - H; induction H; cbn [fold_right]; lra).
  set (A := total (map sqrt l)) in *. set (T := total l) in *. set (N := INR (length l)) in *. clearbody A T N b.
  assert (K : (2 * A * b <= N * (b * b) + T)%R).
  { destruct (Rle_lt_or_eq_dec 0 N N0) as [P| <-]; [|nra]. apply (Rmult_le_reg_l N); [exact P|]. pose proof (Rle_0_sqr (N * b - A)) as Q. unfold Rsqr in Q. nra. }
  nra.
Qed.

Section Data.
Context (p : prec) (n : network ROps) (m : nat) (M : 2 <= m).

Lemma both : forall xs ks, length ks = length xs -> (forall k, In k ks -> k < m) -> (forall x, In x xs -> exists v, predicts ROps p n x v /\ length v = m) ->
  exists preds sq (cs ms : list R), Forall2 (predicts ROps p n) xs preds /\ Forall (fun s => (0 <= s)%R) sq /\ length sq = length xs /\ length cs = length xs /\ length ms = length xs /\
    Forall2 (fun q v => loss ROps (fst q) (snd q) NormCrossEntropy = Ok v) (combine (map (fun k => IOScalar (one_hot m k)) ks) (map (@IOScalar _) preds)) cs /\
    Forall2 (fun q v => loss ROps (fst q) (snd q) MeanSquare = Ok v) (combine (map (fun k => IOScalar (one_hot m k)) ks) (map (@IOScalar _) preds)) ms /\
    ((INR m - 1) * total ms = total sq)%R /\ (Rabs (total cs - INR (length xs) * ce_floor m) <= 4 * total (map sqrt sq) + 2 * total sq)%R.
Proof.
  assert (M1 : (1 < INR m)%R) by (apply (lt_INR 1); lia).
  induction xs as [|x xs IH]; intros [|k ks] L HK HX; try discriminate.
  - exists [], [], [], []. cbn [map combine length fold_right INR]. do 2 (split; [constructor|]). do 3 (split; [reflexivity|]). do 2 (split; [constructor|]). split; [ring|]. rewrite Rmult_0_l, Rminus_0_r, Rabs_R0. lra.
  - destruct (IH ks (eq_add_S _ _ L) ltac:(intros; apply HK; now right) ltac:(intros; apply HX; now right)) as (preds & sq & cs & ms & F1 & S & L1 & L2 & L3 & F2 & F3 & T1 & T2).
    destruct (HX x (or_introl eq_refl)) as (v & PV & LV). pose proof (HK k (or_introl eq_refl)) as Hk.
    destruct (floor_point m k v Hk LV) as (c & EC & BC). destruct (C33_exact (one_hot m k) v) as (l & EM & EL & _); [rewrite one_hot_length; lia|]. rewrite one_hot_length, LV, Nat.min_id in EL.
    assert (S0 : (0 <= sse (one_hot m k) v)%R) by (unfold sse; apply rsum_nonneg; intros; apply sq_nonneg).
    exists (v :: preds), (sse (one_hot m k) v :: sq), (c :: cs), (l :: ms). split; [now constructor|]. split; [now constructor|]. cbn [map combine length fold_right].
    split; [exact (f_equal Datatypes.S L1)|]. split; [exact (f_equal Datatypes.S L2)|]. split; [exact (f_equal Datatypes.S L3)|]. split; [constructor; [exact EC | exact F2]|]. split; [constructor; [exact EM | exact F3]|].
    split; [rewrite Rmult_plus_distr_l, T1; f_equal; rewrite EL; field; lra|]. rewrite S_INR.
    replace (c + total cs - (INR (length xs) + 1) * ce_floor m)%R with ((c - ce_floor m) + (total cs - INR (length xs) * ce_floor m))%R by ring.
    eapply Rle_trans; [apply Rabs_triang|]. lra.
Qed.

Theorem floor_close : forall xs ks, classifies p n m xs ks ->
  exists L C : R, net_loss ROps p n (labelled m xs ks) MeanSquare = Ret (Ok L) /\ net_loss ROps p n (labelled m xs ks) NormCrossEntropy = Ret (Ok C) /\ (0 <= L)%R /\
    (Rabs (C - ce_floor m) <= 4 * sqrt ((INR m - 1) * L) + 2 * ((INR m - 1) * L))%R.
Proof.
  intros xs ks (NE & LK & HK & HX). destruct (both xs ks LK HK HX) as (preds & sq & cs & ms & F1 & S & L1 & L2 & L3 & F2 & F3 & T1 & T2).
  assert (M1 : (1 < INR m)%R) by (apply (lt_INR 1); lia).
  assert (LO : forall f vals, length vals = length xs -> Forall2 (fun q v => loss ROps (fst q) (snd q) f = Ok v) (combine (map (fun k => IOScalar (one_hot m k)) ks) (map (@IOScalar _) preds)) vals ->
    net_loss ROps p n (labelled m xs ks) f = Ret (Ok (total vals / INR (length xs))%R)).
  { intros f vals LV FV. destruct vals as [|v vs]; [destruct xs; [congruence | discriminate]|]. rewrite (C57_mean ROps p n (labelled m xs ks) f (map (@IOScalar _) preds) v vs).
    - unfold ds_n_points, labelled. cbn [ds_inputs ds_target fdiv ROps]. assert (FN : forall q, (fofnat ROps q : R) = INR q) by (intros; apply fofnat_R). rewrite FN. try rewrite map_length, LK.
      do 2 f_equal. pose proof (fold_sum vs v) as FS. change (v + total vs)%R with (total (v :: vs)) in FS. now rewrite <- FS.
    - unfold labelled. cbn [ds_inputs]. clear - F1. induction F1; cbn; constructor; auto.
    - unfold labelled. cbn [ds_inputs ds_target]. now rewrite map_length.
    - exact FV. }
  exists (total ms / INR (length xs))%R, (total cs / INR (length xs))%R. split; [now apply LO|]. split; [now apply LO|].
  assert (N0 : (0 < INR (length xs))%R) by (apply lt_0_INR; destruct xs; [congruence | cbn; lia]). pose proof (cauchy sq S) as CS. rewrite L1 in CS.
  assert (T0 : (0 <= total sq)%R) by (clear - S; induction S; cbn [fold_right]; lra).
  assert (A0 : (0 <= total (map sqrt sq))%R) by (clear; induction sq as [|x l IH]; cbn [map fold_right]; [lra|]; pose proof (sqrt_pos x); lra).
  replace ((INR m - 1) * (total ms / INR (length xs)))%R with (total sq / INR (length xs))%R by (rewrite <- T1; field; lra).
  set (N := INR (length xs)) in *. set (A := total (map sqrt sq)) in *. set (T := total sq) in *.
  assert (TN : (0 <= T / N)%R) by (apply Rmult_le_pos; [exact T0 | apply Rlt_le, Rinv_0_lt_compat, N0]). split.
  - apply Rmult_le_pos; [|apply Rlt_le, Rinv_0_lt_compat, N0]. apply (Rmult_le_reg_l (INR m - 1)); [lra|]. rewrite T1, Rmult_0_r. exact T0.
  - assert (AN : (A / N <= sqrt (T / N))%R).
    { rewrite <- (sqrt_square (A / N)) by (apply Rmult_le_pos; [exact A0 | apply Rlt_le, Rinv_0_lt_compat, N0]). apply sqrt_le_1_alt.
      apply (Rmult_le_reg_l (N * N)); [nra|]. replace (N * N * (A / N * (A / N)))%R with (A * A)%R by (field; lra). replace (N * N * (T / N))%R with (N * T)%R by (field; lra). exact CS. }
    assert (E : (total cs / N - ce_floor m = / N * (total cs - N * ce_floor m))%R) by (field; lra). rewrite E, Rabs_mult, (Rabs_pos_eq (/ N)) by (apply Rlt_le, Rinv_0_lt_compat, N0).
    eapply Rle_trans; [apply Rmult_le_compat_l; [apply Rlt_le, Rinv_0_lt_compat, N0 | exact T2]|].
    replace (/ N * (4 * A + 2 * T))%R with (4 * (A / N) + 2 * (T / N))%R by (field; lra). lra.
Qed.
End Data.
