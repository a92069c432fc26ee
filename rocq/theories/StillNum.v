(** * Steps that change nothing: IEEE arithmetic *)
From Coq Require Import ZArith Reals Lra Psatz.
From Flocq Require Import Core BinarySingleNaN.
From Verif Require Import Base BaseFacts Float Matrix Cplx Act Input Loss Dense Conv Layer Dataset Network RFloat BFloat CFacts SpecMatrix MatrixFacts
  SpecLayer SpecConv SpecNet SpecGeom SpecNan SpecRound NanFacts TrainFacts GradFacts2 TrainLaws PropTrain DeadFacts SpecDead DeadNum SpecStill StillFacts.
Local Open Scope nat_scope.
Local Notation re := Cplx.re. Local Notation im := Cplx.im.

Section IEEE.
Context (prec emax : Z) (Hp : Prec_gt_0 prec) (He : Prec_lt_emax prec emax) (L : libm (binary_float prec emax)) (p : Float.prec).
Local Notation B := (binary_float prec emax).
Local Notation Fl := (BOps prec emax Hp He L).
Local Notation nilb := (nilb prec emax).
Local Notation keptb := (keptb prec emax).
Local Notation K := (keptc Fl keptb).

Lemma bself : forall x : B, nilb (fsub Fl x x).
Proof.
  intros x. destruct (is_finite x) eqn:F.
  - right. pose proof (Bminus_correct prec emax Hp He mode_NE x x F F) as H. rewrite Rminus_eq_0, round_0, Rabs_R0 in H by apply valid_rnd_round_mode.
    rewrite Rlt_bool_true in H by apply bpow_gt_0. destruct H as (H & H1 & _). change (fsub Fl x x) with (Bminus mode_NE x x).
    destruct (Bminus mode_NE x x) as [s|s| |s m e E]; try discriminate; [now exists s|]. exfalso. cbn [B2R] in H. apply eq_0_F2R in H. destruct s; discriminate.
  - left. destruct x as [s|s| |s m e E]; try discriminate; [destruct s; reflexivity | reflexivity].
Qed.

Lemma bdiv : forall x y : B, nilb x -> nilb (fdiv Fl x y).
Proof.
  intros x y [X|(s & ->)]; [left; destruct x; try discriminate; destruct y; reflexivity|]. destruct y as [t|t| |t m e E]; try (right; eexists; reflexivity); left; reflexivity.
Qed.

Lemma zero_rate_nil : forall lr m s, zero_rate lr -> c_div Fl lr (c_of_nat Fl m) = Ret s -> nilc Fl nilb s.
Proof.
  intros lr m s Z E. assert (Z1 : nilb (re lr)) by (destruct Z as (a & b & ->); right; eexists; reflexivity). assert (Z2 : nilb (im lr)) by (destruct Z as (a & b & ->); right; eexists; reflexivity).
  destruct lr as [x y]. generalize dependent (c_of_nat Fl m). intros [u v] E. cbn [re im] in Z1, Z2. unfold c_div in E. destruct (feqb Fl _ _); [discriminate|].
  injection E as ES. symmetry in ES. cbn [re im] in ES.
  rewrite ES. split; apply bdiv; [apply (bxadd prec emax Hp He L) | apply (bxsub prec emax Hp He L)]; apply (bxmul prec emax Hp He L); auto.
Qed.

Lemma ieee_all : forall l l' : list (cplx B), Forall2 K l l' -> Forall2 same_or_nan l l'.
Proof. intros l l' H. induction H as [|a b l l' H _ IH]; constructor; auto. Qed.

Lemma krefl : forall a : B, keptb a a. Proof. intros a. left. now left. Qed.
Lemma ktrans : forall a b c : B, keptb a b -> keptb b c -> keptb a c.
Proof.
  intros a b c [H|H] [H'|H']; try (right; assumption).
  - left. eapply bstrans; eassumption.
  - right. destruct H' as [<-|(s & t & -> & ->)]; [exact H | discriminate].
Qed.

Theorem zero_rate_step : forall n data f lr n' r, Forall (layer_full Fl) n -> zero_rate lr -> net_gradient_opt Fl p n data f lr = Ret (n', Ok r) ->
  map (arch_of Fl) n' = map (arch_of Fl) n /\ Forall2 K (net_values Fl n) (net_values Fl n').
Proof.
  intros n data f lr n' r FU Z E.
  apply (still_rate Fl nilb keptb (bxadd prec emax Hp He L) (bxsub prec emax Hp He L) (bxneg prec emax Hp He L) (bxmul prec emax Hp He L) (bxkeep prec emax Hp He L) p n data f lr n' r FU);
    [intros s; now apply zero_rate_nil | exact E].
Qed.

Theorem zero_rate_forever : forall steps n n', Forall (layer_full Fl) n -> (forall d f lr, In (d, f, lr) steps -> zero_rate lr) -> train_steps Fl p n steps = Ret n' ->
  map (arch_of Fl) n' = map (arch_of Fl) n /\ Forall2 same_or_nan (net_values Fl n) (net_values Fl n').
Proof.
  intros steps n n' FU Z E. assert (G : map (arch_of Fl) n' = map (arch_of Fl) n /\ Forall2 K (net_values Fl n) (net_values Fl n')); [|destruct G as (G1 & G2); split; [exact G1 | now apply ieee_all]].
  revert n FU E. induction steps as [|[[d f] lr] steps IH]; intros n FU E; cbn [train_steps] in E.
  - injection E as <-. split; [reflexivity|]. generalize (net_values Fl n). induction l as [|a l IHl]; constructor; [split; apply krefl | exact IHl].
  - apply obind_inv in E as ((n1 & r) & E1 & E). cbn [fst snd] in E. destruct r as [[]|]; [|discriminate].
    destruct (zero_rate_step n d f lr n1 tt FU) as (A1 & K1); [eapply Z; now left | exact E1|].
    assert (FU1 : Forall (layer_full Fl) n1) by (apply (C52_history Fl p n n1); [eapply trained_step; [apply trained_none | exact E1] | exact FU]).
    destruct (IH ltac:(intros; eapply Z; right; eassumption) n1 FU1 E) as (A2 & K2). split; [congruence|].
    clear - K1 K2. revert K2. generalize (net_values Fl n'). induction K1 as [|a b l l' (H1 & H2) _ IH]; intros l2 X; inversion X as [|? ? ? ? (X1 & X2)]; subst; constructor; [|auto].
    split; eapply ktrans; eassumption.
Qed.

Theorem solved_step : forall n data f lr n' r, Forall (layer_full Fl) n ->
  (forall x t, In (x, t) (combine (ds_inputs data) (ds_target data)) -> exists y, net_forward Fl p n x = Ret (Ok y) /\ vals t = vals y) ->
  net_gradient_opt Fl p n data f lr = Ret (n', Ok r) ->
  map (arch_of Fl) n' = map (arch_of Fl) n /\ Forall2 same_or_nan (net_values Fl n) (net_values Fl n').
Proof.
  intros n data f lr n' r FU H E.
  destruct (still_solved Fl nilb keptb (bx0 prec emax Hp He L) (bxadd prec emax Hp He L) (bxsub prec emax Hp He L) (bxneg prec emax Hp He L) (bxmul prec emax Hp He L) (bxkeep prec emax Hp He L)
    p bself n data f lr n' r FU H E) as (A & KK). split; [exact A | now apply ieee_all].
Qed.

(** ** Steps that are lost in rounding *)
Local Notation fexp := (SpecFloat.fexp prec emax).
Lemma stay_pos : forall x d : R, generic_format radix2 fexp x -> (0 < x)%R -> (Rabs d <= x * bpow radix2 (- (prec + 2)))%R -> round radix2 fexp ZnearestE (x - d) = x.
Proof.
  intros x d F X D. assert (U : forall y, (Rabs y * bpow radix2 (- prec) < ulp radix2 fexp y)%R) by (intros y; apply ulp_FLT_gt; exact Hp).
  assert (BP : (bpow radix2 (- prec) = 4 * bpow radix2 (- (prec + 2)))%R) by (replace (- prec)%Z with (2 + - (prec + 2))%Z by lia; rewrite bpow_plus; reflexivity).
  assert (B1 : (bpow radix2 (- (prec + 2)) <= / 8)%R).
  { change (/ 8)%R with (bpow radix2 (-3)). apply bpow_le. unfold Prec_gt_0 in Hp. lia. }
  assert (B0 : (0 < bpow radix2 (- (prec + 2)))%R) by apply bpow_gt_0. set (e := bpow radix2 (- (prec + 2))) in *. rewrite BP in U.
  assert (V : Valid_exp fexp) by (apply FLT_exp_valid; exact Hp). apply Rabs_le_inv in D. apply Rle_antisym.
  - apply round_N_le_midp; [exact V | exact F|]. rewrite succ_eq_pos by lra. specialize (U x). rewrite Rabs_pos_eq in U by lra. nra.
  - apply round_N_ge_midp; [exact V | exact F|]. pose proof (@pred_plus_ulp radix2 fexp V x X F) as PU. specialize (U (pred radix2 fexp x)).
    pose proof (@pred_ge_0 radix2 fexp V x X F) as P0. rewrite Rabs_pos_eq in U by exact P0. destruct (Rle_dec (x / 2) (pred radix2 fexp x)); nra.
Qed.

Lemma stay : forall x d : R, generic_format radix2 fexp x -> x <> 0%R -> (Rabs d <= Rabs x * bpow radix2 (- (prec + 2)))%R -> round radix2 fexp ZnearestE (x - d) = x.
Proof.
  intros x d F X D. destruct (Rlt_dec 0 x) as [P|P]; [apply stay_pos; auto; rewrite (Rabs_pos_eq x) in D by lra; exact D|].
  replace (x - d)%R with (- (- x - - d))%R by ring. rewrite round_NE_opp. rewrite (stay_pos (- x)%R (- d)%R); [ring | now apply generic_format_opp | lra|].
  rewrite Rabs_Ropp. rewrite (Rabs_left x) in D by lra. exact D.
Qed.

Lemma lost : forall a d : B, negligible a d -> fsub Fl a d = a.
Proof.
  intros a d (FD & H). change (fsub Fl a d) with (Bminus mode_NE a d). destruct a as [s|s| |s m e E]; try contradiction; [subst d; destruct s; reflexivity|].
  set (a := B754_finite s m e E) in *. assert (FA : is_finite a = true) by reflexivity. pose proof (Bminus_correct prec emax Hp He mode_NE a d FA FD) as C.
  assert (NZ : B2R a <> 0%R) by (unfold a; cbn [B2R]; intros Q; apply eq_0_F2R in Q; destruct s; discriminate).
  change (round_mode mode_NE) with ZnearestE in C. rewrite (stay (B2R a) (B2R d)) in C by (auto; apply generic_format_B2R).
  rewrite Rlt_bool_true in C by apply abs_B2R_lt_emax. destruct C as (C1 & C2 & _). apply B2R_inj; [|reflexivity | exact C1].
  destruct (Bminus mode_NE a d) as [s'|s'| |s' m' e' E']; try discriminate; [exfalso; apply NZ; rewrite <- C1; reflexivity | reflexivity].
Qed.

Theorem stall_step : forall n data f lr W G s, Forall (layer_full Fl) n -> 2 <= length n -> net_gradient Fl p n data f = Ret (W, G) ->
  c_div Fl lr (c_of_nat Fl (length (ds_inputs data))) = Ret s ->
  Forall2 (fun a g => cnegligible a (c_conj Fl (c_mul_assign Fl g s))) (net_values Fl n) (gflat Fl W G) ->
  net_gradient_opt Fl p n data f lr = Ret (n, Ok tt).
Proof.
  intros n data f lr W G s FU LN EG ES H. unfold net_gradient_opt. rewrite (proj2 (Nat.leb_gt (length n) 1)) by lia. rewrite EG. cbn [obind]. rewrite ES. cbn [obind fst snd].
  destruct (gradient_lengths Fl p n data f W G EG) as (L1 & L2). destruct (GradFacts2.grad_zero_sizes Fl n FU) as (Z1 & Z2). rewrite Z1 in L1. rewrite Z2 in L2.
  destruct (update_all Fl s n W G FU L1 L2) as (n1 & U1 & U2 & U3 & U4). rewrite U1. cbn [obind]. f_equal. f_equal. apply (net_eq Fl); [exact U2|]. rewrite U3.
  clear - H. induction H as [|a g l m (H1 & H2) _ IH]; [reflexivity|]. cbn [map zip_assign]. f_equal; [|exact IH].
  unfold sub_conj, c_sub_assign. destruct a as [a1 a2]. cbn [re im] in *. f_equal; now apply lost.
Qed.

Theorem stall_forever : forall n data f lr W G s k, Forall (layer_full Fl) n -> 2 <= length n -> net_gradient Fl p n data f = Ret (W, G) ->
  c_div Fl lr (c_of_nat Fl (length (ds_inputs data))) = Ret s ->
  Forall2 (fun a g => cnegligible a (c_conj Fl (c_mul_assign Fl g s))) (net_values Fl n) (gflat Fl W G) ->
  train_steps Fl p n (repeat (data, f, lr) k) = Ret n.
Proof.
  intros n data f lr W G s k FU LN EG ES H. induction k as [|k IH]; [reflexivity|]. cbn [repeat train_steps]. rewrite (stall_step n data f lr W G s FU LN EG ES H). cbn [obind fst snd]. exact IH.
Qed.
End IEEE.

(** ** Deciding that a step is too small, for concrete numbers *)
Section Decide.
Context {prec emax : Z} (Hp : Prec_gt_0 prec).
Local Notation B := (binary_float prec emax).
Definition negl_b (a d : B) : bool :=
  match a, d with
  | B754_zero _, B754_zero s => negb s
  | B754_finite _ _ _ _, B754_zero _ => true
  | B754_finite _ m e _, B754_finite _ m' e' _ => (e' + prec + 3 <=? e)%Z && (Z.pos m' <=? 2 * Z.pos m)%Z
  | _, _ => false
  end.
Lemma negl_ok : forall a d, negl_b a d = true -> negligible a d.
Proof.
  intros [s|s| |s m e E] [s'|s'| |s' m' e' E'] H; try discriminate H; (split; [reflexivity|]); cbn [negl_b] in H.
  - destruct s'; [discriminate | reflexivity].
  - cbn [B2R]. rewrite Rabs_R0. apply Rmult_le_pos; [apply Rabs_pos | apply bpow_ge_0].
  - apply andb_true_iff in H as (H1 & H2). apply Z.leb_le in H1, H2. cbn [B2R]. rewrite <- !F2R_Zabs, !abs_cond_Zopp. cbn [Z.abs]. unfold F2R. cbn [Fnum Fexp].
    apply IZR_le in H2. rewrite mult_IZR in H2. assert (P : (bpow radix2 e' <= bpow radix2 e * bpow radix2 (- (prec + 3)))%R) by (rewrite <- bpow_plus; apply bpow_le; lia).
    replace (bpow radix2 (- (prec + 2))) with (2 * bpow radix2 (- (prec + 3)))%R by (replace (- (prec + 2))%Z with (1 + - (prec + 3))%Z by lia; rewrite bpow_plus; reflexivity).
    pose proof (bpow_gt_0 radix2 e') as P1. pose proof (IZR_lt 0 (Z.pos m') ltac:(lia)) as M1.
    apply Rle_trans with (2 * IZR (Z.pos m) * bpow radix2 e')%R; [nra|]. apply Rle_trans with (2 * IZR (Z.pos m) * (bpow radix2 e * bpow radix2 (- (prec + 3))))%R; [|right; ring].
    apply Rmult_le_compat_l; [|exact P]. pose proof (IZR_lt 0 (Z.pos m) ltac:(lia)). lra.
Qed.
End Decide.

(** ** Exact arithmetic: no step is too small *)
Theorem exact_moves : forall p n data f (e : R) W G n' r, Forall (layer_full ROps) n -> e <> 0%R ->
  net_gradient ROps p n data f = Ret (W, G) -> Exists (fun g => g <> c_default ROps) (grad_values (Fl := ROps) W G) ->
  net_gradient_opt ROps p n data f (mkC e 0%R) = Ret (n', Ok r) -> net_values ROps n' <> net_values ROps n.
Proof.
  intros p n data f e W G n' r FU E0 EG EX E. unfold net_gradient_opt in E. destruct (length n <=? 1); [discriminate|]. rewrite EG in E. cbn [obind] in E.
  destruct (length (ds_inputs data)) as [|k] eqn:LK; [exfalso; unfold c_div in E; cbn in E|].
  { rewrite (proj2 (Reqb_eq _ _)) in E by ring. discriminate. }
  destruct (c_div ROps _ _) as [s|] eqn:ES in E; [|discriminate]. cbn [obind fst snd] in E.
  destruct (gradient_lengths ROps p n data f W G EG) as (L1 & L2). destruct (GradFacts2.grad_zero_sizes ROps n FU) as (Z1 & Z2). rewrite Z1 in L1. rewrite Z2 in L2.
  destruct (update_all ROps s n W G FU L1 L2) as (n1 & U1 & U2 & U3 & U4). rewrite U1 in E. cbn [obind] in E. injection E as <- _. rewrite U3.
  assert (S : exists q, q <> 0%R /\ s = mkC q 0%R).
  { rewrite div_real in ES by discriminate. injection ES as <-. exists (e * / INR (S k))%R. split; [|reflexivity]. apply Rmult_integral_contrapositive_currified; [exact E0|]. apply Rinv_neq_0_compat, not_0_INR. discriminate. }
  destruct S as (q & Q & ->). change (gflat ROps W G) with (grad_values (Fl := ROps) W G) in *. revert EX U4. generalize (grad_values (Fl := ROps) W G) (net_values ROps n). clear - Q. intros g v EX. revert v.
  induction EX as [b g B|b g B IH]; intros [|a v] L H; try discriminate; cbn [map zip_assign] in H; [|apply (IH v); [now injection L | now injection H]].
  injection H as H _. apply B. destruct a as [a1 a2], b as [b1 b2]. pose proof (f_equal Cplx.re H) as H1. pose proof (f_equal Cplx.im H) as H2. cbn in H1, H2.
  assert (H3 : (b1 * q = 0)%R) by lra. assert (H4 : (b2 * q = 0)%R) by lra. apply Rmult_integral in H3 as [->|]; [|contradiction]. apply Rmult_integral in H4 as [->|]; [|contradiction]. reflexivity.
Qed.
