(** * Sums and products without rounding *)
From Coq Require Import ZArith Reals Lra Psatz.
From Flocq Require Import Core BinarySingleNaN.
From Verif Require Import Base BaseFacts Float Matrix Cplx Act Examples RFloat BFloat BFacts CFacts SpecMatrix SpecRound SpecExact RoundFacts RoundAct.
Local Notation re := Cplx.re. Local Notation im := Cplx.im.
Local Open Scope R_scope.

Lemma grid_plus : forall e a b, on_grid e a -> on_grid e b -> on_grid e (a + b).
Proof. intros e a b (k & ->) (j & ->). exists (k + j)%Z. rewrite plus_IZR. ring. Qed.
Lemma grid_opp : forall e a, on_grid e a -> on_grid e (- a).
Proof. intros e a (k & ->). exists (- k)%Z. rewrite opp_IZR. ring. Qed.
Lemma grid_mult : forall e d a b, on_grid e a -> on_grid d b -> on_grid (e + d) (a * b).
Proof. intros e d a b (k & ->) (j & ->). exists (k * j)%Z. rewrite mult_IZR, bpow_plus. ring. Qed.
Lemma grid_zero : forall e, on_grid e 0.
Proof. intros e. exists 0%Z. ring. Qed.
Lemma grid_finer : forall e d a, (d <= e)%Z -> on_grid e a -> on_grid d a.
Proof.
  intros e d a H (k & ->). exists (k * 2 ^ (e - d))%Z. rewrite mult_IZR. change (IZR (2 ^ (e - d))) with (IZR (Zpower radix2 (e - d))).
  rewrite IZR_Zpower by lia. rewrite Rmult_assoc, <- bpow_plus. do 2 f_equal. lia.
Qed.

Section Exact.
Context (prec emax : Z) (Hp : Prec_gt_0 prec) (He : Prec_lt_emax prec emax).
Local Notation B := (binary_float prec emax).
Local Notation fx := (SpecFloat.fexp prec emax).
Local Notation emin := (SpecFloat.emin prec emax).
Local Notation rnd := (round radix2 fx ZnearestE).
Local Existing Instance vexp.

(** A multiple of 2^e with at most [prec] digits is a float. *)
Lemma grid_format : forall e r, (emin <= e)%Z -> on_grid e r -> Rabs r <= bpow radix2 (prec + e) -> generic_format radix2 fx r.
Proof.
  intros e r Hm (k & ->) H. unfold Prec_gt_0 in Hp.
  assert (K : (Z.abs k <= 2 ^ prec)%Z).
  { rewrite Rabs_mult, (Rabs_pos_eq (bpow radix2 e)) in H by apply bpow_ge_0. rewrite bpow_plus in H. apply Rmult_le_reg_r in H; [|apply bpow_gt_0].
    rewrite <- abs_IZR in H. change (2 ^ prec)%Z with (Zpower radix2 prec). apply le_IZR. rewrite IZR_Zpower by lia. exact H. }
  apply generic_format_FLT.
  destruct (Z.eq_dec (Z.abs k) (2 ^ prec)) as [E|N].
  - assert (EK : exists s, k = (s * 2 ^ prec)%Z /\ Z.abs s = 1%Z) by (destruct (Z.abs_spec k) as [[_ A]|[_ A]]; [exists 1%Z | exists (-1)%Z]; split; lia).
    destruct EK as (s & EK & ES). exists (Float radix2 s (prec + e)); cbn [Fnum Fexp].
    + rewrite EK, mult_IZR. change (IZR (2 ^ prec)) with (IZR (Zpower radix2 prec)). rewrite IZR_Zpower by lia. unfold F2R. cbn [Fnum Fexp]. rewrite bpow_plus. ring.
    + rewrite ES. change (Zpower radix2 prec) with (2 ^ prec)%Z. apply Z.pow_gt_1; lia.
    + lia.
  - exists (Float radix2 k e); cbn [Fnum Fexp]; [reflexivity| |exact Hm]. change (Zpower radix2 prec) with (2 ^ prec)%Z. lia.
Qed.

Definition fine (e : Z) : Prop := (emin <= e)%Z /\ (prec + e < emax)%Z.

Lemma grid_rnd : forall e r, fine e -> on_grid e r -> Rabs r <= bpow radix2 (prec + e) -> rnd r = r /\ Rabs (rnd r) < bpow radix2 emax.
Proof.
  intros e r (H1 & H2) G H. assert (E : rnd r = r) by (apply round_generic; [apply valid_rnd_N | now apply (grid_format e)]).
  split; [exact E|]. rewrite E. eapply Rle_lt_trans; [exact H|]. now apply bpow_lt.
Qed.

(** [x] is finite and worth [r], a multiple of 2^e of size at most [M]. *)
Definition exactly (e : Z) (M : R) (x : B) (r : R) : Prop := is_finite x = true /\ B2R x = r /\ on_grid e r /\ Rabs r <= M.

Lemma exactly_nneg : forall e M x r, exactly e M x r -> 0 <= M.
Proof. intros e M x r (_ & _ & _ & H). pose proof (Rabs_pos r). lra. Qed.

Lemma exactly_weaken : forall e M M' x r, exactly e M x r -> M <= M' -> exactly e M' x r.
Proof. intros e M M' x r (A & C & D & E) H. repeat split; auto. lra. Qed.

Lemma exactly_plus : forall e M N x y r s, fine e -> exactly e M x r -> exactly e N y s -> M + N <= bpow radix2 (prec + e) ->
  exactly e (M + N) (Bplus mode_NE x y) (r + s).
Proof.
  intros e M N x y r s F (FX & VX & GX & LX) (FY & VY & GY & LY) O.
  assert (LS : Rabs (r + s) <= M + N) by (eapply Rle_trans; [apply Rabs_triang|]; lra).
  assert (GS := grid_plus _ _ _ GX GY). destruct (grid_rnd e (r + s) F GS ltac:(lra)) as (E & B0).
  pose proof (Bplus_correct prec emax Hp He mode_NE x y FX FY) as P. cbn [round_mode] in P. rewrite VX, VY in P.
  rewrite (Rlt_bool_true _ _ B0) in P. destruct P as (PV & PF & _). repeat split; auto. now rewrite PV.
Qed.

Lemma exactly_opp : forall e M x r, exactly e M x r -> exactly e M (Bopp x) (- r).
Proof.
  intros e M x r (F & V & G & H). repeat split; [now rewrite is_finite_Bopp | rewrite B2R_Bopp; now rewrite V | now apply grid_opp | now rewrite Rabs_Ropp].
Qed.

Lemma exactly_minus : forall e M N x y r s, fine e -> exactly e M x r -> exactly e N y s -> M + N <= bpow radix2 (prec + e) ->
  exactly e (M + N) (Bminus mode_NE x y) (r - s).
Proof.
  intros e M N x y r s F (FX & VX & GX & LX) (FY & VY & GY & LY) O.
  assert (LS : Rabs (r - s) <= M + N) by (unfold Rminus; eapply Rle_trans; [apply Rabs_triang|]; rewrite Rabs_Ropp; lra).
  assert (GS : on_grid e (r - s)) by (apply grid_plus; [exact GX | now apply grid_opp]). destruct (grid_rnd e (r - s) F GS ltac:(lra)) as (E & B0).
  pose proof (Bminus_correct prec emax Hp He mode_NE x y FX FY) as P. cbn [round_mode] in P. rewrite VX, VY in P.
  rewrite (Rlt_bool_true _ _ B0) in P. destruct P as (PV & PF & _). repeat split; auto. now rewrite PV.
Qed.

Lemma exactly_mult : forall d e M w x a r, fine (d + e) -> is_finite w = true -> B2R w = a -> on_grid d a -> exactly e M x r ->
  Rabs a * M <= bpow radix2 (prec + (d + e)) ->
  exactly (d + e) (Rabs a * M) (Bmult mode_NE w x) (a * r) /\ exactly (d + e) (Rabs a * M) (Bmult mode_NE x w) (r * a).
Proof.
  intros d e M w x a r F FW VW GW (FX & VX & GX & LX) O.
  assert (LS : Rabs (a * r) <= Rabs a * M) by (rewrite Rabs_mult; apply Rmult_le_compat_l; [apply Rabs_pos | exact LX]).
  assert (GS := grid_mult _ _ _ _ GW GX). destruct (grid_rnd (d + e) (a * r) F GS ltac:(lra)) as (E & B0).
  pose proof (Bmult_correct prec emax Hp He mode_NE w x) as P. cbn [round_mode] in P. rewrite VW, VX, (Rlt_bool_true _ _ B0), FW, FX in P.
  destruct P as (PV & PF & _).
  pose proof (Bmult_correct prec emax Hp He mode_NE x w) as Q. cbn [round_mode] in Q. rewrite VW, VX, (Rmult_comm r a), (Rlt_bool_true _ _ B0), FW, FX in Q.
  destruct Q as (QV & QF & _). rewrite (Rmult_comm r a).
  split; (split; [assumption|split; [congruence|split; assumption]]).
Qed.

(** ** Complex numbers *)
Context (L : libm B).
Local Notation Fl := (BOps prec emax Hp He L).

Definition cexactly (e : Z) (M : RC) (x : cplx B) (r : RC) : Prop := exactly e (re M) (re x) (re r) /\ exactly e (im M) (im x) (im r).
Definition under (e : Z) (M : RC) : Prop := re M <= bpow radix2 (prec + e) /\ im M <= bpow radix2 (prec + e).

Lemma cexactly_val : forall e M x r, cexactly e M x r -> cval x = r.
Proof. intros e M x [a b] [(_ & V & _) (_ & W & _)]. cbn [re im] in *. unfold cval. now rewrite V, W. Qed.
Lemma cexactly_gridded : forall e M x r, cexactly e M x r -> gridded prec emax e x.
Proof. intros e M x r [(F & V & G & _) (F' & V' & G' & _)]. repeat split; auto; congruence. Qed.
Lemma cexactly_nneg : forall e M x r, cexactly e M x r -> cle 0%RC M.
Proof. intros e M x r [A C]. apply exactly_nneg in A, C. split; assumption. Qed.
Lemma cexactly_weaken : forall e M M' x r, cexactly e M x r -> cle M M' -> cexactly e M' x r.
Proof. intros e M M' x r [A C] []. split; eapply exactly_weaken; eauto. Qed.
Lemma under_weaken : forall e M M', under e M' -> cle M M' -> under e M.
Proof. intros e M M' [A C] []. split; eapply Rle_trans; eauto. Qed.

Lemma gridded_exactly : forall e x, gridded prec emax e x -> cexactly e (cabs (cval x)) x (cval x).
Proof. intros e x ((F & F') & G & G'). split; (split; [assumption|split; [reflexivity|split; [assumption|apply Rle_refl]]]). Qed.

Lemma cexactly_zero : forall e, cexactly e 0%RC (c_default Fl) 0%RC.
Proof. intros e. split; (split; [reflexivity|split; [reflexivity|split; [apply grid_zero|cbn; rewrite Rabs_R0; apply Rle_refl]]]). Qed.

Lemma cexactly_add : forall e M N x y r s, fine e -> cexactly e M x r -> cexactly e N y s -> under e (M + N)%RC ->
  cexactly e (M + N)%RC (c_add Fl x y) (r + s)%RC.
Proof. intros e M N x y r s F [A C] [A' C'] [O1 O2]. split; now apply exactly_plus. Qed.

Lemma cexactly_mul : forall d e M w x r, fine (d + e) -> gridded prec emax d w -> cexactly e M x r -> under (d + e) (amul (cval w) M) ->
  cexactly (d + e) (amul (cval w) M) (c_mul Fl w x) (cval w * r)%RC /\ cexactly (d + e) (amul (cval w) M) (c_mul Fl x w) (r * cval w)%RC.
Proof.
  intros d e [Mr Mi] [wr wi] [xr xi] [rr ri] F ((W1 & W2) & G1 & G2) [A C] [O1 O2]. cbn [re im cval amul] in *.
  set (a := B2R wr) in *. set (b := B2R wi) in *.
  assert (N1 := exactly_nneg _ _ _ _ A). assert (N2 := exactly_nneg _ _ _ _ C).
  assert (Q1 := Rmult_le_pos _ _ (Rabs_pos a) N1). assert (Q2 := Rmult_le_pos _ _ (Rabs_pos a) N2).
  assert (Q3 := Rmult_le_pos _ _ (Rabs_pos b) N1). assert (Q4 := Rmult_le_pos _ _ (Rabs_pos b) N2).
  destruct (exactly_mult d e Mr wr xr a rr F W1 eq_refl G1 A ltac:(lra)) as (T1 & T1').
  destruct (exactly_mult d e Mi wi xi b ri F W2 eq_refl G2 C ltac:(lra)) as (T2 & T2').
  destruct (exactly_mult d e Mi wr xi a ri F W1 eq_refl G1 C ltac:(lra)) as (T3 & T3').
  destruct (exactly_mult d e Mr wi xr b rr F W2 eq_refl G2 A ltac:(lra)) as (T4 & T4').
  split; (split; cbn [c_mul re im amul cval]; [now apply exactly_minus|]).
  - now apply exactly_plus.
  - fold a b. rewrite (Rplus_comm (Rabs a * Mi)). apply exactly_plus; [exact F | exact T4' | exact T3' | lra].
Qed.

Lemma cexactly_sum : forall e n (f : nat -> cplx B) (g M : nat -> RC), fine e -> (forall i, (i < n)%nat -> cexactly e (M i) (f i) (g i)) ->
  under e (csum M n) -> cexactly e (csum M n) (sum_from (c_add Fl) (c_default Fl) f n) (csum g n).
Proof.
  intros e n f g M F H. 
  assert (NM : forall i, (i < n)%nat -> cle 0%RC (M i)) by (intros i I; exact (cexactly_nneg _ _ _ _ (H i I))).
  revert H NM. induction n as [|n IH]; intros H NM O.
  - apply cexactly_zero.
  - unfold csum in *. rewrite !sum_from_S in *. fold (csum M n) (csum g n) in *.
    pose proof (NM n ltac:(lia)) as NMn. apply cexactly_add; auto.
    apply IH; auto. eapply under_weaken; [exact O|]. destruct NMn; split; cbn in *; lra.
Qed.

Lemma cexactly_relu : forall e M x r, exactly e M x r -> exactly e M (relu Fl x) (relu ROps r).
Proof.
  intros e M x r (F & V & G & H). destruct (relu_val prec emax Hp He L x F) as (F' & E). destruct (relu_lip r r) as (_ & E2).
  split; [exact F'|]. split; [etransitivity; [exact E|]; now rewrite V|]. split; [|eapply Rle_trans; eauto].
  unfold relu. destruct (fsignneg ROps r); [apply grid_zero | exact G].
Qed.

Lemma cexactly_act : forall p f e M z w, rectifier f -> cexactly e M z w ->
  exists z' w', activate Fl p f z = Ret z' /\ activate ROps p f w = Ret w' /\ cexactly e M z' w'.
Proof.
  intros p f e M z w [-> | ->] [A C]; cbn [activate]; do 2 eexists; (split; [reflexivity|]); (split; [reflexivity|]); split.
  - exact A.
  - exact C.
  - exact (cexactly_relu _ _ _ _ A).
  - exact (cexactly_relu _ _ _ _ C).
Qed.
End Exact.
