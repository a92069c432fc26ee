(** * Conjugation and the real axis in IEEE arithmetic *)
From Coq Require Import ZArith Reals Lra.
From Flocq Require Import Core BinarySingleNaN.
From Verif Require Import Base BaseFacts Float Matrix Cplx Act Loss BFloat SpecDead NanFacts DeadNum SpecRel RelFacts SpecMirror.

Section S.
Context (prec emax : Z) (Hp : Prec_gt_0 prec) (He : Prec_lt_emax prec emax) (L : libm (binary_float prec emax)) (p : Float.prec).
Local Notation B := (binary_float prec emax).
Local Notation Fl := (BOps prec emax Hp He L).
Local Notation "x ~ y" := (same_number x y) (at level 70).
Local Notation sadd := (bsadd prec emax Hp He L).
Local Notation ssub := (bssub prec emax Hp He L).
Local Notation smul := (bsmul prec emax Hp He L).
Local Notation srefl := (bsrefl prec emax).
Local Notation strans := (bstrans prec emax).

Lemma ssym : forall a b : B, a ~ b -> b ~ a.
Proof. intros a b [->|(s & t & -> & ->)]; [now left | right; eauto]. Qed.
Lemma sopp : forall a b : B, a ~ b -> Bopp a ~ Bopp b.
Proof. intros a b [->|(s & t & -> & ->)]; [now left | right; cbn; eauto]. Qed.

Lemma sn_R : forall a b : B, is_finite a = true -> is_finite b = true -> B2R a = B2R b -> a ~ b.
Proof.
  intros a b FA FB E. destruct a as [s|s| |s m e H]; try discriminate; destruct b as [t|t| |t k g K]; try discriminate.
  - right. eauto.
  - exfalso. cbn in E. symmetry in E. apply eq_0_F2R in E. destruct t; discriminate.
  - exfalso. cbn in E. apply eq_0_F2R in E. destruct s; discriminate.
  - left. now apply B2R_inj.
Qed.
Lemma inf_of_SF : forall (a : B) s, B2SF a = binary_overflow prec emax mode_NE s -> a = B754_infinity s.
Proof. intros a s H. cbn in H. destruct a; try discriminate. cbn in H. congruence. Qed.

Lemma opp_plus : forall x y : B, Bopp (Bplus mode_NE x y) ~ Bplus mode_NE (Bopp x) (Bopp y).
Proof.
  intros x y. destruct (is_finite x) eqn:FX; [destruct (is_finite y) eqn:FY|].
  - pose proof (Bplus_correct prec emax Hp He mode_NE x y FX FY) as H1.
    pose proof (Bplus_correct prec emax Hp He mode_NE (Bopp x) (Bopp y)) as H2. rewrite !is_finite_Bopp in H2. specialize (H2 FX FY).
    rewrite !B2R_Bopp in H2. replace (- B2R x + - B2R y)%R with (- (B2R x + B2R y))%R in H2 by ring. change (round_mode mode_NE) with ZnearestE in *. rewrite round_NE_opp, Rabs_Ropp in H2.
    destruct (Rlt_bool _ _).
    + destruct H1 as (R1 & F1 & _), H2 as (R2 & F2 & _). apply sn_R; rewrite ?is_finite_Bopp; auto. rewrite B2R_Bopp, R1, R2. reflexivity.
    + destruct H1 as (R1 & S1), H2 as (R2 & S2). apply inf_of_SF in R1, R2. rewrite R1, R2. left. cbn. f_equal. destruct x; try discriminate; reflexivity.
  - destruct x as [[]|[]| |[] ? ? ?], y as [[]|[]| |[] ? ? ?]; try discriminate; left; reflexivity.
  - destruct x as [[]|[]| |[] ? ? ?], y as [[]|[]| |[] ? ? ?]; try discriminate; left; reflexivity.
Qed.
Lemma opp_mult : forall x y : B, Bopp (Bmult mode_NE x y) ~ Bmult mode_NE (Bopp x) y.
Proof.
  intros x y. destruct (is_finite x) eqn:FX; [destruct (is_finite y) eqn:FY|].
  - pose proof (Bmult_correct prec emax Hp He mode_NE x y) as H1. pose proof (Bmult_correct prec emax Hp He mode_NE (Bopp x) y) as H2.
    rewrite !B2R_Bopp in H2. replace (- B2R x * B2R y)%R with (- (B2R x * B2R y))%R in H2 by ring. change (round_mode mode_NE) with ZnearestE in *. rewrite round_NE_opp, Rabs_Ropp in H2.
    destruct (Rlt_bool _ _).
    + destruct H1 as (R1 & F1 & _), H2 as (R2 & F2 & _). rewrite ?is_finite_Bopp, FX, FY in *. apply sn_R; rewrite ?is_finite_Bopp; auto. rewrite B2R_Bopp, R1, R2. reflexivity.
    + apply inf_of_SF in H1, H2. rewrite H1, H2. left. cbn. f_equal. destruct x as [[]|[]| |[] ? ? ?]; try discriminate; cbn; destruct (Bsign y); reflexivity.
  - destruct x as [[]|[]| |[] ? ? ?], y as [[]|[]| |[] ? ? ?]; try discriminate; left; reflexivity.
  - destruct x as [[]|[]| |[] ? ? ?], y as [[]|[]| |[] ? ? ?]; try discriminate; left; reflexivity.
Qed.
Lemma mult_comm : forall x y : B, Bmult mode_NE x y ~ Bmult mode_NE y x.
Proof.
  intros x y. destruct (is_finite x) eqn:FX; [destruct (is_finite y) eqn:FY|].
  - pose proof (Bmult_correct prec emax Hp He mode_NE x y) as H1. pose proof (Bmult_correct prec emax Hp He mode_NE y x) as H2.
    rewrite (Rmult_comm (B2R y)) in H2. destruct (Rlt_bool _ _).
    + destruct H1 as (R1 & F1 & _), H2 as (R2 & F2 & _). rewrite FX, FY in *. apply sn_R; auto. now rewrite R1, R2.
    + apply inf_of_SF in H1, H2. rewrite H1, H2. left. f_equal. apply Bool.xorb_comm.
  - destruct x as [[]|[]| |[] ? ? ?], y as [[]|[]| |[] ? ? ?]; try discriminate; left; reflexivity.
  - destruct x as [[]|[]| |[] ? ? ?], y as [[]|[]| |[] ? ? ?]; try discriminate; left; reflexivity.
Qed.
Lemma opp_mult_r : forall x y : B, Bopp (Bmult mode_NE x y) ~ Bmult mode_NE x (Bopp y).
Proof.
  intros x y. eapply strans; [apply sopp, mult_comm|]. eapply strans; [apply opp_mult|]. apply mult_comm.
Qed.
Lemma oppopp : forall x : B, Bopp (Bopp x) = x. Proof. apply Bopp_involutive. Qed.
Lemma opp_minus : forall x y : B, Bopp (Bminus mode_NE x y) ~ Bminus mode_NE (Bopp x) (Bopp y).
Proof.
  intros x y. destruct (is_finite x) eqn:FX; [destruct (is_finite y) eqn:FY|].
  - pose proof (Bminus_correct prec emax Hp He mode_NE x y FX FY) as H1.
    pose proof (Bminus_correct prec emax Hp He mode_NE (Bopp x) (Bopp y)) as H2. rewrite !is_finite_Bopp in H2. specialize (H2 FX FY).
    rewrite !B2R_Bopp in H2. replace (- B2R x - - B2R y)%R with (- (B2R x - B2R y))%R in H2 by ring. change (round_mode mode_NE) with ZnearestE in *. rewrite round_NE_opp, Rabs_Ropp in H2.
    destruct (Rlt_bool _ _).
    + destruct H1 as (R1 & F1 & _), H2 as (R2 & F2 & _). apply sn_R; rewrite ?is_finite_Bopp; auto. rewrite B2R_Bopp, R1, R2. reflexivity.
    + destruct H1 as (R1 & S1), H2 as (R2 & S2). apply inf_of_SF in R1, R2. rewrite R1, R2. left. cbn. f_equal. destruct x; try discriminate; reflexivity.
  - destruct x as [[]|[]| |[] ? ? ?], y as [[]|[]| |[] ? ? ?]; try discriminate; left; reflexivity.
  - destruct x as [[]|[]| |[] ? ? ?], y as [[]|[]| |[] ? ? ?]; try discriminate; left; reflexivity.
Qed.
Lemma mul_im : forall a b c d : B, Bopp a ~ b -> Bopp c ~ d -> fmul Fl a c ~ fmul Fl b d.
Proof.
  intros a b c d H K. eapply strans; [|apply smul; [exact H | exact K]]. cbn [fmul BOps]. eapply strans; [|apply opp_mult]. rewrite <- (oppopp (Bmult mode_NE a c)).
  apply sopp. apply opp_mult_r.
Qed.
Lemma mul_left : forall a b c d : B, a ~ b -> Bopp c ~ d -> Bopp (fmul Fl a c) ~ fmul Fl b d.
Proof. intros a b c d H K. eapply strans; [apply opp_mult_r|]. now apply smul. Qed.
Lemma mul_right : forall a b c d : B, Bopp a ~ b -> c ~ d -> Bopp (fmul Fl a c) ~ fmul Fl b d.
Proof. intros a b c d H K. eapply strans; [apply opp_mult|]. now apply smul. Qed.
Lemma add_im : forall a b c d : B, Bopp a ~ b -> Bopp c ~ d -> Bopp (fadd Fl a c) ~ fadd Fl b d.
Proof. intros a b c d H K. eapply strans; [apply opp_plus|]. now apply sadd. Qed.
Lemma sub_im : forall a b c d : B, Bopp a ~ b -> Bopp c ~ d -> Bopp (fsub Fl a c) ~ fsub Fl b d.
Proof. intros a b c d H K. eapply strans; [apply opp_minus|]. now apply ssub. Qed.

Local Notation mir := (mirrored_ieee : cplx (F Fl) -> cplx (F Fl) -> Prop).
Lemma mirror_mul : forall a b c d, mir a b -> mir c d -> mir (c_mul Fl a c) (c_mul Fl b d).
Proof.
  intros a b c d (A & A') (C & C'). split; cbn [re im c_mul].
  - apply ssub; [now apply smul | now apply mul_im].
  - apply add_im; [now apply mul_left | now apply mul_right].
Qed.
Lemma mirror_num_ieee : num_rel Fl Fl mirrored_ieee.
Proof.
  constructor.
  - split; [apply srefl | right; cbn; eauto].
  - intros a b c d (A & A') (C & C'). split; [now apply sadd | now apply add_im].
  - intros a b c d (A & A') (C & C'). split; [now apply sadd | now apply add_im].
  - intros a b c d (A & A') (C & C'). split; [now apply ssub | now apply sub_im].
  - intros a b c d (A & A') (C & C'). split; [now apply ssub | now apply sub_im].
  - apply mirror_mul.
  - intros a b c d H K. pose proof (mirror_mul a b c d H K) as (X & _). destruct H as (A & A'), K as (C & C'). split; [exact X|]. cbn [im c_mul_assign].
    apply add_im; [now apply mul_left | now apply mul_right].
  - intros a b (A & A'). split; [exact A|]. cbn [im c_conj]. apply sopp. exact A'.
Qed.

(** Squares, moduli. *)
Lemma sq_same : forall a b : B, a ~ b -> fsq Fl a = fsq Fl b.
Proof. intros a b [->|(s & t & -> & ->)]; [reflexivity | destruct s, t; reflexivity]. Qed.
Lemma sq_opp : forall a : B, fsq Fl (Bopp a) = fsq Fl a.
Proof.
  intros a. unfold fsq. cbn [fmul BOps]. destruct a as [[]|[]| |s m e H]; try reflexivity. apply B2SF_inj. cbn. rewrite !B2SF_SF2B. now destruct s.
Qed.
Lemma mirror_norm_sq_ieee : forall a b, mir a b -> c_norm_sq Fl a = c_norm_sq Fl b.
Proof. intros a b (A & A'). exact (f_equal2 (Bplus mode_NE) (sq_same _ _ A) (eq_trans (eq_sym (sq_opp (im a))) (sq_same _ _ A'))). Qed.
Lemma mirror_norm_ieee : forall a b, mir a b -> c_norm Fl a = c_norm Fl b.
Proof. intros a b H. unfold c_norm. f_equal. exact (mirror_norm_sq_ieee a b H). Qed.

Lemma div_same : forall a b d : B, a ~ b -> fdiv Fl a d ~ fdiv Fl b d.
Proof. intros a b d [->|(s & t & -> & ->)]; [apply srefl|]. destruct d; cbn; try (left; reflexivity); right; eauto. Qed.
Lemma div_opp : forall a b d : B, Bopp a ~ b -> Bopp (fdiv Fl a d) ~ fdiv Fl b d.
Proof.
  intros a b d H. eapply strans; [|apply div_same; exact H]. cbn [fdiv BOps]. clear b H.
  destruct (is_finite a) eqn:FA; [destruct (Req_dec (B2R d) 0) as [Z|NZ]|].
  - destruct d as [t|t| |t k g K]; [| |now destruct a as [[]|[]| |[] ? ? ?]; left|].
    + destruct a as [[]|[]| |[] ? ? ?], t; try discriminate; left; reflexivity.
    + destruct a as [[]|[]| |[] ? ? ?], t; try discriminate; left; reflexivity.
    + exfalso. cbn in Z. apply eq_0_F2R in Z. destruct t; discriminate.
  - pose proof (Bdiv_correct prec emax Hp He mode_NE a d NZ) as H1. pose proof (Bdiv_correct prec emax Hp He mode_NE (Bopp a) d NZ) as H2.
    rewrite !B2R_Bopp in H2. replace (- B2R a / B2R d)%R with (- (B2R a / B2R d))%R in H2 by (unfold Rdiv; ring). change (round_mode mode_NE) with ZnearestE in *. rewrite round_NE_opp, Rabs_Ropp in H2.
    destruct (Rlt_bool _ _).
    + destruct H1 as (R1 & F1 & _), H2 as (R2 & F2 & _). rewrite ?is_finite_Bopp, FA in *. apply sn_R; rewrite ?is_finite_Bopp; auto. rewrite B2R_Bopp, R1, R2. reflexivity.
    + apply inf_of_SF in H1, H2. rewrite H1, H2. left. cbn. f_equal. destruct a as [[]|[]| |[] ? ? ?]; try discriminate; cbn; destruct (Bsign d); reflexivity.
  - destruct a as [[]|[]| |[] ? ? ?], d as [[]|[]| |[] ? ? ?]; try discriminate; left; reflexivity.
Qed.
Lemma mirror_div_ieee : forall a b c d, mir a b -> mir c d -> orel mir (c_div Fl a c) (c_div Fl b d).
Proof.
  intros a b c d A C. unfold c_div. pose proof (mirror_norm_sq_ieee c d C) as N. unfold c_norm_sq in N. rewrite N. destruct (feqb _ _ _); constructor.
  destruct A as (A & A'), C as (C & C'). split; cbn [re im].
  - apply div_same. apply sadd; [now apply smul | now apply mul_im].
  - apply div_opp. apply sub_im; [now apply mul_right | now apply mul_left].
Qed.
Lemma mirror_real_ieee : forall x : B, mir (mkC x (fzero Fl)) (mkC x (fzero Fl)).
Proof. intros x. split; [apply srefl | right; cbn; eauto]. Qed.

Lemma mirror_act_ieee : forall f, symmetric_act_ieee L f -> act_rel Fl Fl p p mirrored_ieee f.
Proof.
  intros [] H z z' E; try destruct H as []; pose proof E as (E1 & E2); cbn [activate d_activate d_conj_activate].
  - repeat split; try constructor; auto; apply mirror_real_ieee.
  - split; [|split].
    + apply mirror_div_ieee; [exact E|]. rewrite (mirror_norm_ieee z z' E). apply mirror_real_ieee.
    + constructor. unfold d_mod_z. rewrite (mirror_norm_ieee z z' E). apply mirror_real_ieee.
    + unfold d_conj_mod_z. rewrite (mirror_norm_ieee z z' E). eapply obind_rel; [apply mirror_div_ieee; [exact E | apply (nr_conj _ _ _ mirror_num_ieee), E]|].
      intros. apply mirror_div_ieee; [assumption | apply mirror_real_ieee].
  - destruct H0 as (T2 & T3). rename H into T1.
    assert (TS : forall a b : B, a ~ b -> l_tanh L a ~ l_tanh L b).
    { intros a b [->|(s & t & -> & ->)]; [apply srefl|]. destruct (T3 s) as (u & ->), (T3 t) as (v & ->). right. eauto. }
    assert (CS : forall a b : B, a ~ b -> l_cosh L a = l_cosh L b).
    { intros a b [->|(s & t & -> & ->)]; [reflexivity|]. destruct s, t; try reflexivity; [|symmetry]; exact (T2 (B754_zero false)). }
    assert (C1 : l_cosh L (re z') = l_cosh L (re z)) by (symmetry; now apply CS). assert (C2 : l_cosh L (im z') = l_cosh L (im z)) by (rewrite <- (T2 (im z)); symmetry; now apply CS).
    split; [|split]; apply or_ret.
    + split; cbn [rittanh re im ftanh BOps]; [now apply TS|]. rewrite <- T1. now apply TS.
    + unfold d_rittanh. cbn [fcosh BOps]. rewrite C1, C2. apply mirror_real_ieee.
    + unfold d_conj_rittanh. cbn [fcosh BOps]. rewrite C1, C2. apply mirror_real_ieee.
Qed.

(** ** Losses: the mean square is the same number bit for bit *)
Lemma mirror_mse_ieee : forall t t' y y', Forall2 mir t t' -> Forall2 mir y y' -> release_loss Fl MeanSquare t y = release_loss Fl MeanSquare t' y'.
Proof.
  intros t t' y y' T Y. cbn [release_loss]. unfold mean_sq_loss.
  assert (H : forall st, fold_left (fun st tp => let '(acc, len, id) := st in (fadd Fl acc (sq_error Fl (fst tp) (snd tp)), id, S id)) (combine t y) st =
      fold_left (fun st tp => let '(acc, len, id) := st in (fadd Fl acc (sq_error Fl (fst tp) (snd tp)), id, S id)) (combine t' y') st); [|now rewrite H].
  revert y y' Y. induction T as [|a a' t t' A T IH]; intros y y' Y st; [reflexivity|]. destruct Y as [|b b' y y' B Y]; [reflexivity|]. cbn [combine fold_left fst snd].
  destruct st as [[u v] w]. assert (E : sq_error Fl a b = sq_error Fl a' b') by (apply mirror_norm_sq_ieee, (nr_sub _ _ _ mirror_num_ieee); assumption). rewrite E. now apply IH.
Qed.
Lemma mirror_ce_ieee : forall t t' y y', Forall2 mir t t' -> Forall2 mir y y' -> release_loss Fl NormCrossEntropy t y ~ release_loss Fl NormCrossEntropy t' y'.
Proof.
  intros t t' y y' T Y. cbn [release_loss]. unfold norm_ce_loss. cbv zeta.
  assert (E : map (fun z => fexp Fl (c_norm_sq Fl z)) y' = map (fun z => fexp Fl (c_norm_sq Fl z)) y).
  { induction Y as [|a a' y y' A Y IH]; cbn [map]; [reflexivity|]. now rewrite (mirror_norm_sq_ieee _ _ A), IH. }
  rewrite E. generalize (map (fun z => fexp Fl (c_norm_sq Fl z)) y). intros em. generalize (fold_left (fun acc e => fadd Fl acc e) em (fzero Fl)). intros s. clear E Y.
  assert (H : forall em (u v : B), u ~ v ->
    fold_left (fun acc te => fsub Fl acc (fmul Fl (fst te) (fln Fl (fdiv Fl (snd te) s)))) (combine (map re t) em) u ~
    fold_left (fun acc te => fsub Fl acc (fmul Fl (fst te) (fln Fl (fdiv Fl (snd te) s)))) (combine (map re t') em) v); [|apply H, srefl].
  clear em. induction T as [|a a' t t' (A & _) T IH]; intros em u v U; [exact U|]. destruct em as [|e em]; [exact U|]. cbn [map combine fold_left fst snd].
  apply IH. apply ssub; [exact U|]. apply smul; [exact A | apply srefl].
Qed.
Lemma mirror_gt_ieee : forall a b c d, mir a b -> mir c d -> c_gt Fl a c = c_gt Fl b d.
Proof. intros a b c d A C. unfold c_gt. now rewrite (mirror_norm_sq_ieee _ _ A), (mirror_norm_sq_ieee _ _ C). Qed.

(** ** The real axis *)
Definition both_real_ieee (z z' : cplx B) : Prop := z' = z /\ no_imaginary (im z).
Local Notation rea := (both_real_ieee : cplx (F Fl) -> cplx (F Fl) -> Prop).
Local Notation nadd := (bxadd prec emax Hp He L).
Local Notation nsub := (bxsub prec emax Hp He L).
Local Notation nmul := (bxmul prec emax Hp He L).
Lemma ndiv : forall a d : B, no_imaginary a -> no_imaginary (fdiv Fl a d).
Proof.
  intros a d [H|(s & ->)]; [left; apply nan_div; auto|]. destruct d as [[]|[]| |[] ? ? ?]; cbn; try (left; reflexivity); right; eauto.
Qed.
Lemma real_num_ieee : num_rel Fl Fl both_real_ieee.
Proof.
  assert (T : forall z : cplx B, no_imaginary (im z) -> both_real_ieee z z) by (intros; now split).
  constructor; [apply T; right; exists false; reflexivity|..]; intros; repeat match goal with H : both_real_ieee _ _ |- _ => destruct H as (-> & H) end; apply T;
    cbn [im c_conj c_add c_sub c_mul c_add_assign c_sub_assign c_mul_assign c_default].
  1-2: now apply nadd. 1-2: now apply nsub.
  - apply nadd; apply nmul; auto.
  - apply nadd; apply nmul; auto.
  - now apply (bxneg prec emax Hp He L).
Qed.
Lemma real_div_ieee : forall a b c d, rea a b -> rea c d -> orel rea (c_div Fl a c) (c_div Fl b d).
Proof.
  intros a b c d (-> & A) (-> & C). unfold c_div. destruct (feqb _ _ _); constructor. split; [reflexivity|]. cbn [im]. apply ndiv, nsub; apply nmul; auto.
Qed.
Lemma real_mk_ieee : forall x : B, rea (mkC x (fzero Fl)) (mkC x (fzero Fl)).
Proof. intros x. split; [reflexivity | right; exists false; reflexivity]. Qed.

Lemma real_act_ieee_ok : forall f, real_act_ieee L f -> act_rel Fl Fl p p both_real_ieee f.
Proof.
  intros [] H z z' E; try (destruct H; fail); pose proof E as E'; destruct E as (-> & E); cbn [activate d_activate d_conj_activate].
  - repeat split; try constructor; auto; apply real_mk_ieee.
  - split; [|split].
    + apply real_div_ieee; [exact E' | apply real_mk_ieee].
    + constructor. apply real_mk_ieee.
    + unfold d_conj_mod_z. eapply obind_rel; [apply real_div_ieee; [exact E' | apply (nr_conj _ _ _ real_num_ieee), E']|]. intros. apply real_div_ieee; [assumption | apply real_mk_ieee].
  - split; [|split]; apply or_ret; try apply real_mk_ieee. split; [reflexivity|]. cbn [rittanh im ftanh BOps]. now apply H.
  - split; [|split]; apply or_ret; try apply real_mk_ieee. split; [reflexivity|]. cbn [ritrelu im]. unfold relu. destruct (fsignneg _ _); [right; exists false; reflexivity | exact E].
  - split; [|split]; apply or_ret; try apply real_mk_ieee.
    + unfold zrelu. destruct (_ || _); [apply real_mk_ieee | exact E'].
    + unfold d_zrelu. destruct (_ || _); apply real_mk_ieee.
Qed.
End S.

(** ** Two mathematical libraries *)
Section Lib.
Context (prec emax : Z) (Hp : Prec_gt_0 prec) (He : Prec_lt_emax prec emax) (L1 L2 : libm (binary_float prec emax)) (p : Float.prec).
Local Notation B := (binary_float prec emax).
Local Notation F1 := (BOps prec emax Hp He L1).
Local Notation F2 := (BOps prec emax Hp He L2).
Local Notation same := (same_bits prec emax Hp He L1 L2).

Lemma lib_num : num_rel F1 F2 same.
Proof. constructor; unfold same_bits; intros; subst; reflexivity. Qed.
Lemma lib_div : forall a a' b b', same a a' -> same b b' -> orel same (c_div F1 a b) (c_div F2 a' b').
Proof. unfold same_bits. intros a a' b b' -> ->. unfold c_div. cbn. destruct (Beqb _ _); constructor. reflexivity. Qed.
Lemma lib_sign : (forall x : B, is_nan x = true -> l_nansign L1 x = l_nansign L2 x) -> forall x : B, fsignneg F1 x = fsignneg F2 x.
Proof. intros H x. cbn. destruct (is_nan x) eqn:N; auto. Qed.
Lemma mk_same : forall (a b c d : B), a = c -> b = d -> orel same (Ret (mkC a b)) (Ret (mkC c d)).
Proof. intros. subst. constructor. reflexivity. Qed.

Lemma lib_act : forall f, lib_agree p L1 L2 f -> act_rel F1 F2 p p same f.
Proof.
  intros f H z z' E. unfold same_bits in E. subst z'. destruct f; cbn [lib_agree] in H; cbn [activate d_activate d_conj_activate].
  - repeat split; constructor; reflexivity.
  - split; [|split].
    + now apply lib_div.
    + now apply mk_same.
    + unfold d_conj_mod_z. eapply obind_rel; [now apply lib_div|]. intros. now apply lib_div.
  - assert (S : forall x : B, sigmoid F1 p x = sigmoid F2 p x) by (intros x; unfold sigmoid; cbn [fexp BOps]; rewrite (H x); destruct p; reflexivity).
    assert (D : forall x : B, d_sigmoid F1 p x = d_sigmoid F2 p x) by (intros x; unfold d_sigmoid; rewrite S; reflexivity).
    split; [|split]; apply mk_same; try reflexivity; try apply S; cbn [re im]; rewrite !D; reflexivity.
  - split; [|split]; apply mk_same; try reflexivity; try apply H; cbn [fcosh BOps]; destruct (H (re z)) as (_ & ->), (H (im z)) as (_ & ->); reflexivity.
  - pose proof (lib_sign H) as S.
    assert (R : forall x : B, relu F1 x = relu F2 x) by (intros x; unfold relu; rewrite (S x); reflexivity).
    assert (D : forall x : B, d_relu F1 x = d_relu F2 x) by (intros x; unfold d_relu; rewrite (S x); reflexivity).
    split; [|split]; apply mk_same; try reflexivity; try apply R; rewrite !D; reflexivity.
  - pose proof (lib_sign H) as S. split; [|split]; try (now apply mk_same); apply or_ret; unfold zrelu, d_zrelu; rewrite !S; destruct (_ || _); reflexivity.
  - destruct H as (T & A). assert (PH : c_phase F1 p z = c_phase F2 p z) by (destruct p; unfold c_phase; cbn; apply A).
    assert (SI : forall x, l_sin L1 x = l_sin L2 x) by (intros; apply T). assert (CO : forall x, l_cos L1 x = l_cos L2 x) by (intros; apply T).
    split; [|split]; apply or_ret; unfold same_bits, card, d_card, d_conj_card, card_dfdx_dfdy; cbv zeta; rewrite PH; cbn [fsin fcos BOps]; rewrite ?CO, ?SI; reflexivity.
Qed.

Lemma lib_loss : forall f t t' y y', lib_agree_loss L1 L2 f -> Forall2 same t t' -> Forall2 same y y' -> (release_loss F1 f t y : B) = release_loss F2 f t' y'.
Proof.
  intros f t t' y y' H T Y.
  assert (E : forall l l', Forall2 same l l' -> (l : list (cplx B)) = l') by (intros l l' X; induction X as [|a b l l' A X IH]; [reflexivity|]; unfold same_bits in A; subst; f_equal; exact IH).
  apply E in T, Y. subst t' y'. destruct f; [reflexivity|]. cbn [release_loss]. unfold norm_ce_loss. cbv zeta.
  assert (M : (map (fun z => fexp F1 (c_norm_sq F1 z)) y : list B) = map (fun z => fexp F2 (c_norm_sq F2 z)) y) by (apply map_ext; intros; apply H).
  rewrite M. generalize (map (fun z => fexp F2 (c_norm_sq F2 z)) y). intros em.
  assert (K : forall (s : B) (l : list (B * B)) (u : B), fold_left (fun acc te => fsub F1 acc (fmul F1 (fst te) (fln F1 (fdiv F1 (snd te) s)))) l u =
    fold_left (fun acc te => fsub F2 acc (fmul F2 (fst te) (fln F2 (fdiv F2 (snd te) s)))) l u);
    [|exact (K (fold_left (fun acc e => fadd F2 acc e) em (fzero F2)) (combine (map re t) em) (fzero F2))]. intros s.
  induction l as [|[a b] l IH]; intros u; [reflexivity|]. cbn [fold_left fst snd]. cbn [fln BOps]. rewrite (proj2 (H _)). apply IH.
Qed.
Lemma lib_gt : forall a b c d, same a b -> same c d -> c_gt F1 a c = c_gt F2 b d.
Proof. unfold same_bits. intros. subst. reflexivity. Qed.
End Lib.
