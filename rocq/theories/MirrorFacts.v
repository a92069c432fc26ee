(** * Conjugation and the real axis are kept by the arithmetic and the activations *)
From Coq Require Import Reals Lra Field ZArith.
From Verif Require Import Base BaseFacts Float Matrix Cplx Act Loss RFloat CFacts SpecDead SpecRel RelFacts SpecMirror.
Local Open Scope R_scope.

Ltac fl := unfold fzero, fone, ftwo, fhalf, fsq, fofnat in *; cbn [fzero flit fadd fsub fmul fdiv fneg fsqrt fexp fsin fcos ftanh fcosh fatan fatan2 feqb fltb fleb fsignneg fofN F ROps Rlit] in *.
Ltac cx := apply c_ext; cbn [re im c_conj c_add c_sub c_mul c_add_assign c_sub_assign c_mul_assign c_default c_unit c_iunit c_new]; fl.

Lemma mirror_num : num_rel ROps ROps mirrored.
Proof. constructor; unfold mirrored; intros; subst; cx; try ring; reflexivity. Qed.

Lemma mirror_div : forall a a' b b', mirrored a a' -> mirrored b b' -> orel mirrored (c_div ROps a b) (c_div ROps a' b').
Proof.
  intros a a' b b' -> ->. unfold c_div. cbn [re im c_conj]. fl. replace (re b * re b + - im b * - im b) with (re b * re b + im b * im b) by ring.
  destruct (Reqb _ _); constructor. unfold mirrored. cx; unfold Rdiv; ring.
Qed.
Lemma mirror_real : forall x, mirrored (mkC x 0) (mkC x 0).
Proof. intros. unfold mirrored. cx; ring. Qed.
Lemma mirror_norm : forall z, c_norm ROps (c_conj ROps z) = c_norm ROps z.
Proof. intros z. unfold c_norm. cbn [re im c_conj]. fl. f_equal. ring. Qed.
Lemma mirror_norm_sq : forall z, c_norm_sq ROps (c_conj ROps z) = c_norm_sq ROps z.
Proof. intros z. unfold c_norm_sq. cbn [re im c_conj]. fl. ring. Qed.

Lemma tanh_odd : forall x, tanh (- x) = - tanh x.
Proof.
  intros x. unfold tanh, sinh, cosh. rewrite Ropp_involutive. pose proof (exp_pos x). pose proof (exp_pos (- x)). field. lra.
Qed.
Lemma cosh_even : forall x, cosh (- x) = cosh x.
Proof. intros x. unfold cosh. rewrite Ropp_involutive. f_equal. ring. Qed.

(** Sine and cosine of the phase. *)
Lemma atan2_opp : forall y x, y <> 0 \/ 0 <= x -> Ratan2 (- y) x = - Ratan2 y x.
Proof.
  intros y x H. unfold Ratan2. replace (- y / x) with (- (y / x)) by (unfold Rdiv; ring). rewrite atan_opp.
  destruct (Rlt_dec 0 x), (Rlt_dec x 0), (Rle_dec 0 y), (Rle_dec 0 (- y)), (Rlt_dec 0 y), (Rlt_dec 0 (- y)), (Rlt_dec y 0), (Rlt_dec (- y) 0); lra.
Qed.
Lemma phase_mirror : forall p z, let a := c_phase ROps p z in let b := c_phase ROps p (c_conj ROps z) in b = - a \/ (a = PI /\ b = PI).
Proof.
  intros [|] z; unfold c_phase; cbn [re im c_conj]; fl.
  - destruct (Req_EM_T (im z) 0) as [E|E]; [|left; apply atan2_opp; now left]. destruct (Rle_dec 0 (re z)) as [P|N]; [left; apply atan2_opp; now right|].
    right. rewrite E, Ropp_0. assert (H : Ratan2 0 (re z) = PI); [|auto]. unfold Ratan2. destruct (Rlt_dec 0 (re z)); [lra|]. destruct (Rlt_dec (re z) 0); [|lra].
    destruct (Rle_dec 0 0); [|lra]. unfold Rdiv. rewrite Rmult_0_l, atan_0. ring.
  - left. replace (- im z / re z) with (- (im z / re z)) by (unfold Rdiv; ring). apply atan_opp.
Qed.
Lemma cardiod_mirror_trig : forall p z, let a := c_phase ROps p z in let b := c_phase ROps p (c_conj ROps z) in
  cos b = cos a /\ sin b = - sin a /\ sin (2 * b) = - sin (2 * a).
Proof.
  intros p z. pose proof (phase_mirror p z) as H. cbv zeta in *. generalize dependent (c_phase ROps p (c_conj ROps z)). generalize (c_phase ROps p z). cbn [F ROps]. intros a b [E|(E & E')].
  - rewrite E. rewrite cos_neg, sin_neg. replace (2 * - a) with (- (2 * a)) by ring. now rewrite sin_neg.
  - rewrite E, E'. rewrite sin_PI, sin_2PI. repeat split; ring.
Qed.

Lemma mirror_act : forall p f, symmetric_act f -> act_rel ROps ROps p p mirrored f.
Proof.
  intros p [] H z z' E; try destruct H; pose proof E as E'; unfold mirrored in E; subst z'; cbn [activate d_activate d_conj_activate].
  - repeat split; constructor; auto; apply mirror_real.
  - split; [|split].
    + apply mirror_div; [exact E'|]. rewrite mirror_norm. apply mirror_real.
    + constructor. unfold d_mod_z. rewrite mirror_norm. apply mirror_real.
    + unfold d_conj_mod_z. eapply obind_rel; [apply mirror_div; [exact E' | reflexivity]|]. intros. apply mirror_div; [assumption|]. rewrite mirror_norm. apply mirror_real.
  - repeat split; constructor; unfold mirrored, rittanh, d_rittanh, d_conj_rittanh; cbn [re im c_conj]; cx; try apply tanh_odd; rewrite ?cosh_even; try ring; reflexivity.
  - pose proof (cardiod_mirror_trig p z) as T. cbv zeta in T. pose proof (mirror_norm z) as N.
    split; [|split]; apply or_ret; unfold mirrored, card, d_card, d_conj_card, card_dfdx_dfdy; cbv zeta; rewrite ?N;
      revert T; generalize (c_phase ROps p (c_conj ROps z)); generalize (c_phase ROps p z); generalize (c_norm ROps z); intros m a b (C1 & C2 & C3); cx;
      rewrite ?C1, ?C2, ?C3; unfold Rdiv; ring.
Qed.

(** ** Losses *)
Lemma mirror_sq_error : forall t y, sq_error ROps (c_conj ROps t) (c_conj ROps y) = sq_error ROps t y.
Proof. intros t y. unfold sq_error. rewrite <- mirror_norm_sq. f_equal. cx; ring. Qed.
Lemma mirror_loss : forall f t t' y y', Forall2 mirrored t t' -> Forall2 mirrored y y' -> release_loss ROps f t y = release_loss ROps f t' y'.
Proof.
  intros [] t t' y y' T Y; cbn [release_loss].
  - unfold mean_sq_loss. assert (H : forall st, fold_left (fun st tp => let '(acc, len, id) := st in (fadd ROps acc (sq_error ROps (fst tp) (snd tp)), id, S id)) (combine t y) st =
      fold_left (fun st tp => let '(acc, len, id) := st in (fadd ROps acc (sq_error ROps (fst tp) (snd tp)), id, S id)) (combine t' y') st); [|now rewrite H].
    revert y y' Y. induction T as [|a a' t t' A T IH]; intros y y' Y st; [reflexivity|]. destruct Y as [|b b' y y' B Y]; [reflexivity|]. cbn [combine fold_left fst snd].
    rewrite A, B. destruct st as [[u v] w]. rewrite mirror_sq_error. now apply IH.
  - unfold norm_ce_loss. assert (E1 : map re t' = map re t) by (induction T as [|a a' t t' A T IH]; [reflexivity|]; rewrite A; cbn [map]; f_equal; exact IH).
    assert (E2 : map (fun z => fexp ROps (c_norm_sq ROps z)) y' = map (fun z => fexp ROps (c_norm_sq ROps z)) y).
    { induction Y as [|a a' y y' A Y IH]; cbn [map]; [reflexivity|]. now rewrite A, mirror_norm_sq, IH. }
    apply (f_equal2 (fun (rt em : list R) => fold_left (fun acc te => fsub ROps acc (fmul ROps (fst te) (fln ROps (fdiv ROps (snd te)
      (fold_left (fun acc e => fadd ROps acc e) em (fzero ROps)))))) (combine rt em) (fzero ROps))); symmetry; assumption.
Qed.
Lemma mirror_gt : forall a b c d, mirrored a b -> mirrored c d -> c_gt ROps a c = c_gt ROps b d.
Proof. intros a b c d -> ->. unfold c_gt. now rewrite !mirror_norm_sq. Qed.

(** ** The real axis *)
Definition both_real (z z' : RC) : Prop := z' = z /\ im z = 0.
Lemma real_num : num_rel ROps ROps both_real.
Proof.
  assert (T : forall z : RC, im z = 0 -> both_real z z) by (intros; now split).
  constructor; [apply T; reflexivity|..]; intros; repeat match goal with H : both_real _ _ |- _ => destruct H as (-> & H) end; apply T;
    cbn [re im c_conj c_add c_sub c_mul c_add_assign c_sub_assign c_mul_assign c_default]; fl;
    repeat match goal with H : im _ = 0 |- _ => rewrite H; clear H end; ring.
Qed.
Lemma real_div : forall a a' b b', both_real a a' -> both_real b b' -> orel both_real (c_div ROps a b) (c_div ROps a' b').
Proof.
  intros a a' b b' (-> & A) (-> & B). unfold c_div. fl. destruct (Reqb _ _); constructor. split; [reflexivity|]. cbn [im]. rewrite A, B. unfold Rdiv. match goal with |- ?x = ?y => change (@eq R x y) end. ring.
Qed.
Lemma real_mk : forall x, both_real (mkC x 0) (mkC x 0). Proof. now split. Qed.
Lemma phase_real : forall p z, im z = 0 -> let a := c_phase ROps p z in sin a = 0 /\ sin (2 * a) = 0.
Proof.
  intros p z E. assert (H : c_phase ROps p z = 0 \/ c_phase ROps p z = PI).
  { destruct p; unfold c_phase; fl; rewrite E.
    - unfold Ratan2. destruct (Rlt_dec 0 (re z)); [left; unfold Rdiv; rewrite Rmult_0_l; apply atan_0|]. destruct (Rlt_dec (re z) 0).
      + right. destruct (Rle_dec 0 0); [|lra]. unfold Rdiv. rewrite Rmult_0_l, atan_0. ring.
      + left. destruct (Rlt_dec 0 0); [lra|]. reflexivity.
    - left. unfold Rdiv. rewrite Rmult_0_l. apply atan_0. }
  cbv zeta. destruct H as [H|H]; rewrite H; [rewrite Rmult_0_r, sin_0 | rewrite sin_PI, sin_2PI]; auto.
Qed.
Lemma tanh_zero : tanh 0 = 0.
Proof. unfold tanh, sinh. rewrite Ropp_0. unfold Rdiv. ring. Qed.

Lemma real_act_ok : forall p f, real_act f -> act_rel ROps ROps p p both_real f.
Proof.
  intros p [] H z z' E; try destruct H; pose proof E as E'; destruct E as (-> & E); cbn [activate d_activate d_conj_activate].
  - repeat split; constructor; auto; apply real_mk.
  - split; [|split].
    + apply real_div; [exact E' | apply real_mk].
    + constructor. apply real_mk.
    + unfold d_conj_mod_z. eapply obind_rel; [apply real_div; [exact E'|]|].
      * split; [reflexivity|]. cbn [im c_conj]. fl. rewrite E. ring.
      * intros. apply real_div; [assumption | apply real_mk].
  - split; [|split]; apply or_ret; try apply real_mk. split; [reflexivity|]. cbn [rittanh im]. fl. rewrite E. apply tanh_zero.
  - split; [|split]; apply or_ret; try apply real_mk. split; [reflexivity|]. cbn [ritrelu im]. unfold relu. fl. rewrite E. destruct (Rltb 0 0); reflexivity.
  - split; [|split]; apply or_ret; try apply real_mk.
    + unfold zrelu. destruct (_ || _); [apply real_mk | exact E'].
    + unfold d_zrelu. destruct (_ || _); apply real_mk.
  - pose proof (phase_real p z E) as T. cbv zeta in T.
    split; [|split]; apply or_ret; (split; [reflexivity|]); unfold card, d_card, d_conj_card, card_dfdx_dfdy; cbv zeta;
      revert T; generalize (c_phase ROps p z); generalize (c_norm ROps z); intros m a (C1 & C2); cbn [re im c_add c_sub c_mul c_iunit]; fl; rewrite ?C1, ?C2; unfold Rdiv; ring.
Qed.
