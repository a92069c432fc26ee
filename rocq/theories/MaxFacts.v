(** * Facts about the index of the largest modulus *)
From Coq Require Import List Lia ZArith Reals Lra Bool.
From Flocq Require Import Core BinarySingleNaN.
From Verif Require Import Base Float Cplx Network RFloat BFloat BFacts.
Import ListNotations.
Local Open Scope nat_scope.

Section Gen.
Context (Fl : FloatOps).
Local Notation C := (cplx (F Fl)).
Local Notation key := (c_norm_sq Fl).
Local Notation lt a b := (fltb Fl a b = true).
Local Notation nlt a b := (fltb Fl a b = false).

(** The order facts needed, on the keys that occur. *)
Record ordered (P : F Fl -> Prop) : Prop := {
  o_irr : forall a, P a -> nlt a a;
  o_lt : forall a b c, P a -> P b -> P c -> lt a b -> nlt c b -> lt a c;
  o_asym : forall a b, P a -> P b -> lt a b -> nlt b a;
  o_tr : forall a b c, P a -> P b -> P c -> nlt b a -> nlt c b -> nlt c a }.

Definition stepm (st : nat * (nat * C)) (e : C) :=
  let '(i, acc) := st in (S i, if c_gt Fl e (snd acc) then (i, e) else acc).

Lemma max_index_spec : forall P (l : list C), ordered P -> P (key (c_default Fl)) ->
  Forall (fun e => P (key e) /\ nlt (key e) (key (c_default Fl))) l -> l <> [] ->
  max_index Fl l < length l /\
  (forall j a b, nth_error l j = Some a -> nth_error l (max_index Fl l) = Some b -> nlt (key b) (key a)) /\
  (forall j a b, j < max_index Fl l -> nth_error l j = Some a -> nth_error l (max_index Fl l) = Some b ->
     lt (key a) (key b)).
Proof.
  intros P l HO HD HF HN.
  assert (INV : forall l, Forall (fun e => P (key e) /\ nlt (key e) (key (c_default Fl))) l ->
     exists k e, fold_left stepm l (0, (0, c_default Fl)) = (length l, (k, e)) /\
       P (key e) /\
       (forall j a, nth_error l j = Some a -> nlt (key e) (key a)) /\
       ((k = 0 /\ e = c_default Fl) \/
        (nth_error l k = Some e /\ forall j a, j < k -> nth_error l j = Some a -> lt (key a) (key e)))).
  { clear l HF HN. induction l as [|x l IH] using rev_ind; intros HF.
    - exists 0, (c_default Fl). repeat split; auto. intros [|j] a E; discriminate.
    - apply Forall_app in HF as [HF HX]. apply Forall_inv in HX as [PX NX].
      destruct (IH HF) as [k [e [E [PE [MX W]]]]]. clear IH.
      rewrite Forall_forall in HF.
      assert (NTH : forall j a, nth_error (l ++ [x]) j = Some a -> (j < length l /\ nth_error l j = Some a) \/ (j = length l /\ a = x)).
      { intros j a H. destruct (Nat.lt_ge_cases j (length l)) as [L|L].
        - left. rewrite nth_error_app1 in H by lia. auto.
        - right. rewrite nth_error_app2 in H by lia. destruct (j - length l) as [|d] eqn:D.
          + cbn in H. split; [lia|congruence].
          + destruct d; discriminate. }
      rewrite fold_left_app. rewrite E. cbn [fold_left stepm snd].
      rewrite app_length. cbn [length]. rewrite Nat.add_1_r.
      unfold c_gt. destruct (fltb Fl (key e) (key x)) eqn:G.
      + exists (length l), x. split; [reflexivity|]. split; [exact PX|]. split.
        * intros j a H. destruct (NTH _ _ H) as [[_ H']|[_ ->]].
          -- apply (o_tr _ HO (key a) (key e) (key x)); auto.
             ++ apply (HF a). eapply nth_error_In; eauto.
             ++ apply (MX j a H').
             ++ apply (o_asym _ HO); auto.
          -- apply (o_irr _ HO); auto.
        * right. split.
          -- rewrite nth_error_app2, Nat.sub_diag by lia. reflexivity.
          -- intros j a L H. destruct (NTH _ _ H) as [[_ H']|[H' _]]; [|lia].
             assert (PA : P (key a)) by (apply (HF a); eapply nth_error_In; eauto).
             destruct (fltb Fl (key a) (key x)) eqn:Q; auto. exfalso.
             (* key e < key x, not key a < key x, so key e < key a *)
             pose proof (o_lt _ HO (key e) (key x) (key a) PE PX PA G Q). rewrite (MX _ _ H') in H0. discriminate.
      + exists k, e. split; [reflexivity|]. split; [exact PE|]. split.
        * intros j a H. destruct (NTH _ _ H) as [[_ H']|[_ ->]]; eauto.
        * destruct W as [W|[W1 W2]]; [left; exact W|right]. split.
          -- rewrite nth_error_app1; auto. apply nth_error_Some. congruence.
          -- intros j a L H. destruct (NTH _ _ H) as [[_ H']|[H' _]]; eauto.
             assert (k < length l) by (apply nth_error_Some; congruence). lia. }
  destruct (INV l HF) as [k [e [E [PE [MX W]]]]].
  assert (MI : max_index Fl l = k).
  { unfold max_index. change (fold_left _ l _) with (fold_left stepm l (0, (0, c_default Fl))). rewrite E. reflexivity. }
  rewrite MI. rewrite Forall_forall in HF. destruct W as [[-> ->]|[W1 W2]].
  - split; [destruct l; [congruence|cbn; lia]|]. split.
    + intros j a b Ha Hb. apply (o_tr _ HO (key a) (key (c_default Fl)) (key b)); auto.
      * apply (HF a). eapply nth_error_In; eauto.
      * apply (HF b). eapply nth_error_In; eauto.
      * eapply MX; eauto.
      * apply (HF b). eapply nth_error_In; eauto.
    + intros; lia.
  - split; [apply nth_error_Some; congruence|]. split.
    + intros j a b Ha Hb. rewrite W1 in Hb. injection Hb as <-. eauto.
    + intros j a b L Ha Hb. rewrite W1 in Hb. injection Hb as <-. eauto.
Qed.
End Gen.

(** Exact arithmetic. *)
Lemma ordered_R : ordered ROps (fun _ => True).
Proof.
  split; intros; cbn [fltb ROps] in *; rewrite ?Rltb_lt, ?Rltb_ge in *; lra.
Qed.

(** IEEE arithmetic: numbers that are not NaN, infinities included. *)
Section B.
Context (prec emax : Z) (Hp : Prec_gt_0 prec) (He : Prec_lt_emax prec emax).
Local Notation B := (binary_float prec emax).
Local Open Scope R_scope.

Definition grade (x : B) : Z := match x with B754_infinity s => if s then (-1)%Z else 1%Z | _ => 0%Z end.

Lemma Bltb_grade : forall x y : B, is_nan x = false -> is_nan y = false ->
  (Bltb x y = true <-> (grade x < grade y)%Z \/ (grade x = grade y /\ B2R x < B2R y)).
Proof.
  intros x y Nx Ny.
  destruct (is_finite x) eqn:Fx; destruct (is_finite y) eqn:Fy.
  - rewrite Bltb_correct by auto.
    assert (grade x = 0%Z /\ grade y = 0%Z) as [-> ->] by (destruct x, y; try discriminate; auto).
    destruct (Rlt_bool_spec (B2R x) (B2R y)); split; intros; try congruence; try lra; try lia.
    + right; auto.
    + destruct H0 as [H0|[_ H0]]; [lia|lra].
  - destruct y as [s|s| |s m e Q]; try discriminate. destruct x as [s'|s'| |s' m' e' Q']; try discriminate;
      destruct s; destruct s'; cbn; split; intros H; try discriminate; auto; try lia; destruct H as [H|[H _]]; lia.
  - destruct x as [s|s| |s m e Q]; try discriminate. destruct y as [s'|s'| |s' m' e' Q']; try discriminate;
      destruct s; destruct s'; cbn; split; intros H; try discriminate; auto; try lia; destruct H as [H|[H _]]; lia.
  - destruct x as [s|s| |s m e Q]; try discriminate. destruct y as [s'|s'| |s' m' e' Q']; try discriminate.
    destruct s, s'; cbn; split; intros H; try discriminate; auto; try lia; destruct H as [H|[H H']]; try lia; lra.
Qed.

Lemma Bltb_grade_f : forall x y : B, is_nan x = false -> is_nan y = false ->
  (Bltb x y = false <-> (grade y < grade x)%Z \/ (grade x = grade y /\ B2R y <= B2R x)).
Proof.
  intros x y Nx Ny. pose proof (Bltb_grade x y Nx Ny) as H. destruct (Bltb x y).
  - split; [discriminate|]. intros H'. destruct (proj1 H eq_refl) as [?|[? ?]]; destruct H' as [?|[? ?]]; try lia; lra.
  - split; auto. intros _. destruct (Z.lt_trichotomy (grade x) (grade y)) as [?|[E|?]]; auto.
    + assert (false = true) by (apply H; auto). discriminate.
    + right. split; auto. destruct (Rlt_or_le (B2R x) (B2R y)); auto.
      assert (false = true) by (apply H; auto). discriminate.
Qed.

Lemma ordered_B : forall L, ordered (BOps prec emax Hp He L) (fun x : B => is_nan x = false).
Proof.
  intros L. split.
  - intros a Ha. apply Bltb_grade_f; auto. right. split; [reflexivity|lra].
  - intros a b c Ha Hb Hc H1 H2. apply Bltb_grade in H1; auto. apply Bltb_grade_f in H2; auto. apply Bltb_grade; auto.
    destruct H1 as [H1|[E1 H1]]; destruct H2 as [H2|[E2 H2]]; try (left; lia). right. split; [lia|lra].
  - intros a b Ha Hb H1. apply Bltb_grade in H1; auto. apply Bltb_grade_f; auto.
    destruct H1 as [H1|[E1 H1]]; [left; lia|right; split; [lia|lra]].
  - intros a b c Ha Hb Hc H1 H2. apply Bltb_grade_f in H1; auto. apply Bltb_grade_f in H2; auto. apply Bltb_grade_f; auto.
    destruct H1 as [H1|[E1 H1]]; destruct H2 as [H2|[E2 H2]]; try (left; lia). right. split; [lia|lra].
Qed.

(** A square is not NaN and not negative. *)
Definition nonneg (x : B) := is_nan x = false /\ (grade x = 1%Z \/ (grade x = 0%Z /\ is_finite x = true /\ 0 <= B2R x)).

Lemma overflow_inf : forall (x : B) s, B2SF x = binary_overflow prec emax mode_NE s -> x = B754_infinity s.
Proof. intros [s|s| |s m e H] b E; unfold binary_overflow in E; simpl in E; try discriminate. injection E as ->. reflexivity. Qed.

Lemma square_nonneg : forall x : B, is_nan x = false -> nonneg (Bmult mode_NE x x).
Proof.
  intros x Nx. destruct (is_finite x) eqn:Fx.
  - pose proof (Bmult_correct prec emax Hp He mode_NE x x) as H. cbn [round_mode] in H.
    destruct (Rlt_bool _ _).
    + destruct H as [E [F _]]. rewrite Fx in F. cbn in F.
      assert (P : 0 <= B2R x * B2R x) by nra. apply (rnd_nonneg prec emax Hp) in P.
      pose proof (eq_ind_r (fun t => 0 <= t) P E) as P'.
      set (m := Bmult mode_NE x x) in *. clearbody m. destruct m; try discriminate; split; auto.
    + apply overflow_inf in H. rewrite H. rewrite xorb_nilpotent. split; auto.
  - destruct x as [s|s| |s m e Q]; try discriminate. cbn. rewrite xorb_nilpotent. split; auto.
Qed.

Lemma plus_nonneg : forall x y : B, nonneg x -> nonneg y -> nonneg (Bplus mode_NE x y).
Proof.
  intros x y [Nx Hx] [Ny Hy].
  destruct Hx as [Gx|[Gx [Fx Px]]].
  - destruct x as [s|s| |s m e Q]; try discriminate. destruct s; try discriminate.
    destruct y as [s|s| |s m e Q]; try discriminate; cbn; try (split; auto; fail).
    destruct s; cbn in *; [|split; auto]. destruct Hy as [?|[? [? ?]]]; lia.
  - destruct Hy as [Gy|[Gy [Fy Py]]].
    + destruct y as [s|s| |s m e Q]; try discriminate. destruct s; try discriminate.
      destruct x as [s|s| |s m e Q]; try discriminate; cbn; split; auto.
    + pose proof (Bplus_correct prec emax Hp He mode_NE x y Fx Fy) as H. cbn [round_mode] in H.
      destruct (Rlt_bool_spec (Rabs (round radix2 (SpecFloat.fexp prec emax) ZnearestE (B2R x + B2R y))) (bpow radix2 emax)).
      * destruct H as [E [F _]]. assert (P : 0 <= B2R x + B2R y) by lra. apply (rnd_nonneg prec emax Hp) in P.
        pose proof (eq_ind_r (fun t => 0 <= t) P E) as P'.
        set (m := Bplus mode_NE x y) in *. clearbody m. destruct m; try discriminate; split; auto.
      * destruct H as [E S]. apply overflow_inf in E. rewrite E.
        destruct (Bsign x) eqn:SX; [|split; auto]. exfalso.
        assert (Z : forall z : B, Bsign z = true -> 0 <= B2R z -> B2R z = 0).
        { intros z Sz Pz. destruct z as [s|s| |s m e Q]; cbn [B2R Bsign] in *; auto. subst s.
          pose proof (F2R_lt_0 radix2 (Float radix2 (Z.neg m) e) eq_refl). cbn [cond_Zopp] in Pz. change (- Z.pos m)%Z with (Z.neg m) in Pz. lra. }
        rewrite (Z x SX Px), (Z y (eq_sym S) Py), Rplus_0_r, round_0, Rabs_R0 in H0 by (try apply valid_rnd_N).
        pose proof (bpow_gt_0 radix2 emax). lra.
Qed.

Lemma norm_sq_B : forall L (z : cplx B), is_nan (re z : B) = false -> is_nan (im z : B) = false ->
  is_nan (c_norm_sq (BOps prec emax Hp He L) z : B) = false /\
  Bltb (c_norm_sq (BOps prec emax Hp He L) z : B) (c_norm_sq (BOps prec emax Hp He L) (c_default _) : B) = false.
Proof.
  intros L z Nr Ni. pose proof (plus_nonneg _ _ (square_nonneg _ Nr) (square_nonneg _ Ni)) as [N H].
  split; [exact N|].
  assert (DZ : exists s, (c_norm_sq (BOps prec emax Hp He L) (c_default _) : B) = B754_zero s).
  { eexists. reflexivity. }
  destruct DZ as [s DZ]. rewrite DZ. apply Bltb_grade_f; auto.
  destruct H as [G|[G [_ P]]].
  - left. change (grade (c_norm_sq (BOps prec emax Hp He L) z)) with (grade (Bplus mode_NE (Bmult mode_NE (re z : B) (re z)) (Bmult mode_NE (im z : B) (im z)))). rewrite G. cbn. lia.
  - right. split; [exact G|]. exact P.
Qed.
End B.
