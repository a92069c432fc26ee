(** * The moves of batches, and the move of the points they are made of *)
From Coq Require Import Reals Lra Permutation.
From Verif Require Import Base BaseFacts Float Matrix Cplx Act Input Loss Dense Conv Layer Dataset Network SpecMatrix RFloat CFacts SpecLayer SpecConv SpecNet TrainFacts PropTrain TrainLaws GradFacts GradFacts2 PropLaws
  SpecGeom SpecDead SpecFit FitFacts FitNet PropFit FloorEx.
Local Open Scope nat_scope.

Lemma distr : forall c x y : RC, (c * (x + y) = c * x + c * y)%RC. Proof. intros. ring. Qed.

Lemma scale_back : forall (u N : R) (x : RC), u <> 0%R -> (mkC (/ N)%R 0%R * x)%RC = (mkC (u / N)%R 0%R * (mkC (/ u)%R 0%R * x))%RC.
Proof.
  intros u N [a c] H. pose proof (Rinv_r u H) as E. unfold Rdiv. apply c_ext; cbn; generalize dependent (/ N)%R; intros w; generalize dependent (/ u)%R; intros v E.
  - replace (w * a - 0 * c)%R with (u * v * w * a - 0 * c)%R by (rewrite E; ring). ring.
  - replace (w * c + 0 * a)%R with (u * v * w * c + 0 * a)%R by (rewrite E; ring). ring.
Qed.

Section Mini.
Context (p : prec) (n : network ROps) (f : ComplexLossFunc) (lr : R).
Context (FU : Forall (layer_full ROps) n) (LN : 2 <= length n).
Let point : Type := (IOType RC * IOType RC)%type.
Local Notation step b := (net_gradient_opt ROps p n (batch b) f (mkC lr 0%R)).

Definition move1 (i : nat) (it : point) : RC := match step [it] with Ret (m, _) => (param m i - param n i)%RC | Panic => 0%RC end.

Lemma move1_eq : forall i it m, step [it] = Ret (m, Ok tt) -> move1 i it = (param m i - param n i)%RC.
Proof. intros i it m E. exact (f_equal (fun o => match o with Ret (m, _) => (param m i - param n i)%RC | Panic => 0%RC end) E). Qed.

Lemma step_two : forall b, b <> [] -> step b = Panic \/ exists m, step b = Ret (m, Ok tt).
Proof.
  intros b NB. destruct (step_cases p n f b lr FU LN NB) as [(gs & m & _ & E & _)|(E & _)]; [right; exists m; exact E | left; exact E].
Qed.

Lemma move_sum : forall b m, b <> [] -> step b = Ret (m, Ok tt) -> forall i,
  (param m i - param n i)%RC = (mkC (/ INR (length b))%R 0%R * lsum (map (move1 i) b))%RC.
Proof.
  intros b m NB E i. destruct (C68_mean_of_moves p n b f lr FU LN NB) as (_ & H). destruct (H m E) as (ms & F & _ & V). rewrite V. f_equal. f_equal.
  clear - F. induction F as [|it m b ms E F IH]; [reflexivity|]. cbn [map]. rewrite IH. f_equal. symmetry. now apply move1_eq.
Qed.

Lemma lsum_concat : forall (h : point -> RC) bs, lsum (map h (concat bs)) = lsum (map (fun b => lsum (map h b)) bs).
Proof. intros h. induction bs as [|b bs IH]; [reflexivity|]. cbn [concat map]. rewrite map_app, lsum_app, IH. reflexivity. Qed.

Lemma concat_nonempty : forall (bs : list (list point)), bs <> [] -> Forall (fun b => b <> []) bs -> concat bs <> [].
Proof. intros [|b bs] N F; [congruence|]. inversion F; subst. cbn. destruct b; [congruence | discriminate]. Qed.

Lemma same_step : forall pts bs k, pts <> [] -> 1 <= k -> Permutation (concat bs) (concat (repeat pts k)) -> step (concat bs) = step pts.
Proof. intros pts bs k NP K P. rewrite (C55_training p n _ _ f (mkC lr 0%R) P). now apply C68_repeat. Qed.

Lemma panic_parts : forall bs, bs <> [] -> Forall (fun b => b <> []) bs -> step (concat bs) = Panic <-> Exists (fun b => step b = Panic) bs.
Proof.
  intros bs NB FB. pose proof (concat_nonempty bs NB FB) as NC. destruct (C68_mean_of_moves p n (concat bs) f lr FU LN NC) as (H & _). cbv zeta in H. rewrite H. rewrite !Exists_exists. split.
  - intros (it & I & E). apply in_concat in I as (b & B & I). exists b. split; [exact B|]. rewrite Forall_forall in FB.
    destruct (C68_mean_of_moves p n b f lr FU LN (FB b B)) as (G & _). apply (proj2 G). apply Exists_exists. exists it. auto.
  - intros (b & B & E). rewrite Forall_forall in FB. destruct (C68_mean_of_moves p n b f lr FU LN (FB b B)) as (G & _). apply (proj1 G) in E. apply Exists_exists in E as (it & I & E).
    exists it. split; [|exact E]. apply in_concat. exists b. auto.
Qed.

Lemma weighted : forall bs n', bs <> [] -> Forall (fun b => b <> []) bs -> step (concat bs) = Ret (n', Ok tt) ->
  exists ms, Forall2 (fun b m => step b = Ret (m, Ok tt)) bs ms /\ forall i,
    (param n' i - param n i)%RC = lsum (map (fun bm => mkC (INR (length (fst bm)) / INR (length (concat bs)))%R 0%R * (param (snd bm) i - param n i))%RC (combine bs ms)).
Proof.
  intros bs n' NB FB E. pose proof (concat_nonempty bs NB FB) as NC.
  assert (MS : exists ms, Forall2 (fun b m => step b = Ret (m, Ok tt)) bs ms).
  { assert (Q : ~ Exists (fun b => step b = Panic) bs) by (intros X; apply (panic_parts bs NB FB) in X; rewrite E in X; discriminate).
    clear E NC NB. induction FB as [|b bs B FB IH]; [exists []; constructor|]. destruct IH as (ms & F); [intros X; apply Q; now right|].
    destruct (step_two b B) as [X|(m & X)]; [exfalso; apply Q; now left|]. exists (m :: ms). now constructor. }
  destruct MS as (ms & F). exists ms. split; [exact F|]. intros i. rewrite (move_sum _ n' NC E i), lsum_concat.
  assert (AUX : forall N, (mkC (/ N)%R 0%R * lsum (map (fun b => lsum (map (move1 i) b)) bs))%RC = lsum (map (fun bm => mkC (INR (length (fst bm)) / N)%R 0%R * (param (snd bm) i - param n i))%RC (combine bs ms))); [|apply AUX].
  intros N. clear E NC NB. induction F as [|b m bs ms E F IH]; [cbn; apply c_ext; cbn; ring|].
  inversion FB as [|? ? B FB']; subst. specialize (IH FB'). cbn [map combine]. unfold lsum in *. cbn [fold_right fst snd]. rewrite (move_sum b m B E i). unfold lsum.
  apply (eq_trans (y := (mkC (/ N)%R 0%R * fold_right (c_add ROps) 0 (map (move1 i) b) + mkC (/ N)%R 0%R * fold_right (c_add ROps) 0 (map (fun b => fold_right (c_add ROps) 0 (map (move1 i) b)) bs))%RC)).
  - apply distr.
  - apply f_equal2; [|exact IH]. assert (INR (length b) <> 0%R) by (apply not_0_INR; destruct b; [congruence | discriminate]).
    apply scale_back. exact H.
Qed.

Lemma equal_sizes : forall bs s n', bs <> [] -> 1 <= s -> Forall (fun b => length b = s) bs -> step (concat bs) = Ret (n', Ok tt) ->
  exists ms, Forall2 (fun b m => step b = Ret (m, Ok tt)) bs ms /\ forall i,
    (param n' i - param n i)%RC = (mkC (/ INR (length bs))%R 0%R * lsum (map (fun m => param m i - param n i) ms))%RC.
Proof.
  intros bs s n' NB S FS E. assert (FB : Forall (fun b : list point => b <> []) bs) by (apply (Forall_impl _ (P := fun b => length b = s)); [intros [|] H; cbn in H; [lia | discriminate] | exact FS]).
  destruct (weighted bs n' NB FB E) as (ms & F & V). exists ms. split; [exact F|]. intros i. rewrite V.
  assert (LC : length (concat bs) = length bs * s) by (clear - FS; induction FS as [|b bs H FS IH]; [reflexivity|]; cbn [concat length Nat.mul]; rewrite app_length; lia).
  assert (LR : forall b, In b bs -> (INR (length b) / INR (length (concat bs)))%R = (/ INR (length bs))%R).
  { intros b B. rewrite Forall_forall in FS. rewrite (FS b B). replace (length (concat bs)) with (length bs * s) by (symmetry; exact LC). rewrite mult_INR. field. split; apply not_0_INR; [destruct bs; [congruence | discriminate] | lia]. }
  revert LR. generalize (INR (length (concat bs))) (/ INR (length bs))%R. intros N w LR. clear - F LR.
  induction F as [|b m bs ms E F IH]; [cbn; apply c_ext; cbn; ring|]. specialize (IH ltac:(intros; apply LR; now right)). cbn [map combine]. unfold lsum in *. cbn [fold_right fst snd].
  rewrite (LR b (or_introl eq_refl)).
  match goal with |- _ = (_ * (?x + ?y))%RC => apply (eq_trans (y := (mkC w 0%R * x + mkC w 0%R * y)%RC)); [apply (f_equal (fun z => (mkC w 0%R * x + z)%RC)); exact IH | ring] end.
Qed.

Lemma one_replaced : forall a b it it' n1 n2, step (a ++ it :: b) = Ret (n1, Ok tt) -> step (a ++ it' :: b) = Ret (n2, Ok tt) ->
  exists m1 m2, step [it] = Ret (m1, Ok tt) /\ step [it'] = Ret (m2, Ok tt) /\ forall i,
    (param n1 i - param n2 i)%RC = (mkC (/ INR (length a + 1 + length b))%R 0%R * (param m1 i - param m2 i))%RC.
Proof.
  assert (ONE : forall a b it n1, step (a ++ it :: b) = Ret (n1, Ok tt) -> exists m, step [it] = Ret (m, Ok tt) /\ forall i,
    (param n1 i - param n i)%RC = (mkC (/ INR (length a + 1 + length b))%R 0%R * (param m i - param n i + (lsum (map (move1 i) a) + lsum (map (move1 i) b))))%RC).
  { intros a b it n1 E. assert (NE : a ++ it :: b <> []) by (destruct a; discriminate).
    destruct (step_two [it] ltac:(discriminate)) as [X|(m & X)].
    - exfalso. destruct (C68_mean_of_moves p n (a ++ it :: b) f lr FU LN NE) as (H & _). cbv zeta in H. rewrite (proj2 H) in E; [discriminate|]. apply Exists_exists. exists it. split; [apply in_elt | exact X].
    - exists m. split; [exact X|]. intros i. rewrite (move_sum _ n1 NE E i), map_app, lsum_app. cbn [map]. unfold lsum. cbn [fold_right].
      assert (MV : move1 i it = (param m i - param n i)%RC) by (now apply move1_eq). rewrite MV.
      replace (length (a ++ it :: b)) with (length a + 1 + length b) by (rewrite app_length; cbn; lia).
      match goal with |- (?c * (?x + (?y + ?z)))%RC = _ => change ((c * (x + (y + z)))%RC = (c * (y + (x + z)))%RC); ring end. }
  intros a b it it' n1 n2 E1 E2. destruct (ONE a b it n1 E1) as (m1 & X1 & V1). destruct (ONE a b it' n2 E2) as (m2 & X2 & V2). exists m1, m2. split; [exact X1|]. split; [exact X2|]. intros i.
  specialize (V1 i). specialize (V2 i). revert V1 V2. generalize (param n1 i) (param n2 i) (param n i) (param m1 i) (param m2 i) (lsum (map (move1 i) a) + lsum (map (move1 i) b))%RC (mkC (/ INR (length a + 1 + length b))%R 0%R : RC).
  intros x1 x2 x y1 y2 s c V1 V2. apply (eq_trans (y := ((x1 - x) - (x2 - x))%RC)); [ring|]. rewrite V1, V2. ring.
Qed.
End Mini.

(** ** Batches of different sizes *)
Definition flat_pt (t : RC) : IOType RC * IOType RC := (one_map (mkC 0 0)%R, IOScalar [t; mkC 0 0]%R).
Definition flat_net (c : RC) : network ROps := fit_feat ++ [LDense (with_bias c)].
Lemma flat_ok : forall ts it, In it (map flat_pt ts) -> point_ok (Maps 1 1 1) 2 it.
Proof. intros ts it H. apply in_map_iff in H as (t & <- & _). split; [|exists [t; mkC 0 0]%R; split; reflexivity]. cbn [has_geom one_map fst]. split; [reflexivity|]. intros mt [<-|[]]. repeat split. Qed.

Lemma flat_full : forall c, Forall (layer_full ROps) (flat_net c).
Proof. intros c. constructor; [exact Logic.I|]. constructor; [|constructor]. exact (proj1 (proj1 (bias_linear c))). Qed.

Lemma opp_two : forall x y : RC, (- x + - y = - (x + y))%RC. Proof. intros. ring. Qed.
Lemma zero_less : forall c x : RC, (mkC 0%R 0%R - c * - x = c * x)%RC. Proof. intros [a b] [c d]. apply c_ext; cbn; ring. Qed.

Lemma flat_step : forall p ts (lr : R), ts <> [] -> exists n', net_gradient_opt ROps p (flat_net (mkC 0 0)%R) (batch (map flat_pt ts)) MeanSquare (mkC lr 0%R) = Ret (n', Ok tt) /\
  param n' 2 = (mkC (lr / INR (length ts))%R 0%R * lsum ts)%RC.
Proof.
  intros p ts lr NT. assert (NP : map flat_pt ts <> []) by (destruct ts; [congruence | discriminate]).
  destruct (lin_step p fit_feat (Maps 1 1 1) 1 2 ltac:(discriminate) ltac:(repeat constructor) fit_fits ltac:(repeat constructor) (with_bias (mkC 0 0)%R) (map flat_pt ts) lr (bias_linear _) NP (flat_ok ts)) as (l' & E & L' & _ & VB).
  exists (fit_feat ++ [LDense l']). split; [exact E|]. specialize (VB 0 ltac:(lia)).
  assert (P2 : param (fit_feat ++ [LDense l']) 2 = nth 0 (d_biases l') 0%RC).
  { destruct L' as (W & I & U & _). destruct W as (WW & _). unfold param, net_values. cbn [fit_feat app map layer_values concat fst snd]. rewrite app_nil_r.
    assert (LB : length (body (d_weights l')) = 2) by (unfold wf in WW; unfold inputs, units in *; rewrite WW; nia). rewrite app_nth2; rewrite LB; [reflexivity | lia]. }
  rewrite P2, VB. rewrite map_map, map_length.
  assert (S : lsum (map (fun t => ue p fit_feat (with_bias (mkC 0 0)%R) 0 (flat_pt t)) ts) = (- lsum ts)%RC).
  { clear. induction ts as [|t ts IH]; [unfold lsum; cbn; apply c_ext; cbn; ring|]. cbn [map]. unfold lsum in *. cbn [fold_right]. rewrite IH.
    assert (U : ue p fit_feat (with_bias (mkC 0 0)%R) 0 (flat_pt t) = (- t)%RC) by (destruct t as [a b]; apply c_ext; cbn; ring). rewrite U. apply opp_two. }
  rewrite S. cbn [with_bias d_biases nth]. apply zero_less.
Qed.

Lemma flat_param : forall c, param (flat_net c) 2 = c.
Proof. reflexivity. Qed.
