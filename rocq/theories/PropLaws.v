(** * Property C68: laws of a training step in exact arithmetic *)
From Coq Require Import Reals Lra.
From Verif Require Import Base BaseFacts Float Matrix Cplx Act Input Loss Dense Conv Layer Dataset Network RFloat CFacts SpecMatrix MatrixFacts
  SpecLayer SpecConv SpecNet DenseFacts LayerFacts NetFacts TrainFacts PropNet PropTrain SpecGrad GradFacts GradFacts2 TrainLaws ExOps.
Local Open Scope nat_scope.

(** ** C36 *)
(** Training with the cross-entropy loss is training with the mean square loss,
    in any floating-point implementation. *)
Theorem C36_training : forall Fl p (n : network Fl) data lr,
  net_gradient_opt Fl p n data NormCrossEntropy lr = net_gradient_opt Fl p n data MeanSquare lr.
Proof.
  intros Fl p n data lr. unfold net_gradient_opt.
  assert (E : net_gradient Fl p n data NormCrossEntropy = net_gradient Fl p n data MeanSquare); [|now rewrite E].
  unfold net_gradient. destruct (ds_points_iter data) as (ins, tgs). apply foldM_ext. intros (W, B) (x, t) _. unfold point_step.
  destruct (net_collect_acts Fl p n x) as [[acts|]|]; cbn [obind unwrap]; try reflexivity.
Qed.
Print Assumptions C36_training.

(** ** C68 *)
(** [param n i]: the i-th parameter of a network (weights and biases, layer by
    layer).  [step b]: the training step on the points [b]. *)
Definition param (n : network ROps) (i : nat) : RC := nth i (net_values ROps n) 0%RC.

(** A batch moves every parameter by the mean of the moves its points make on
    their own, and fails exactly when one of them does. *)
Theorem C68_mean_of_moves : forall p (n : network ROps) pts f (lr : R),
  Forall (layer_full ROps) n -> 2 <= length n -> pts <> [] ->
  let step := fun b => net_gradient_opt ROps p n (batch b) f (mkC lr 0%R) in
  (step pts = Panic <-> Exists (fun it => step [it] = Panic) pts) /\
  (forall n', step pts = Ret (n', Ok tt) -> exists ms,
     Forall2 (fun it m => step [it] = Ret (m, Ok tt)) pts ms /\
     map (arch_of ROps) n' = map (arch_of ROps) n /\
     forall i, (param n' i - param n i = mkC (/ INR (length pts))%R 0%R * lsum (map (fun m => param m i - param n i) ms))%RC).
Proof.
  intros p n pts f lr FU LN NP step.
  assert (ONE : forall it, (exists g m, good p n f it g /\ step [it] = Ret (m, Ok tt) /\
      forall i, param m i = (param n i - mkC lr 0%R * conj (nth i g 0))%RC) \/ (step [it] = Panic /\ forall g, ~ good p n f it g)).
  { intros it. destruct (step_cases p n f [it] lr FU LN ltac:(discriminate)) as [(gs & m & F & E & _ & _ & V)|(E & it' & [<-|[]] & G)].
    - left. inversion F as [|? g ? gs' G F']; subst. inversion F'; subst. exists g, m. split; [exact G|]. split; [exact E|].
      intros i. unfold param. rewrite V. cbn [length map lsum fold_right INR]. generalize (nth i (net_values ROps n) 0%RC) (nth i g 0%RC). intros [a b] [c d].
      apply c_ext; cbn; field.
    - right. split; [exact E | exact G]. }
  destruct (step_cases p n f pts lr FU LN NP) as [(gs & n' & F & E & A & _ & V)|(E & it & HI & G)].
  - split.
    + unfold step at 1. rewrite E. split; [discriminate|]. intros X. exfalso. apply Exists_exists in X as (it & HI & X).
      destruct (ONE it) as [(g & m & _ & E' & _)|(_ & NG)]; [congruence|].
      clear - F HI NG. induction F as [|a b l l' G F IH]; [destruct HI|]. destruct HI as [<-|HI]; [now apply (NG b) | auto].
    + intros n1 E1. assert (n1 = n') by (unfold step in E1; congruence). subst n1. clear E1.
      assert (MS : exists ms, Forall2 (fun it m => step [it] = Ret (m, Ok tt)) pts ms /\
        forall i, lsum (map (fun m => param m i - param n i)%RC ms) = (- (mkC lr 0%R * conj (lsum (map (fun g => nth i g 0%RC) gs))))%RC).
      { clear E A V NP. induction F as [|it g pts gs G F IH].
        - exists []. split; [constructor|]. intros i. cbn [map lsum fold_right]. apply c_ext; cbn; ring.
        - destruct IH as (ms & M & S). destruct (ONE it) as [(g' & m & G' & E' & V)|(_ & NG)]; [|exfalso; now apply (NG g)].
          assert (g' = g) by (eapply good_unique; eauto). subst g'. exists (m :: ms). split; [constructor; auto|]. intros i.
          cbn [map]. change (lsum (?x :: ?y)) with (x + lsum y)%RC.
          transitivity ((param m i - param n i) + lsum (map (fun m => param m i - param n i)%RC ms))%RC; [reflexivity|]. rewrite S, V.
          transitivity (- (mkC lr 0%R * conj (nth i g 0 + lsum (map (fun g => nth i g 0%RC) gs))))%RC; [|reflexivity].
          generalize (param n i) (nth i g 0%RC) (lsum (map (fun g => nth i g 0%RC) gs)). intros [a b] [c d] [u v]. apply c_ext; cbn; ring. }
      destruct MS as (ms & M & S). exists ms. split; [exact M|]. split; [exact A|]. intros i. rewrite S. unfold param. rewrite V.
      generalize (nth i (net_values ROps n) 0%RC) (lsum (map (fun g => nth i g 0%RC) gs)). intros [a b] [u v].
      apply c_ext; cbn; unfold Rdiv; ring.
  - split.
    + split; [intros _|intros _; exact E]. apply Exists_exists. exists it. split; [exact HI|].
      destruct (ONE it) as [(g & m & G' & _)|(E' & _)]; [exfalso; now apply (G g) | exact E'].
    + intros n' E'. unfold step in E'. congruence.
Qed.
Print Assumptions C68_mean_of_moves.

(** Showing the same points k times in one batch changes nothing. *)
Theorem C68_repeat : forall p (n : network ROps) pts f (lr : R) k,
  Forall (layer_full ROps) n -> 2 <= length n -> pts <> [] -> 1 <= k ->
  net_gradient_opt ROps p n (batch (concat (repeat pts k))) f (mkC lr 0%R) = net_gradient_opt ROps p n (batch pts) f (mkC lr 0%R).
Proof.
  intros p n pts f lr k FU LN NP K.
  assert (NK : concat (repeat pts k) <> []) by (destruct k; [lia|]; cbn; destruct pts; [congruence | discriminate]).
  assert (LK : length (concat (repeat pts k)) = k * length pts) by (clear; induction k; cbn [repeat concat Nat.mul length]; [reflexivity | rewrite app_length, IHk; lia]).
  assert (IK : forall it, In it (concat (repeat pts k)) <-> In it pts).
  { intros it. clear - K. split.
    - induction k as [|k IH]; [intros []|]. cbn. rewrite in_app_iff. intros [H|H]; [exact H|]. destruct k; [destruct H | apply IH; [lia | exact H]].
    - destruct k; [lia|]. cbn. rewrite in_app_iff. auto. }
  destruct (step_cases p n f pts lr FU LN NP) as [(gs & n1 & F1 & E1 & A1 & L1 & V1)|(E1 & it1 & I1 & G1)];
  destruct (step_cases p n f (concat (repeat pts k)) lr FU LN NK) as [(gs2 & n2 & F2 & E2 & A2 & L2 & V2)|(E2 & it2 & I2 & G2)].
  - rewrite E1, E2. do 2 f_equal. apply net_eq; [congruence|]. apply (nth_ext _ _ 0%RC 0%RC); [congruence|]. intros i _. rewrite V1, V2.
    match goal with |- context [INR (length (concat ?c))] => replace (length (concat c)) with (k * length pts) by (symmetry; exact LK) end.
    assert (S : lsum (map (fun g => nth i g 0%RC) gs2) = (mkC (INR k) 0%R * lsum (map (fun g => nth i g 0%RC) gs))%RC).
    { clear - F1 F2. revert gs2 F2. induction k as [|k IH]; intros gs2 F2; cbn [repeat concat] in F2.
      - inversion F2; subst. cbn [map lsum fold_right INR]. apply c_ext; cbn; ring.
      - apply Forall2_app_inv_l in F2 as (ga & gb & FA & FB & ->). rewrite map_app, lsum_app, (IH gb FB).
        assert (ga = gs).
        { clear - F1 FA. revert ga FA. induction F1 as [|it g pts gs G F1 IH]; intros ga FA; inversion FA; subst; [reflexivity|].
          f_equal; [eapply good_unique; eauto | auto]. }
        subst ga. rewrite S_INR. generalize (lsum (map (fun g => nth i g 0%RC) gs)). intros [u v]. apply c_ext; cbn; ring. }
    rewrite S, mult_INR. assert (INR k <> 0%R) by (apply not_0_INR; lia).
    assert (INR (length pts) <> 0%R) by (apply not_0_INR; destruct pts; [congruence | discriminate]).
    generalize (lsum (map (fun g => nth i g 0%RC) gs)) (nth i (net_values ROps n) 0%RC). intros [u v] [a b]. apply c_ext; cbn; field; auto.
  - exfalso. apply IK in I2. clear - F1 I2 G2. induction F1 as [|a b l l' G F IH]; [destruct I2|]. destruct I2 as [<-|I2]; [now apply (G2 b) | auto].
  - exfalso. apply IK in I1. clear - F2 I1 G1. induction F2 as [|a b l l' G F IH]; [destruct I1|]. destruct I1 as [<-|I1]; [now apply (G1 b) | auto].
  - congruence.
Qed.
Print Assumptions C68_repeat.

Lemma zip_zero : forall (s : RC) (v d : list RC), (forall e, In e d -> c_mul_assign ROps e s = 0%RC) ->
  zip_assign (sub_conj ROps) v (map (fun e => c_mul_assign ROps e s) d) = v.
Proof.
  intros s v. induction v as [|a v IH]; intros [|e d] H; cbn [map zip_assign]; try reflexivity.
  rewrite IH by (intros; apply H; now right). rewrite (H e) by now left. f_equal. destruct a. unfold sub_conj, c_sub_assign, c_conj. apply c_ext; cbn; ring.
Qed.

Lemma unmoved : forall s (n n' : network ROps) W B, Forall (layer_full ROps) n ->
  map (@length RC) W = map (fun l => length (fst (layer_values ROps l))) n ->
  map (@length RC) B = map (fun l => length (snd (layer_values ROps l))) n ->
  (forall e, In e (gflat ROps W B) -> c_mul_assign ROps e s = 0%RC) ->
  mapM (update_layer ROps s) (combine (combine W B) n) = Ret n' -> n' = n.
Proof.
  intros s n n' W B FU L1 L2 Z E. destruct (update_all ROps s n W B FU L1 L2) as (n1 & U1 & U2 & U3 & _).
  assert (n1 = n') by congruence. subst n1. apply net_eq; [exact U2|]. rewrite U3. now apply zip_zero.
Qed.

(** With rate 0 a step leaves the network as it is. *)
Theorem C68_zero_rate : forall p (n n' : network ROps) data f r, Forall (layer_full ROps) n ->
  net_gradient_opt ROps p n data f (mkC 0 0)%R = Ret (n', r) -> n' = n.
Proof.
  intros p n n' data f r FU E. unfold net_gradient_opt in E. destruct (length n <=? 1); [congruence|].
  apply obind_inv in E as ((W & B) & EG & E). apply obind_inv in E as (s & ES & E). apply obind_inv in E as (m & EM & E).
  assert (m = n') by congruence. subst m. cbn [fst snd] in EM.
  destruct (gradient_lengths ROps p n data f W B EG) as (L1 & L2). destruct (grad_zero_sizes ROps n FU) as (Z1 & Z2). rewrite Z1 in L1. rewrite Z2 in L2.
  assert (S : s = 0%RC).
  { destruct (length (ds_inputs data)) as [|k].
    - rewrite (proj2 (proj1 (C53_rate 0) (mkC 0 0)%R) eq_refl) in ES. discriminate.
    - rewrite div_real in ES by discriminate. injection ES as <-. unfold Rdiv. rewrite Rmult_0_l. reflexivity. }
  subst s. apply (unmoved _ _ _ _ _ FU L1 L2) in EM; [exact EM|]. intros [a b] _. unfold c_mul_assign. apply c_ext; cbn; ring.
Qed.
Print Assumptions C68_zero_rate.

(** A network that predicts every target of the batch is not changed by a step,
    whatever the rate. *)
Theorem C68_solved : forall p (n n' : network ROps) pts f lr r, Forall (layer_full ROps) n ->
  (forall x t, In (x, t) pts -> exists y, net_forward ROps p n x = Ret (Ok y) /\ io_values t = io_values y) ->
  net_gradient_opt ROps p n (batch pts) f lr = Ret (n', r) -> n' = n.
Proof.
  intros p n n' pts f lr r FU H E. unfold net_gradient_opt in E. destruct (length n <=? 1) eqn:LN; [congruence|]. apply Nat.leb_gt in LN.
  apply obind_inv in E as ((W & B) & EG & E). apply obind_inv in E as (s & ES & E). apply obind_inv in E as (m & EM & E).
  assert (m = n') by congruence. subst m. cbn [fst snd] in EM.
  destruct (gradient_lengths ROps p n (batch pts) f W B EG) as (L1 & L2). destruct (grad_zero_sizes ROps n FU) as (Z1 & Z2). rewrite Z1 in L1. rewrite Z2 in L2.
  assert (Z : forall i, nth i (gflat ROps W B) 0%RC = 0%RC).
  { unfold net_gradient, ds_points_iter in EG. rewrite batch_points in EG.
    destruct (batch_sum p n f pts (fst (grad_zero ROps n)) (snd (grad_zero ROps n)) eq_refl eq_refl) as [(gs & W1 & B1 & F & E1 & _ & _ & S)|(E1 & _)];
      rewrite <- surjective_pairing in E1; rewrite E1 in EG; [|discriminate].
    assert (W1 = W) by congruence. assert (B1 = B) by congruence. subst W1 B1. clear EG E1. intros i. rewrite S, gz_flat.
    assert (G : Forall zs gs).
    { clear S L1 L2 EM ES. induction F as [|(x, t) g pts gs G F IH]; [constructor|]. constructor; [|apply IH; intros; apply H; now right].
      destruct (H x t (or_introl eq_refl)) as (y & FY & TY). destruct G as (ws & bs & PG & _ & _ & ->).
      unfold pgrad in PG. cbn [fst snd] in PG.
      assert (NE : n <> []) by (destruct n; [cbn in LN; lia | discriminate]).
      destruct (C50_agree ROps p n x NE) as [(vs & _ & LV & CA & FW & _)|(_ & _ & FW)]; [|congruence].
      rewrite CA in PG. cbn [unwrap obind] in PG.
      assert (LAST : last vs x = y).
      { assert (Y : nth (length n) vs x = y) by congruence. rewrite <- Y. assert (vs <> []) by (intros ->; cbn in LV; lia).
        destruct (exists_last H0) as (a & b & ->). rewrite last_last. rewrite app_length in LV. cbn [length] in LV.
        rewrite app_nth2 by lia. replace (length n - length a) with 0 by lia. reflexivity. }
      rewrite LAST in PG. apply obind_inv in PG as (dl & ED & PG). apply obind_inv in PG as ((((ws' & bs') & h) & hc) & EB & PG).
      assert (ws' = ws) by congruence. assert (bs' = bs) by congruence. subst ws' bs'.
      assert (ZD : zs dl).
      { assert (G : forall v : list RC, zs (release_dloss ROps f v v)).
        { intros v. destruct f; cbn [release_dloss]; apply Forall_forall; intros e He; apply in_map_iff in He as ((a, b) & <- & Hab);
            assert (a = b) by (clear - Hab; induction v as [|c v IH]; [destruct Hab | destruct Hab as [Hab|Hab]; [congruence | auto]]); subst b;
            destruct a; apply c_ext; cbn; ring. }
        destruct t as [t|t], y as [y|y]; cbn [d_loss unwrap io_values] in ED, TY; try discriminate; injection ED as <-; try (rewrite TY; apply G).
        unfold map_values in TY. rewrite !flat_map_concat_map. match goal with |- zs (release_dloss _ _ ?a ?b) => replace a with b by (symmetry; exact TY) end. apply G. }
      destruct (bp_zero _ _ _ _ _ _ _ _ ZD (conj_zs _ ZD) EB) as (K1 & K2 & _).
      unfold gflat. clear - K1 K2. revert bs K2. induction K1 as [|w ws Hw K1 IH]; intros bs K2; [constructor|].
      destruct K2 as [|b bs Hb K2]; [constructor|]. cbn [combine map concat fst snd]. apply zs_app. split; [apply zs_app; auto | apply IH, K2]. }
    clear - G. assert (S : lsum (map (fun g => nth i g 0%RC) gs) = 0%RC); [|rewrite S; ring].
    induction G as [|g gs Z G IH]; [reflexivity|]. cbn [map]. transitivity (nth i g 0%RC + lsum (map (fun g => nth i g 0%RC) gs))%RC; [reflexivity|]. rewrite IH.
    assert (N : nth i g 0%RC = 0%RC); [|rewrite N; ring]. destruct (Nat.lt_ge_cases i (length g)) as [L|L]; [|now apply nth_overflow].
    symmetry. apply (proj1 (Forall_forall _ _) Z). now apply nth_In. }
  apply (unmoved _ _ _ _ _ FU L1 L2) in EM; [exact EM|]. intros e He. apply (In_nth _ _ 0%RC) in He as (i & _ & <-). rewrite Z. unfold c_mul_assign. apply c_ext; cbn; ring.
Qed.
Print Assumptions C68_solved.

(** ** A network that meets the hypotheses *)
Definition unit_layer (w b : RC) : dense ROps := mkDense ROps (from_body [w] 1 1) [b] ActNone.
Definition law_net (b : RC) : network ROps := [LDense (unit_layer 0 0); LDense (unit_layer 0 b)]%RC.
Definition law_points : list (IOType RC * IOType RC) := [(IOScalar [mkC 0 0]%R, IOScalar [mkC 2 2]%R); (IOScalar [mkC 0 0]%R, IOScalar [mkC 0 2]%R)].

Lemma law_update : forall w b g h s : RC,
  update_layer ROps s (([g], [h]), LDense (unit_layer w b)) =
  Ret (LDense (unit_layer (sub_conj ROps w (c_mul_assign ROps g s)) (sub_conj ROps b (c_mul_assign ROps h s)))).
Proof. reflexivity. Qed.

Lemma law_one : forall t : RC, net_gradient ROps P64 (law_net 0%RC) (batch [(IOScalar [mkC 0 0]%R, IOScalar [t])]) MeanSquare =
  Ret ([[0%RC]; [0%RC]], [[0%RC]; [mkC (- re t)%R (im t)]]).
Proof.
  intros [a b]. cbv -[Rplus Rminus Rmult Rdiv Rinv Ropp IZR].
  repeat match goal with |- _ = _ :> R => ring | |- _ = _ => f_equal end.
Qed.

Lemma law_two : forall t u : RC, net_gradient ROps P64 (law_net 0%RC) (batch [(IOScalar [mkC 0 0]%R, IOScalar [t]); (IOScalar [mkC 0 0]%R, IOScalar [u])]) MeanSquare =
  Ret ([[0%RC]; [0%RC]], [[0%RC]; [mkC (- re t - re u)%R (im t + im u)%R]]).
Proof.
  intros [a b] [c d]. cbv -[Rplus Rminus Rmult Rdiv Rinv Ropp IZR].
  repeat match goal with |- _ = _ :> R => ring | |- _ = _ => f_equal end.
Qed.

Lemma law_step : forall pts (g lr s : RC), net_gradient ROps P64 (law_net 0%RC) (batch pts) MeanSquare = Ret ([[0%RC]; [0%RC]], [[0%RC]; [g]]) ->
  c_div ROps lr (c_of_nat ROps (length pts)) = Ret s ->
  net_gradient_opt ROps P64 (law_net 0%RC) (batch pts) MeanSquare lr = Ret (law_net (sub_conj ROps 0%RC (c_mul_assign ROps g s)), Ok tt).
Proof.
  intros pts g lr s E D. unfold net_gradient_opt. change (length (law_net 0%RC) <=? 1) with false. rewrite E. cbn [obind].
  replace (length (ds_inputs (batch pts))) with (length pts) by (cbn; now rewrite map_length). rewrite D. cbn [obind fst snd].
  unfold law_net at 1. cbn [combine mapM]. rewrite !law_update. cbn [obind]. unfold law_net.
  assert (Z : sub_conj ROps 0%RC (c_mul_assign ROps 0%RC s) = 0%RC) by (destruct s; unfold sub_conj, c_sub_assign, c_conj, c_mul_assign; apply c_ext; cbn; ring).
  rewrite Z. reflexivity.
Qed.

(** The batch moves the last bias by 1 + 2i, its points alone by 2 + 2i and by 2i. *)
Example C68_ex : Forall (layer_full ROps) (law_net 0%RC) /\ 2 <= length (law_net 0%RC) /\ law_points <> [] /\
  net_gradient_opt ROps P64 (law_net 0%RC) (batch law_points) MeanSquare (mkC 1 0)%R = Ret (law_net (mkC 1 2)%R, Ok tt) /\
  map (fun it => net_gradient_opt ROps P64 (law_net 0%RC) (batch [it]) MeanSquare (mkC 1 0)%R) law_points =
    [Ret (law_net (mkC 2 2)%R, Ok tt); Ret (law_net (mkC 0 2)%R, Ok tt)].
Proof.
  split; [repeat constructor|]. split; [cbn; lia|]. split; [discriminate|]. unfold law_points. split.
  - erewrite law_step; [|apply law_two|apply div_real; discriminate]. do 3 f_equal. unfold sub_conj, c_sub_assign, c_conj, c_mul_assign. apply c_ext; cbn; field.
  - assert (O : forall a b : R, net_gradient_opt ROps P64 (law_net 0%RC) (batch [(IOScalar [mkC 0 0]%R, IOScalar [mkC a b])]) MeanSquare (mkC 1 0)%R = Ret (law_net (mkC a b), Ok tt)).
    { intros a b. erewrite law_step; [|apply law_one|apply div_real; discriminate]. do 3 f_equal. unfold sub_conj, c_sub_assign, c_conj, c_mul_assign. apply c_ext; cbn; field. }
    cbn [map]. now rewrite !O.
Qed.

(** A network that already predicts its target, with a parameter that is not zero. *)
Example C68_ex_solved : net_forward ROps P64 (law_net (mkC 2 2)%R) (IOScalar [mkC 0 0]%R) = Ret (Ok (IOScalar [mkC 2 2]%R)) /\
  exists n', net_gradient_opt ROps P64 (law_net (mkC 2 2)%R) (batch [(IOScalar [mkC 0 0]%R, IOScalar [mkC 2 2]%R)]) MeanSquare (mkC 1 0)%R = Ret (n', Ok tt).
Proof.
  split.
  - cbv -[Rplus Rminus Rmult Rdiv Rinv Ropp IZR]. repeat match goal with |- _ = _ :> R => ring | |- _ = _ => f_equal end.
  - unfold net_gradient_opt. change (length (law_net (mkC 2 2)%R) <=? 1) with false.
    destruct (net_gradient ROps P64 (law_net (mkC 2 2)%R) (batch [(IOScalar [mkC 0 0]%R, IOScalar [mkC 2 2]%R)]) MeanSquare) as [(W & B)|] eqn:E; [|discriminate E].
    cbn [obind]. rewrite div_real by discriminate. cbn [obind]. injection E as <- <-. eexists. reflexivity.
Qed.

(** The laws need a real rate: with rate i, showing every point twice changes
    the step, because scaling a gradient in place uses its new real part to
    compute the imaginary one (property C05). *)
Theorem C68_complex_rate_refuted : exists (n : network ROps) pts lr,
  Forall (layer_full ROps) n /\ 2 <= length n /\ pts <> [] /\
  net_gradient_opt ROps P64 n (batch (pts ++ pts)) MeanSquare lr <> net_gradient_opt ROps P64 n (batch pts) MeanSquare lr /\
  net_gradient_opt ROps P64 n (batch (pts ++ pts)) MeanSquare lr <> Panic /\ net_gradient_opt ROps P64 n (batch pts) MeanSquare lr <> Panic.
Proof.
  exists (law_net 0%RC), [(IOScalar [mkC 0 0]%R, IOScalar [mkC 0 1]%R)], (mkC 0 1)%R.
  split; [repeat constructor|]. split; [cbn; lia|]. split; [discriminate|]. cbn [app].
  assert (D1 : c_div ROps (mkC 0 1)%R (c_of_nat ROps 1) = Ret (mkC 0 1)%R).
  { unfold c_of_nat. rewrite LossFacts.fofnat_R. unfold c_div, fsq. cbn [re im]. change (fzero ROps) with 0%R. change (feqb ROps) with Reqb.
    cbn [fadd fsub fmul fdiv ROps INR]. destruct (Reqb _ 0) eqn:E; [apply Reqb_eq in E; exfalso; lra|]. f_equal. f_equal; field. }
  assert (D2 : c_div ROps (mkC 0 1)%R (c_of_nat ROps 2) = Ret (mkC 0 (1 / 2))%R).
  { unfold c_of_nat. rewrite LossFacts.fofnat_R. unfold c_div, fsq. cbn [re im]. change (fzero ROps) with 0%R. change (feqb ROps) with Reqb.
    cbn [fadd fsub fmul fdiv ROps INR]. destruct (Reqb _ 0) eqn:E; [apply Reqb_eq in E; exfalso; lra|]. f_equal. f_equal; field. }
  rewrite (law_step _ _ _ _ (law_one _) D1), (law_step _ _ _ _ (law_two _ _) D2). split; [|split; discriminate].
  intros E. injection E as _ E. revert E. unfold sub_conj, c_sub_assign, c_conj, c_mul_assign. cbn. lra.
Qed.
Print Assumptions C68_complex_rate_refuted.
