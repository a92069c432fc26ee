(** * Facts about a change of basis of the outputs *)
From Coq Require Import Reals Lra Psatz.
From Verif Require Import Base BaseFacts Float Matrix Cplx Random Act Input Loss Dense Conv Layer Dataset Network SpecMatrix MatrixFacts
  SpecLayer SpecConv SpecNet SpecEval DenseFacts ConvFacts LayerFacts NetFacts TrainFacts TrainDense TrainLaws PropDense GradFacts GradFacts2 NanFacts
  SpecDead DeadFacts PropTrain TwinFacts PermFacts RFloat SpecLoss LossFacts PropLoss CFacts SpecBasis BasisFacts BasisEval.
Local Open Scope nat_scope.

(** ** Tables *)
(** The columns of [a'] are [V] times the columns of [a]. *)
Definition cls (r c : nat) (V : nat -> nat -> RC) (a a' : list RC) : Prop :=
  length a = r * c /\ length a' = r * c /\ forall o i, o < r -> i < c -> nth (o * c + i) a' 0%RC = csum (fun q => V o q * nth (q * c + i) a 0)%RC r.

Lemma cls_add : forall r c V a a' b b' d, cls r c V a a' -> cls r c V b b' -> unwrap (add_slice_mut (cops ROps) a b) = Ret d ->
  exists d', unwrap (add_slice_mut (cops ROps) a' b') = Ret d' /\ cls r c V d d'.
Proof.
  intros r c V a a' b b' d (A1 & A2 & A3) (B1 & B2 & B3) E. unfold add_slice_mut in *.
  rewrite A1, B1, Nat.eqb_refl in E. rewrite A2, B2, Nat.eqb_refl. cbn [negb unwrap] in *. eexists. split; [reflexivity|].
  change (add_assign (cops ROps)) with (c_add ROps) in *. assert (EC : zip_assign (c_add ROps) a b = d) by congruence. subst d.
  split; [now rewrite zip_assign_length|]. split; [now rewrite zip_assign_length|]. intros o i Ho Hi.
  assert (o * c + i < r * c) by nia. rewrite nth_zip by lia. rewrite A3, B3 by assumption. rewrite <- csum_add. apply csum_ext. intros q Hq. assert (q * c + i < r * c) by nia. rewrite nth_zip by lia. ring.
Qed.

Lemma cls_zero : forall r c V, cls r c V (repeat 0%RC (r * c)) (repeat 0%RC (r * c)).
Proof.
  intros r c V. split; [apply repeat_length|]. split; [apply repeat_length|]. intros o i Ho Hi. assert (Z : forall q, nth q (repeat (0%RC : RC) (r * c)) 0%RC = 0%RC).
  { intros q. destruct (Nat.lt_ge_cases q (r * c)) as [H|H]; [apply (repeat_spec (r * c)), nth_In; rewrite repeat_length; exact H | apply nth_overflow; rewrite repeat_length; exact H]. }
  rewrite Z. symmetry. apply csum_zero. intros j _. rewrite Z. ring.
Qed.

Lemma cls_update : forall r c V (s : R) w w' d d', cls r c V w w' -> cls r c (fun o q => conj (V o q)) d d' ->
  cls r c V (zip_assign (sub_conj ROps) w (map (fun e => c_mul_assign ROps e (mkC s 0%R)) d)) (zip_assign (sub_conj ROps) w' (map (fun e => c_mul_assign ROps e (mkC s 0%R)) d')).
Proof.
  intros r c V s w w' d d' (A1 & A2 & A3) (B1 & B2 & B3). split; [now rewrite zip_assign_length|]. split; [now rewrite zip_assign_length|]. intros o i Ho Hi.
  assert (N : forall (u e : list RC) q, length u = r * c -> length e = r * c -> q < r * c ->
     nth q (zip_assign (sub_conj ROps) u (map (fun e => c_mul_assign ROps e (mkC s 0%R)) e)) 0%RC = (nth q u 0 - mkC s 0%R * conj (nth q e 0))%RC).
  { intros u e q Lu Le Hq. rewrite nth_zip by (rewrite ?map_length; lia).
    assert (M : nth q (map (fun e => c_mul_assign ROps e (mkC s 0%R)) e) 0%RC = c_mul_assign ROps (nth q e 0%RC) (mkC s 0%R)).
    { apply nth_error_nth. rewrite nth_error_map, (nth_error_nth' e 0%RC) by lia. reflexivity. }
    rewrite M. clear M. destruct (nth q e 0%RC) as [x y]. unfold sub_conj, c_mul_assign, c_sub_assign. apply c_ext; cbn; ring. }
  rewrite N by nia. rewrite A3, B3 by assumption. rewrite csum_conj, <- csum_mul_l, <- csum_sub. apply csum_ext. intros j Hj. rewrite N by nia. rewrite conj_mul, conj_conj. ring.
Qed.

(** ** Lists of tables that differ in the last one *)
Definition at_end (P : list RC -> list RC -> Prop) (W W' : list (list RC)) : Prop := exists A w w', W = A ++ [w] /\ W' = A ++ [w'] /\ P w w'.

Lemma at_end_add : forall (P : list RC -> list RC -> Prop) W W' ws ws' D, (forall a a' b b' d, P a a' -> P b b' -> unwrap (add_slice_mut (cops ROps) a b) = Ret d -> exists d', unwrap (add_slice_mut (cops ROps) a' b') = Ret d' /\ P d d') ->
  length ws = length W -> at_end P W W' -> at_end P ws ws' -> addv ROps W ws = Ret D -> exists D', addv ROps W' ws' = Ret D' /\ at_end P D D'.
Proof.
  intros P W W' ws ws' D HP L (A & w & w' & -> & -> & HW) (B & d & d' & -> & -> & HD) E. rewrite !app_length in L. cbn [length] in L.
  rewrite addv_app in * by lia. apply obind_inv in E as (X & E1 & E). rewrite E1. cbn [obind addv] in *. apply obind_inv in E as (Y & E2 & E). injection E as <-.
  apply obind_inv in E2 as (y & E2 & E3). injection E3 as <-. destruct (HP _ _ _ _ _ HW HD E2) as (y' & -> & HY). cbn [obind]. eexists. split; [reflexivity|]. exists X, y, y'. auto.
Qed.

Section Out.
Context (p : prec) (N : nat) (V : nat -> nat -> RC) (UN : unitary N V).
Local Notation Vc := (fun o q => conj (V o q)).

(** A unitary table keeps products. *)
Lemma keeps_products : forall a a' b b' : nat -> RC, (forall o, o < N -> a' o = csum (fun q => V o q * a q)%RC N) -> (forall o, o < N -> b' o = csum (fun q => conj (V o q) * b q)%RC N) ->
  csum (fun o => a' o * b' o)%RC N = csum (fun q => a q * b q)%RC N.
Proof.
  intros a a' b b' HA HB. transitivity (csum (fun o => csum (fun j => csum (fun k => (b j * a k) * (conj (V o j) * V o k)) N) N)%RC N).
  - apply csum_ext. intros o Ho. rewrite HA, HB by assumption. transitivity (csum (fun j => conj (V o j) * b j) N * csum (fun k => V o k * a k) N)%RC; [ring|].
    rewrite <- csum_mul_r. apply csum_ext. intros j Hj. rewrite <- csum_mul_l. apply csum_ext. intros k Hk. ring.
  - rewrite csum_swap. apply csum_ext. intros j Hj. rewrite csum_swap. rewrite (csum_delta _ N j Hj).
    + rewrite csum_mul_l, UN, Nat.eqb_refl by assumption. ring.
    + intros k Hk ND. rewrite csum_mul_l, UN by assumption. rewrite (proj2 (Nat.eqb_neq j k)) by congruence. ring.
Qed.

Section Layer.
Context (l l' : dense ROps) (LB : output_in_basis N V l l').

Lemma pre_out : forall v o, o < N -> pre ROps l' v o = csum (fun q => V o q * pre ROps l v q)%RC N.
Proof.
  destruct LB as (W1 & W2 & U1 & U2 & II & F1 & F2 & HB & HW). intros v o Ho.
  change (pre ROps l' v o) with (csum (fun i => weight ROps l' o i * nth i v 0)%RC (inputs ROps l') + nth o (d_biases l') 0)%RC.
  rewrite HB, II by assumption. transitivity (csum (fun q => V o q * csum (fun i => weight ROps l q i * nth i v 0) (inputs ROps l)) N + csum (fun q => V o q * nth q (d_biases l) 0) N)%RC.
  - f_equal. transitivity (csum (fun i => csum (fun q => V o q * (weight ROps l q i * nth i v 0)) N) (inputs ROps l))%RC.
    + apply csum_ext. intros i Hi. rewrite HW by assumption. rewrite <- csum_mul_r. apply csum_ext. intros q Hq. ring.
    + rewrite csum_swap. apply csum_ext. intros q Hq. rewrite csum_mul_l. reflexivity.
  - rewrite <- csum_add. apply csum_ext. intros q Hq. change (pre ROps l v q) with (csum (fun i => weight ROps l q i * nth i v 0)%RC (inputs ROps l) + nth q (d_biases l) 0)%RC. ring.
Qed.

Lemma forward_shape : forall x w, dense_forward ROps p l x = Ret (Ok w) -> exists v, x = IOScalar v /\ length v = inputs ROps l.
Proof.
  intros x w E. destruct x as [v|v]; [|discriminate E]. exists v. split; [reflexivity|].
  destruct (Nat.eq_dec (length v) (inputs ROps l)) as [LV|LV]; [exact LV|]. exfalso.
  rewrite (proj2 (C40_rejects ROps p l)) in E by exact LV. discriminate E.
Qed.

Lemma forward_out : forall x w, dense_forward ROps p l x = Ret (Ok w) -> exists w', dense_forward ROps p l' x = Ret (Ok w') /\ in_basis N V w w'.
Proof.
  pose proof LB as (W1 & W2 & U1 & U2 & II & F1 & F2 & HB & HW). intros x w E.
  destruct (forward_shape x w E) as (v & -> & LV).
  assert (G : forall k : dense ROps, dense_wf ROps k -> units ROps k = N -> d_func k = ActNone -> inputs ROps k = length v ->
     dense_forward ROps p k (IOScalar v) = Ret (Ok (IOScalar (map (pre ROps k v) (seq 0 N))))).
  { intros k Wk Uk Fk Ik. apply C40_forward; [exact Wk | congruence|]. rewrite map_length, seq_length. split; [auto|].
    intros i Hi. rewrite Fk. cbn [activate]. rewrite nth_map_seq by congruence. reflexivity. }
  rewrite (G l) in E by congruence. injection E as <-. eexists. split; [apply G; congruence|]. do 2 eexists. split; [reflexivity|]. split; [reflexivity|].
  split; [now rewrite map_length, seq_length|]. split; [now rewrite map_length, seq_length|]. intros o Ho. rewrite nth_of_seq by assumption. rewrite pre_out by assumption.
  apply csum_ext. intros q Hq. rewrite nth_of_seq by assumption. reflexivity.
Qed.

Lemma derivs_out : forall v g g' dw db h hc, length v = inputs ROps l -> cls N 1 Vc g g' -> dense_derivatives ROps p l (IOScalar v) g (map (c_conj ROps) g) = Ret (Ok (dw, db, h, hc)) ->
  exists dw' db', dense_derivatives ROps p l' (IOScalar v) g' (map (c_conj ROps) g') = Ret (Ok (dw', db', h, hc)) /\ cls N (inputs ROps l) Vc dw dw' /\ cls N 1 Vc db db'.
Proof.
  pose proof LB as (W1 & W2 & U1 & U2 & II & F1 & F2 & HB & HW). intros v g g' dw db h hc LV (G1 & G2 & G3) D.
  rewrite Nat.mul_1_r in G1, G2.
  assert (D1 : forall (k : dense ROps) i, d_func k = ActNone -> i < units ROps k -> d_activate ROps p (d_func k) (pre ROps k v i) = Ret 1%RC /\ d_conj_activate ROps p (d_func k) (pre ROps k v i) = Ret 0%RC)
    by (intros k i Fk _; rewrite Fk; split; reflexivity).
  destruct (C41_derivatives ROps p l v g (map (c_conj ROps) g) (fun _ => 1%RC) (fun _ => 0%RC) W1 LV ltac:(congruence) ltac:(rewrite map_length; congruence) ltac:(intros; apply D1; auto)) as (dw1 & db1 & h1 & E1 & L1 & L2 & L3 & B1 & V1 & X1).
  rewrite E1 in D. injection D as -> -> -> <-.
  destruct (C41_derivatives ROps p l' v g' (map (c_conj ROps) g') (fun _ => 1%RC) (fun _ => 0%RC) W2 ltac:(congruence) ltac:(congruence) ltac:(rewrite map_length; congruence) ltac:(intros; apply D1; auto)) as (dw2 & db2 & h2 & E2 & L4 & L5 & L6 & B2 & V2 & X2).
  rewrite U1 in *. rewrite U2 in *. rewrite II in *. cbv zeta in B1, V1, X1, B2, V2, X2.
  assert (DE : forall (u : list RC) i, (1 * nth i u 0 + conj 0 * nth i (map (c_conj ROps) u) 0)%RC = nth i u 0%RC) by (intros u i; rewrite conj_0; ring).
  change (c_default ROps) with (0%RC : RC) in *. 
  assert (G4 : forall o, o < N -> nth o g' 0%RC = csum (fun q => conj (V o q) * nth q g 0)%RC N).
  { intros o Ho. specialize (G3 o 0 Ho (le_n _)). rewrite Nat.mul_1_r, Nat.add_0_r in G3. rewrite G3. apply csum_ext. intros q Hq. now rewrite Nat.mul_1_r, Nat.add_0_r. }
  assert (H2 : h2 = h).
  { apply (nth_ext _ _ 0%RC 0%RC); [congruence|]. intros j Hj. rewrite X1, X2 by lia.
    apply (keeps_products (fun q => weight ROps l q j) (fun o => weight ROps l' o j)); intros o Ho; [apply HW; [exact Ho | lia]|]. rewrite DE, G4 by assumption. apply csum_ext. intros q Hq. now rewrite DE. }
  subst h2. exists dw2, db2. split; [exact E2|]. split.
  - split; [exact L1|]. split; [exact L4|]. intros o i Ho Hi. rewrite V2, DE, G4 by assumption. rewrite <- csum_mul_l. apply csum_ext. intros q Hq. rewrite V1, DE by assumption. ring.
  - rewrite <- (Nat.mul_1_r N) in L2, L5. split; [exact L2|]. split; [exact L5|]. intros o i Ho Hi. assert (i = 0) by lia. subst i. rewrite Nat.mul_1_r, Nat.add_0_r.
    rewrite B2, DE, G4 by assumption. apply csum_ext. intros q Hq. rewrite Nat.mul_1_r, Nat.add_0_r. now rewrite B1, DE by assumption.
Qed.
End Layer.

Lemma pgrad_out : forall front l l' f x t t' ws bs, output_in_basis N V l l' -> in_basis N V t t' -> pgrad ROps p (front ++ [LDense l]) f (x, t) = Ret (ws, bs) ->
  exists ws' bs', pgrad ROps p (front ++ [LDense l']) f (x, t') = Ret (ws', bs') /\ at_end (cls N (inputs ROps l) Vc) ws ws' /\ at_end (cls N 1 Vc) bs bs'.
Proof.
  intros front l l' f x t t' ws bs LB IB P. destruct (collect_of_pgrad ROps p _ f x _ ws bs P) as (vs & g & h & hc & T & DL & B).
  destruct (trace_app ROps p _ _ _ _ T) as (u & y & w & TA & TB & -> & LU). inversion TB as [|? ? ? y1 w1 E TE]; subst. inversion TE; subst. clear TE. cbn [layer_forward] in E.
  destruct IB as (tv & tv' & -> & -> & T1 & T2 & T3).
  destruct (forward_shape l y y1 E) as (v & -> & LV). destruct (forward_out l l' LB _ _ E) as (y1' & E' & (o & o' & -> & -> & O1 & O2 & O3)).
  assert (LS : forall a b : IOType RC, last (u ++ [a; b]) x = b) by (intros a b; change (u ++ [a; b]) with (u ++ ([a] ++ [b])); rewrite app_assoc; apply last_last).
  rewrite LS in DL. cbn [d_loss] in DL. injection DL as <-.
  assert (RD : forall a b : list RC, release_dloss ROps f a b = d_mean_sq_loss ROps a b) by (intros; destruct f; reflexivity). rewrite RD in B.
  assert (GL : forall a b : list RC, length a = N -> length b = N -> length (d_mean_sq_loss ROps a b) = N /\ forall i, i < N -> nth i (d_mean_sq_loss ROps a b) 0%RC = conj (nth i b 0 - nth i a 0)%RC).
  { intros a b LA LB'. split; [unfold d_mean_sq_loss; rewrite map_length, combine_length; lia|]. intros i Hi. unfold d_mean_sq_loss.
    rewrite (nth_indep _ 0%RC (d_sq_error ROps (fst (0, 0)%RC) (snd (0, 0)%RC))) by (rewrite map_length, combine_length; lia).
    rewrite (map_nth (fun tp => d_sq_error ROps (fst tp) (snd tp))), combine_nth by congruence. reflexivity. }
  destruct (GL tv o T1 O1) as (K1 & K2). destruct (GL tv' o' T2 O2) as (K3 & K4).
  assert (CG : cls N 1 Vc (d_mean_sq_loss ROps tv o) (d_mean_sq_loss ROps tv' o')).
  { split; [rewrite Nat.mul_1_r; exact K1|]. split; [rewrite Nat.mul_1_r; exact K3|]. intros a b Ha Hb. assert (b = 0) by lia. subst b. rewrite Nat.mul_1_r, Nat.add_0_r.
    rewrite K4, O3, T3 by assumption. rewrite <- csum_sub, csum_conj. apply csum_ext. intros q Hq. rewrite Nat.mul_1_r, Nat.add_0_r, K2 by assumption. rewrite <- conj_mul. f_equal. ring. }
  rewrite combine_app' in B by exact LU. cbn [combine] in B. rewrite bp_app in B. cbn [bp layer_propagates dense_propagates layer_derivatives obind] in B.
  apply obind_inv in B as ((((wl & bl) & h1) & hc1) & B1 & B). apply obind_inv in B1 as (q & DE & B1). destruct q as [q|]; [|discriminate B1]. cbn [unwrap obind] in B1.
  destruct q as (((dw & db) & e) & ec). injection B1 as <- <- <- <-. apply obind_inv in B as ((((w1 & b1) & h2) & hc2) & B2 & B). injection B as <- <- <- <-.
  destruct (derivs_out l l' LB v _ _ dw db e ec LV CG DE) as (dw' & db' & DE' & CW & CB).
  exists (w1 ++ [dw']), (b1 ++ [db']). split; [|split; [exists w1, dw, dw' | exists b1, db, db']; auto].
  apply (pgrad_of ROps p _ f x (IOScalar tv') (u ++ [IOScalar v; IOScalar o']) (d_mean_sq_loss ROps tv' o') _ _ h2 hc2).
  - destruct front; discriminate.
  - apply trace_join; [exact TA|]. econstructor; [exact E' | constructor].
  - rewrite LS. cbn [d_loss]. now rewrite RD.
  - rewrite combine_app' by exact LU. cbn [combine]. rewrite bp_app. cbn [bp layer_propagates dense_propagates layer_derivatives obind]. rewrite DE'. cbn [unwrap obind]. rewrite B2. reflexivity.
Qed.

Lemma slots_end : forall front (l l' : dense ROps) P W W', slots ROps (front ++ [LDense l]) W -> at_end P W W' -> slots ROps (front ++ [LDense l']) W'.
Proof.
  intros front l l' P W W' S (A & w & w' & -> & -> & _). unfold slots in *. apply Forall2_app_inv_l in S as (X & Y & S1 & S2 & E). inversion S2 as [|? ? ? ? Q S3]; subst. inversion S3; subst.
  apply app_inj_tail in E as (-> & _). apply Forall2_app; [exact S1|]. constructor; [intros K; discriminate K | constructor].
Qed.

Lemma batch_out : forall front l l' f xs, output_in_basis N V l l' -> forall ts ts', Forall2 (in_basis N V) ts ts' -> forall W B W' B' G, slots ROps (front ++ [LDense l]) W -> slots ROps (front ++ [LDense l]) B ->
  at_end (cls N (inputs ROps l) Vc) W W' -> at_end (cls N 1 Vc) B B' -> foldM (point_step ROps p (front ++ [LDense l]) f) (combine xs ts) (W, B) = Ret G ->
  exists G1 G2, foldM (point_step ROps p (front ++ [LDense l']) f) (combine xs ts') (W', B') = Ret (G1, G2) /\ at_end (cls N (inputs ROps l) Vc) (fst G) G1 /\ at_end (cls N 1 Vc) (snd G) G2.
Proof.
  intros front l l' f xs LB ts ts' HT. revert xs. induction HT as [|t t' ts ts' IB HT IH]; intros xs W B W' B' G SW SB EW EB E.
  - destruct xs; cbn [combine foldM] in *; injection E as <-; eauto.
  - destruct xs as [|x xs]; cbn [combine foldM] in *; [injection E as <-; eauto|].
    apply obind_inv in E as ((W2 & B2) & E1 & E). destruct (point_step_lengths ROps p _ _ _ _ _ _ _ SW SB E1) as (Z1 & Z2).
    rewrite point_step_eq in E1 by auto. apply obind_inv in E1 as ((ws & bs) & P & E1). apply obind_inv in E1 as (W3 & A1 & E1). apply obind_inv in E1 as (B3 & A2 & E1). injection E1 as -> ->.
    destruct (pgrad_out front l l' f x t t' ws bs LB IB P) as (ws' & bs' & P' & CW & CB).
    assert (LL : length ws = length W /\ length bs = length B).
    { destruct (collect_of_pgrad ROps p _ f x _ ws bs P) as (vs & g & h & hc & T & DL & BP). apply bp_length in BP as (E4 & E5). rewrite combine_length in E4, E5. rewrite (trace_length ROps p _ _ _ T) in E4, E5.
      pose proof (Forall2_len _ _ _ SW). pose proof (Forall2_len _ _ _ SB). split; lia. }
    destruct (at_end_add _ _ _ _ _ _ (cls_add _ _ _) (proj1 LL) EW CW A1) as (W2' & A1' & EW2). destruct (at_end_add _ _ _ _ _ _ (cls_add _ _ _) (proj2 LL) EB CB A2) as (B2' & A2' & EB2).
    pose proof (slots_end front l l' _ _ _ SW EW) as SW'. pose proof (slots_end front l l' _ _ _ SB EB) as SB'.
    rewrite point_step_eq by assumption. rewrite P'. cbn [obind]. rewrite A1'. cbn [obind]. rewrite A2'. cbn [obind].
    apply (IH xs W2 B2); auto; eapply slots_lengths; eauto.
Qed.

Lemma step_out : forall n n' d d' f lr n1, net_output_in_basis N V n n' -> target_in_basis N V (d, f, lr) (d', f, lr) -> net_gradient_opt ROps p n d f lr = Ret (n1, Ok tt) ->
  exists n1', net_gradient_opt ROps p n' d' f lr = Ret (n1', Ok tt) /\ net_output_in_basis N V n1 n1'.
Proof.
  intros n n' d d' f lr n1 (front & l & l' & -> & -> & LB) (DX & DT & _ & _ & RL) E. cbn [fst snd] in *. pose proof LB as (W1 & W2 & U1 & U2 & II & F1 & F2 & HB & HW).
  unfold net_gradient_opt in *. rewrite app_length in *. cbn [length] in *. destruct (length front + 1 <=? 1) eqn:L1; [discriminate|].
  apply obind_inv in E as ((W & B) & EG & E). apply obind_inv in E as (sc & ES & E). apply obind_inv in E as (q & EM & E). assert (q = n1) by congruence. subst q. clear E. cbn [fst snd] in EM.
  destruct (gradient_lengths ROps p _ d f W B EG) as (GL1 & GL2).
  unfold net_gradient, ds_points_iter in *. destruct (grad_zero_slots ROps (front ++ [LDense l])) as (S1 & S2).
  assert (PL : forall k : dense ROps, dense_wf ROps k -> layer_params_len ROps (LDense k) = (units ROps k * inputs ROps k, units ROps k)).
  { intros k Wd. assert (FU : layer_full ROps (LDense k)) by apply Wd. destruct (full_params ROps _ FU) as (Q1 & Q2). rewrite (surjective_pairing (layer_params_len ROps (LDense k))), Q1, Q2.
    cbn [layer_values fst snd]. destruct Wd as (w1 & w2 & _). rewrite w1, w2. reflexivity. }
  pose (zw := repeat (0%RC : RC) (N * inputs ROps l)). pose (zb := repeat (0%RC : RC) (N * 1)).
  assert (G0 : forall k : dense ROps, dense_wf ROps k -> units ROps k = N -> inputs ROps k = inputs ROps l -> grad_zero ROps (front ++ [LDense k]) = (fst (grad_zero ROps front) ++ [zw], snd (grad_zero ROps front) ++ [zb])).
  { intros k Wk Uk Ik. unfold grad_zero. cbn [fst snd]. rewrite !map_app. cbn [map layer_propagates dense_propagates]. rewrite PL by assumption. cbn [fst snd]. rewrite Uk, Ik. unfold zw, zb. rewrite Nat.mul_1_r. reflexivity. }
  rewrite (G0 l W1 U1 eq_refl) in EG, S1, S2. cbn [fst snd] in S1, S2. rewrite (G0 l' W2 U2 II), DX.
  destruct (batch_out front l l' f (ds_inputs d) LB _ _ DT _ _ (fst (grad_zero ROps front) ++ [zw]) (snd (grad_zero ROps front) ++ [zb]) _ S1 S2
     ltac:(do 3 eexists; split; [reflexivity|]; split; [reflexivity | apply cls_zero]) ltac:(do 3 eexists; split; [reflexivity|]; split; [reflexivity | apply cls_zero]) EG)
    as (G1 & G2 & EG' & (WF & w & w' & EQ1 & -> & CW) & (BF & b & b' & EQ2 & -> & CB)). cbn [fst snd] in EQ1, EQ2. subst W B.
  rewrite EG'. cbn [obind]. rewrite ES. cbn [obind fst snd]. destruct (real_scale lr _ sc RL ES) as (c & ->).
  assert (LF : length WF = length front /\ length BF = length front).
  { apply (f_equal (@length _)) in GL1. apply (f_equal (@length _)) in GL2. rewrite !map_length, !app_length in GL1, GL2. unfold grad_zero in GL1, GL2. cbn [fst snd length] in GL1, GL2. rewrite !map_length, !app_length in GL1, GL2. cbn [length] in GL1, GL2. lia. }
  destruct LF as (LF1 & LF2).
  rewrite (combine_app' WF _ BF) in EM by congruence. rewrite combine_app' in EM by (rewrite combine_length; lia). rewrite mapM_app in EM. cbn [combine mapM] in EM.
  rewrite (combine_app' WF _ BF) by congruence. rewrite combine_app' by (rewrite combine_length; lia). rewrite mapM_app. cbn [combine mapM].
  apply obind_inv in EM as (f1 & M1 & EM). rewrite M1. cbn [obind]. apply obind_inv in EM as (r1 & M2 & EM). injection EM as <-. apply obind_inv in M2 as (k1 & M2 & M3). injection M3 as <-.
  assert (BD : length (body (d_weights l)) = N * inputs ROps l /\ length (body (d_weights l')) = N * inputs ROps l).
  { unfold dense_wf, wf in W1, W2. rewrite (proj1 W1), (proj1 W2). unfold units, inputs in *. split; congruence. }
  assert (BB : length (d_biases l) = N * 1 /\ length (d_biases l') = N * 1).
  { unfold dense_wf in W1, W2. unfold units in *. rewrite (proj1 (proj2 W1)), (proj1 (proj2 W2)), Nat.mul_1_r. auto. }
  destruct BD as (D1 & D2). destruct BB as (D5 & D6).
  assert (CW' := CW). assert (CB' := CB). destruct CW' as (CW1 & CW2 & CW3). destruct CB' as (CB1 & CB2 & CB3).
  destruct (update_ok ROps (mkC c 0%R) (LDense l) w b (proj1 W1) ltac:(cbn [layer_values fst snd]; congruence) ltac:(cbn [layer_values fst snd]; congruence)) as (x1 & Y1 & AR1 & VA1).
  destruct (update_ok ROps (mkC c 0%R) (LDense l') w' b' (proj1 W2) ltac:(cbn [layer_values fst snd]; congruence) ltac:(cbn [layer_values fst snd]; congruence)) as (x2 & Y2 & AR2 & VA2).
  assert (x1 = k1) by congruence. subst x1. rewrite Y2. cbn [obind]. eexists. split; [reflexivity|].
  destruct k1 as [l1|l1|l1|l1]; try discriminate. destruct x2 as [l2|l2|l2|l2]; try discriminate. exists f1, l1, l2. split; [reflexivity|]. split; [reflexivity|].
  destruct (arch_dense ROps l1 l AR1 W1) as (Q1 & Q2 & Q3 & Q4). destruct (arch_dense ROps l2 l' AR2 W2) as (P1 & P2 & P3 & P4).
  cbn [layer_values fst snd] in VA1, VA2. injection VA1 as VA1 VB1. injection VA2 as VA2 VB2.
  split; [exact Q1|]. split; [exact P1|]. split; [congruence|]. split; [congruence|]. split; [congruence|]. split; [congruence|]. split; [congruence|].
  assert (LI : cls N (inputs ROps l) V (body (d_weights l)) (body (d_weights l'))).
  { split; [exact D1|]. split; [exact D2|]. intros o i Ho Hi. pose proof (HW o i Ho Hi) as HH. unfold weight, entry in HH. fold (inputs ROps l) (inputs ROps l') in HH. rewrite II in HH. exact HH. }
  assert (BI : cls N 1 V (d_biases l) (d_biases l')).
  { split; [exact D5|]. split; [exact D6|]. intros o i Ho Hi. assert (i = 0) by lia. subst i. rewrite Nat.mul_1_r, Nat.add_0_r. rewrite HB by assumption. apply csum_ext. intros q Hq. now rewrite Nat.mul_1_r, Nat.add_0_r. }
  pose proof (cls_update _ _ _ c _ _ _ _ LI CW) as (_ & _ & LN). pose proof (cls_update _ _ _ c _ _ _ _ BI CB) as (_ & _ & BN). split.
  - intros o Ho. specialize (BN o 0 Ho (le_n _)). rewrite Nat.mul_1_r, Nat.add_0_r in BN. refine (eq_trans (f_equal (fun b => nth o b 0%RC) VB2) _). refine (eq_trans BN _). apply csum_ext. intros q Hq.
    rewrite Nat.mul_1_r, Nat.add_0_r. exact (f_equal (fun b => (V o q * nth q b 0)%RC) (eq_sym VB1)).
  - intros o i Ho Hi. rewrite Q3 in Hi. unfold weight, entry. fold (inputs ROps l1) (inputs ROps l2). rewrite P3, II, Q3.
    refine (eq_trans (f_equal (fun b => nth (o * inputs ROps l + i) b 0%RC) VA2) _). refine (eq_trans (LN o i Ho Hi) _). apply csum_ext. intros q Hq.
    exact (f_equal (fun b => (V o q * nth (q * inputs ROps l + i) b 0)%RC) (eq_sym VA1)).
Qed.

Lemma steps_out : forall steps steps' n n' n1, net_output_in_basis N V n n' -> Forall2 (target_in_basis N V) steps steps' -> train_steps ROps p n steps = Ret n1 ->
  exists n1', train_steps ROps p n' steps' = Ret n1' /\ net_output_in_basis N V n1 n1'.
Proof.
  intros steps steps' n n' n1 H S. revert n n' n1 H. induction S as [|[[d f] lr] [[d' f'] lr'] steps steps' SD S IH]; intros n n' n1 H E; cbn [train_steps] in *; [injection E as <-; eauto|].
  assert (Q := SD). destruct Q as (_ & _ & SF & SL & _). cbn [fst snd] in SF, SL. subst f' lr'. apply obind_inv in E as ((n2 & q) & E1 & E). cbn [fst snd] in E. destruct q as [[]|]; [|discriminate].
  destruct (step_out n n' d d' f lr n2 H SD E1) as (n2' & -> & R2). cbn [obind fst snd]. eauto.
Qed.

Lemma net_forward_out : forall n n' x y, net_output_in_basis N V n n' -> net_forward ROps p n x = Ret (Ok y) -> exists y', net_forward ROps p n' x = Ret (Ok y') /\ in_basis N V y y'.
Proof.
  intros n n' x y (front & l & l' & -> & -> & LB) E. rewrite forward_fold in * by (destruct front; discriminate). rewrite foldM_app in *.
  apply obind_inv in E as (z & E & EY). apply obind_inv in E as (a & E1 & E). rewrite E1. cbn [obind foldM] in *.
  destruct (fwd_cases ROps p (LDense l) a) as [(w & EW & EF) | (_ & EF)]; rewrite EF in E; [|discriminate]. cbn [obind] in E. injection E as <-. injection EY as <-. cbn [layer_forward] in EW.
  destruct (forward_out l l' LB a w EW) as (w' & EW' & IB). rewrite (fwd_ok ROps p (LDense l') a w' EW'). cbn [obind]. eauto.
Qed.

(** The squared distance is kept. *)
Lemma csum_re : forall (f : nat -> RC) n, re (csum f n) = sum_from Rplus 0%R (fun i => re (f i)) n.
Proof.
  intros f n. induction n as [|n IH]; [reflexivity|]. rewrite csum_S. unfold sum_from in *. rewrite seq_S, fold_left_app. cbn [fold_left Nat.add]. rewrite <- IH. reflexivity.
Qed.

Lemma loss_out : forall t t' y y', in_basis N V t t' -> in_basis N V y y' -> loss ROps t' y' MeanSquare = loss ROps t y MeanSquare.
Proof.
  intros t t' y y' (a & a' & -> & -> & A1 & A2 & A3) (b & b' & -> & -> & B1 & B2 & B3). rewrite !C33_in_order. cbv zeta. rewrite A1, A2, B1, B2, Nat.min_id. do 2 f_equal.
  assert (Q : forall u w : list RC, sum_from Rplus 0%R (fun k => c_norm_sq ROps (c_sub ROps (nth k u 0%RC) (nth k w 0%RC))) N =
     re (csum (fun k => (nth k u 0 - nth k w 0) * conj (nth k u 0 - nth k w 0))%RC N)).
  { intros u w. rewrite csum_re. unfold sum_from. f_equal. apply FunctionalExtensionality.functional_extensionality. intros s. apply FunctionalExtensionality.functional_extensionality. intros i.
    f_equal. unfold c_norm_sq, fsq. cbn. ring. }
  refine (eq_trans (Q a' b') (eq_trans _ (eq_sym (Q a b)))). f_equal.
  apply (keeps_products (fun q => nth q a 0 - nth q b 0)%RC (fun q => nth q a' 0 - nth q b' 0)%RC (fun q => conj (nth q a 0 - nth q b 0))%RC); intros o Ho; rewrite A3, B3, <- csum_sub by assumption; [|rewrite csum_conj]; apply csum_ext; intros q Hq; [ring|].
  rewrite <- conj_mul. f_equal. ring.
Qed.

Lemma net_loss_out : forall n n' d d' v, net_output_in_basis N V n n' -> ds_inputs d' = ds_inputs d -> Forall2 (in_basis N V) (ds_target d) (ds_target d') ->
  net_loss ROps p n d MeanSquare = Ret (Ok v) -> net_loss ROps p n' d' MeanSquare = Ret (Ok v).
Proof.
  intros n n' d d' v H DX DT E. unfold net_loss, ds_points_iter in *. apply obind_inv in E as (vals & E1 & E). rewrite DX.
  assert (E1' : mapM (fun it => pred <-! net_forward ROps p n' (fst it) ;; unwrap (loss ROps (snd it) pred MeanSquare)) (combine (ds_inputs d) (ds_target d')) = Ret vals).
  { clear E DX. revert vals E1. generalize (ds_inputs d). induction DT as [|t t' ts ts' RT DT IH]; intros xs vals E1; [destruct xs; exact E1|].
    destruct xs as [|x xs]; [exact E1|]. cbn [combine mapM fst snd] in *. apply obind_inv in E1 as (a & E1 & E2). apply obind_inv in E2 as (q & E2 & E3).
    apply obind_inv in E1 as (o & F1 & E1). destruct o as [o|]; cbn [unwrap obind] in E1; [|discriminate].
    destruct (net_forward_out n n' x o H F1) as (o' & -> & IO). cbn [unwrap obind]. rewrite (loss_out t t' o o' RT IO), E1. cbn [obind]. rewrite (IH xs q E2). exact E3. }
  rewrite E1'. rewrite (Forall2_len _ _ _ DT) in E || idtac. exact E.
Qed.
End Out.

(** Every linear last layer has its counterpart. *)
Lemma every_output : forall N V (l : dense ROps), dense_wf ROps l -> units ROps l = N -> d_func l = ActNone -> exists l', output_in_basis N V l l'.
Proof.
  intros N V l W U1 FN. set (c := inputs ROps l). assert (CZ : c <> 0) by apply W.
  pose (f := fun k => csum (fun q => V (k / c) q * weight ROps l q (k mod c))%RC N).
  exists (mkDense ROps (from_body (map f (seq 0 (N * c))) N c) (map (fun o => csum (fun q => V o q * nth q (d_biases l) 0)%RC N) (seq 0 N)) ActNone).
  split; [exact W|]. split; [|do 2 (split; [assumption || reflexivity|]); split; [reflexivity|]; split; [exact FN|]; split; [reflexivity|]; split].
  - unfold dense_wf, wf. cbn. rewrite !map_length, !seq_length. split; [reflexivity|]. split; [reflexivity | exact CZ].
  - intros o Ho. cbn [d_biases]. now rewrite nth_of_seq.
  - intros o i Ho Hi. fold c in Hi. unfold weight at 1, entry. cbn [d_weights body from_body sh1]. assert (o * c + i < N * c) by nia.
    refine (eq_trans (nth_of_seq f _ (o * c + i) H) _). unfold f.
    replace ((o * c + i) / c) with o by (apply Nat.div_unique with i; lia). replace ((o * c + i) mod c) with i by (apply Nat.mod_unique with o; lia). reflexivity.
Qed.
