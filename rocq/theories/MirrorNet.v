(** * Conjugated networks, real networks, two libraries: the network *)
From Coq Require Import Reals Lra ZArith.
From Flocq Require Import Core BinarySingleNaN.
From Verif Require Import Base BaseFacts Float Matrix Cplx Act Input Loss Dense Conv Layer Dataset Network Examples RFloat BFloat SpecDead SpecRel RelFacts RelNet
  DeadNum SpecMirror MirrorFacts MirrorIEEE.

Lemma orel_eq : forall {A} (a b : outcome A), orel eq a b -> a = b.
Proof. intros A a b [x y ->|]; reflexivity. Qed.
Lemma orrel_eq : forall {A E} (a b : outcome (result A E)), orel (rrel eq) a b -> a = b.
Proof. intros A E a b [x y [u v ->|e]|]; reflexivity. Qed.

(** ** From the unary reading to the relation and back *)
Section Unary.
Context (Fl : FloatOps) (p : Float.prec) (P : cplx (F Fl) -> Prop) (ok : ComplexActFunc -> Prop).
Local Notation C := (cplx (F Fl)).
Definition diag (z z' : C) : Prop := z' = z /\ P z.
Lemma diag_list : forall l, Forall P l -> Forall2 diag l l.
Proof. intros l H. induction H; constructor; auto. now split. Qed.
Lemma list_diag : forall l l', Forall2 diag l l' -> l' = l /\ Forall P l.
Proof. intros l l' H. induction H as [|a b l l' (-> & A) H (-> & IH)]; split; auto. Qed.
Lemma diag_mat : forall m, Forall P (body m) -> mrel diag m m.
Proof. intros [b r c x y] H. constructor. now apply diag_list. Qed.
Lemma mat_diag : forall m m', mrel diag m m' -> m' = m /\ Forall P (body m).
Proof. intros m m' [b b' r c x y H]. apply list_diag in H as (-> & H). now split. Qed.
Lemma diag_mats : forall l, Forall (fun m => Forall P (body m)) l -> Forall2 (mrel diag) l l.
Proof. intros l H. induction H; constructor; auto. now apply diag_mat. Qed.
Lemma mats_diag : forall l l', Forall2 (mrel diag) l l' -> l' = l /\ Forall (fun m => Forall P (body m)) l.
Proof. intros l l' H. induction H as [|a b l l' A H (-> & IH)]; [now split|]. apply mat_diag in A as (-> & A). split; auto. Qed.
Lemma diag_io : forall x, io_all Fl P x -> io_rel Fl Fl diag x x.
Proof. intros [v|ms] H; constructor; [now apply diag_list | now apply diag_mats]. Qed.
Lemma io_diag : forall x x', io_rel Fl Fl diag x x' -> io_all Fl P x.
Proof. intros x x' [v v' H|m m' H]; [now apply list_diag in H as (_ & H) | now apply mats_diag in H as (_ & H)]. Qed.
Lemma diag_data : forall d, data_all Fl P d -> data_rel Fl Fl diag d d.
Proof.
  assert (T : forall l, Forall (io_all Fl P) l -> Forall2 (io_rel Fl Fl diag) l l) by (intros l H; induction H; constructor; auto; now apply diag_io).
  intros [i t] (I & J). constructor; now apply T.
Qed.
Lemma diag_steps : forall s, steps_all Fl P s -> Forall2 (step_rel Fl Fl diag) s s.
Proof. intros s H. induction H as [|[[d f] lr] s (D & K) H IH]; constructor; auto. split; [now apply diag_data|]. now repeat split. Qed.
Lemma diag_net : forall n, net_all Fl P ok n -> net_rel Fl Fl diag ok n n.
Proof.
  intros n H. induction H as [|l n K H IH]; constructor; auto. destruct l as [[w b f]|[ni k b f]|[ni b0 b1 f k]|x]; cbn in K.
  - destruct K as (K1 & K2 & K3). constructor; auto; [now apply diag_mat | now apply diag_list].
  - destruct K as (K1 & K2 & K3). constructor; auto; [|now apply diag_list]. destruct k as [kb ? ? ? ?]. constructor. now apply diag_mats.
  - destruct K as (K1 & K2). constructor; [|now apply diag_mat]. intros v v' V. apply list_diag in V as (-> & V). destruct (f v) eqn:E; constructor. split; [reflexivity|]. eapply K2; eassumption.
  - constructor.
Qed.
Lemma net_diag : forall n n', net_rel Fl Fl diag ok n n' -> net_all Fl P ok n.
Proof.
  intros n n' H. induction H as [|l l' n n' K H IH]; constructor; auto. destruct K as [w w' b b' f W B K|ni k k' b b' f W B K|ni b0 b1 f f' k k' HF K|x]; cbn.
  - apply mat_diag in W as (_ & W). apply list_diag in B as (_ & B). auto.
  - apply list_diag in B as (_ & B). split; [|auto]. destruct W as [kb kb' ? ? ? ? W]. now apply mats_diag in W as (_ & W).
  - apply mat_diag in K as (_ & K). split; [exact K|]. intros v z V E. specialize (HF v v (diag_list v V)). rewrite E in HF. inversion HF as [a b HR|]; subst. apply HR.
  - exact Logic.I.
Qed.
Context (NR : num_rel Fl Fl diag) (AR : forall f, ok f -> act_rel Fl Fl p p diag f)
  (DV : forall n lr lr', diag lr lr' -> orel diag (c_div Fl lr (c_of_nat Fl n)) (c_div Fl lr' (c_of_nat Fl n))).
Lemma unary_forward : forall n x y, net_all Fl P ok n -> io_all Fl P x -> net_forward Fl p n x = Ret (Ok y) -> io_all Fl P y.
Proof.
  intros n x y N X E. pose proof (net_forward_rel Fl Fl p p diag ok NR AR n n x x (diag_net n N) (diag_io x X)) as H. rewrite E in H.
  inversion H as [a b HR|]; subst. inversion HR; subst. eapply io_diag; eassumption.
Qed.
Lemma unary_training : forall n s n', net_all Fl P ok n -> steps_all Fl P s -> train_steps Fl p n s = Ret n' -> net_all Fl P ok n'.
Proof.
  intros n s n' N S E. pose proof (train_steps_rel Fl Fl p p diag ok NR AR DV s s n n (diag_net n N) (diag_steps s S)) as H. rewrite E in H.
  inversion H; subst. eapply net_diag; eassumption.
Qed.
End Unary.

(** ** Exact arithmetic *)
Section Exact.
Context (p : Float.prec).
Local Notation NET := (net_rel ROps ROps mirrored symmetric_act).
Local Notation IO := (io_rel ROps ROps mirrored).
Local Notation DAT := (data_rel ROps ROps mirrored).
Lemma mirror_scale : forall n lr lr', mirrored lr lr' -> orel mirrored (c_div ROps lr (c_of_nat ROps n)) (c_div ROps lr' (c_of_nat ROps n)).
Proof. intros. apply mirror_div; [assumption|]. apply mirror_real. Qed.
Lemma exact_mirror_forward : forall n n' x x', NET n n' -> IO x x' -> orel (rrel IO) (net_forward ROps p n x) (net_forward ROps p n' x').
Proof. exact (net_forward_rel ROps ROps p p mirrored symmetric_act mirror_num (mirror_act p)). Qed.
Lemma exact_mirror_training : forall s s' n n', NET n n' -> Forall2 (step_rel ROps ROps mirrored) s s' -> orel NET (train_steps ROps p n s) (train_steps ROps p n' s').
Proof. exact (train_steps_rel ROps ROps p p mirrored symmetric_act mirror_num (mirror_act p) mirror_scale). Qed.
Lemma exact_mirror_loss : forall f n n' d d', NET n n' -> DAT d d' -> net_loss ROps p n d f = net_loss ROps p n' d' f.
Proof.
  intros f n n' d d' N D. apply orrel_eq. apply (net_loss_rel ROps ROps p p mirrored symmetric_act mirror_num (mirror_act p) eq); auto; intros; subst; auto.
  now apply mirror_loss.
Qed.
Lemma exact_mirror_test : forall n n' d d', NET n n' -> DAT d d' -> net_max_pred_test ROps p n d = net_max_pred_test ROps p n' d'.
Proof. intros n n' d d' N D. apply orel_eq. apply (max_test_rel ROps ROps p p mirrored symmetric_act mirror_num (mirror_act p) eq); auto. apply mirror_gt. Qed.

Lemma real_scale : forall n lr lr', both_real lr lr' -> orel both_real (c_div ROps lr (c_of_nat ROps n)) (c_div ROps lr' (c_of_nat ROps n)).
Proof. intros. apply real_div; [assumption|]. apply real_mk. Qed.
Lemma exact_real_forward : forall n x y, net_all ROps is_real real_act n -> io_all ROps is_real x -> net_forward ROps p n x = Ret (Ok y) -> io_all ROps is_real y.
Proof. exact (unary_forward ROps p is_real real_act real_num (real_act_ok p)). Qed.
Lemma exact_real_training : forall n s n', net_all ROps is_real real_act n -> steps_all ROps is_real s -> train_steps ROps p n s = Ret n' -> net_all ROps is_real real_act n'.
Proof. exact (unary_training ROps p is_real real_act real_num (real_act_ok p) real_scale). Qed.
End Exact.

(** ** IEEE arithmetic *)
Section IEEE.
Context (prec emax : Z) (Hp : Prec_gt_0 prec) (He : Prec_lt_emax prec emax) (L : libm (binary_float prec emax)) (p : Float.prec).
Local Notation Fl := (BOps prec emax Hp He L).
Local Notation mir := (mirrored_ieee : cplx (F Fl) -> cplx (F Fl) -> Prop).
Local Notation NET := (net_rel Fl Fl mir (symmetric_act_ieee L)).
Local Notation IO := (io_rel Fl Fl mir).
Local Notation DAT := (data_rel Fl Fl mir).
Local Notation MN := (mirror_num_ieee prec emax Hp He L).
Local Notation MA := (mirror_act_ieee prec emax Hp He L p).
Lemma ieee_mirror_scale : forall n lr lr', mir lr lr' -> orel mir (c_div Fl lr (c_of_nat Fl n)) (c_div Fl lr' (c_of_nat Fl n)).
Proof. intros. apply (mirror_div_ieee prec emax Hp He L); [assumption|]. apply (mirror_real_ieee prec emax Hp He L). Qed.
Lemma ieee_mirror_forward : forall n n' x x', NET n n' -> IO x x' -> orel (rrel IO) (net_forward Fl p n x) (net_forward Fl p n' x').
Proof. exact (net_forward_rel Fl Fl p p mir (symmetric_act_ieee L) MN MA). Qed.
Lemma ieee_mirror_training : forall s s' n n', NET n n' -> Forall2 (step_rel Fl Fl mir) s s' -> orel NET (train_steps Fl p n s) (train_steps Fl p n' s').
Proof. exact (train_steps_rel Fl Fl p p mir (symmetric_act_ieee L) MN MA ieee_mirror_scale). Qed.
Lemma ieee_mirror_mse : forall n n' d d', NET n n' -> DAT d d' -> net_loss Fl p n d MeanSquare = net_loss Fl p n' d' MeanSquare.
Proof.
  intros n n' d d' N D. apply orrel_eq. apply (net_loss_rel Fl Fl p p mir (symmetric_act_ieee L) MN MA eq); auto; try (intros; subst; reflexivity).
  intros. now apply (mirror_mse_ieee prec emax Hp He L).
Qed.
Lemma ieee_mirror_loss : forall f n n' d d', NET n n' -> DAT d d' -> orel (rrel (same_number : F Fl -> F Fl -> Prop)) (net_loss Fl p n d f) (net_loss Fl p n' d' f).
Proof.
  intros f n n' d d' N D. apply (net_loss_rel Fl Fl p p mir (symmetric_act_ieee L) MN MA same_number); auto.
  - apply (bsadd prec emax Hp He L).
  - intros. now apply (div_same prec emax Hp He L).
  - intros t t' y y' T Y. destruct f; [|now apply (mirror_ce_ieee prec emax Hp He L)]. left. now apply (mirror_mse_ieee prec emax Hp He L).
Qed.
Lemma ieee_mirror_test : forall n n' d d', NET n n' -> DAT d d' -> net_max_pred_test Fl p n d = net_max_pred_test Fl p n' d'.
Proof. intros n n' d d' N D. apply orel_eq. apply (max_test_rel Fl Fl p p mir (symmetric_act_ieee L) MN MA eq); auto. apply (mirror_gt_ieee prec emax Hp He L). Qed.

Local Notation real := (is_real_ieee : cplx (F Fl) -> Prop).
Local Notation RN := (real_num_ieee prec emax Hp He L).
Local Notation RA := (real_act_ieee_ok prec emax Hp He L p).
Lemma ieee_real_scale : forall n lr lr', diag Fl real lr lr' -> orel (diag Fl real) (c_div Fl lr (c_of_nat Fl n)) (c_div Fl lr' (c_of_nat Fl n)).
Proof. intros. apply (real_div_ieee prec emax Hp He L); [assumption|]. apply (real_mk_ieee prec emax Hp He L). Qed.
Lemma ieee_real_forward : forall n x y, net_all Fl real (real_act_ieee L) n -> io_all Fl real x -> net_forward Fl p n x = Ret (Ok y) -> io_all Fl real y.
Proof. exact (unary_forward Fl p real (real_act_ieee L) RN RA). Qed.
Lemma ieee_real_training : forall n s n', net_all Fl real (real_act_ieee L) n -> steps_all Fl real s -> train_steps Fl p n s = Ret n' -> net_all Fl real (real_act_ieee L) n'.
Proof. exact (unary_training Fl p real (real_act_ieee L) RN RA ieee_real_scale). Qed.
End IEEE.

(** ** Two libraries *)
Section Lib.
Context (prec emax : Z) (Hp : Prec_gt_0 prec) (He : Prec_lt_emax prec emax) (L1 L2 : libm (binary_float prec emax)) (p : Float.prec).
Local Notation F1 := (BOps prec emax Hp He L1).
Local Notation F2 := (BOps prec emax Hp He L2).
Local Notation same := (same_bits prec emax Hp He L1 L2).
Local Notation NET := (net_rel F1 F2 same (lib_agree p L1 L2)).
Local Notation IO := (io_rel F1 F2 same).
Local Notation DAT := (data_rel F1 F2 same).
Local Notation LN := (lib_num prec emax Hp He L1 L2).
Local Notation LA := (lib_act prec emax Hp He L1 L2 p).
Lemma lib_forward : forall n n' x x', NET n n' -> IO x x' -> orel (rrel IO) (net_forward F1 p n x) (net_forward F2 p n' x').
Proof. exact (net_forward_rel F1 F2 p p same (lib_agree p L1 L2) LN LA). Qed.
Lemma lib_scale : forall n lr lr', same lr lr' -> orel same (c_div F1 lr (c_of_nat F1 n)) (c_div F2 lr' (c_of_nat F2 n)).
Proof. intros. apply (lib_div prec emax Hp He L1 L2); [assumption | reflexivity]. Qed.
Lemma lib_training : forall s s' n n', NET n n' -> Forall2 (step_rel F1 F2 same) s s' -> orel NET (train_steps F1 p n s) (train_steps F2 p n' s').
Proof. exact (train_steps_rel F1 F2 p p same (lib_agree p L1 L2) LN LA lib_scale). Qed.
Lemma lib_net_loss : forall f n n' d d', lib_agree_loss L1 L2 f -> NET n n' -> DAT d d' ->
  (net_loss F1 p n d f : outcome (result (binary_float prec emax) LossCalcError)) = net_loss F2 p n' d' f.
Proof.
  intros f n n' d d' H N D. apply orrel_eq. apply (net_loss_rel F1 F2 p p same (lib_agree p L1 L2) LN LA eq); auto; try (intros; subst; reflexivity).
  intros. now apply (lib_loss prec emax Hp He L1 L2).
Qed.
Lemma lib_net_test : forall n n' d d', NET n n' -> DAT d d' -> (net_max_pred_test F1 p n d : outcome (binary_float prec emax)) = net_max_pred_test F2 p n' d'.
Proof. intros n n' d d' N D. apply orel_eq. apply (max_test_rel F1 F2 p p same (lib_agree p L1 L2) LN LA eq); auto. apply (lib_gt prec emax Hp He L1 L2). Qed.
End Lib.
