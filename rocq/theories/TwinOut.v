(** * What copies output *)
From Verif Require Import Base BaseFacts MatrixFacts Float Matrix Cplx Act Input Loss Dense Conv Layer Dataset Network SpecMatrix SpecLayer SpecConv SpecNet SpecGeom
  SpecDead SpecTwin NetFacts ConvFacts GradFacts GeomFacts PropDense PropConv PropTrain DeadFacts TwinFacts.

Section Out.
Context (Fl : FloatOps) (p : prec).
Local Notation C := (cplx (F Fl)).
Local Notation z := (c_default Fl).

Lemma arrives_at : forall n k l x y, nth_error n k = Some l -> arrives Fl p n (S k) x y ->
  exists vs, trace Fl p (firstn (S k) n) x vs /\ layer_forward Fl p l (nth k vs x) = Ret (Ok y).
Proof.
  intros n k l x y K (vs & T & L). exists vs. split; [exact T|].
  assert (KL : k < length n) by (apply nth_error_Some; congruence).
  assert (K' : nth_error (firstn (S k) n) k = Some l).
  { rewrite <- K. clear. revert n. induction k as [|k IH]; intros [|a n]; [reflexivity | reflexivity | reflexivity | apply (IH n)]. }
  pose proof (trace_nth Fl p _ _ _ _ _ x T K') as FW. rewrite FW. do 2 f_equal. rewrite <- L.
  pose proof (trace_length Fl p _ _ _ T) as LV. rewrite firstn_length_le in LV by lia. clear -LV.
  assert (E : forall (vs : list (IOType C)) m, length vs = S m -> nth m vs x = last vs x).
  { induction vs0 as [|v vs0 IH]; intros m Hm; [discriminate|]. destruct m as [|m]; destruct vs0 as [|v' vs0]; try discriminate; [reflexivity|].
    change (nth m (v' :: vs0) x = last (v' :: vs0) x). apply IH. cbn in *; lia. }
  apply E. lia.
Qed.

Lemma fit_firstn : forall n g g', fit_all Fl n g g' -> forall k, exists g1, fit_all Fl (firstn k n) g g1 /\ (forall l, nth_error n k = Some l -> exists g2, fits Fl l g1 g2).
Proof.
  intros n g g' H. induction H as [g | l n g g1 g2 Hl H IH]; intros k.
  - exists g. rewrite firstn_nil. split; [constructor|]. intros l K. destruct k; discriminate.
  - destruct k as [|k]; [exists g; split; [constructor|]; intros l0 K; injection K as <-; eauto|].
    destruct (IH k) as (q & Q1 & Q2). exists q. split; [econstructor; eauto | exact Q2].
Qed.

Theorem twins_output :
  (forall n k i j x y, twins Fl n k i j -> arrives Fl p n (S k) x (IOScalar y) -> nth i y z = nth j y z) /\
  (forall n g g' k a b a' b' i j x ms, fit_all Fl n g g' -> has_geom g x -> twin_filters Fl n k a b a' b' i j ->
     arrives Fl p n (S k) x (IOMatrix ms) -> nth i ms m_new = nth j ms m_new).
Proof.
  split.
  - intros n k i j x y (l & m & K & _ & W & _ & _ & Hi & Hj & HB & HW & _) A.
    destruct (arrives_at n k _ x _ K A) as (vs & T & E). cbn [layer_forward] in E.
    destruct (nth k vs x) as [v|ms]; [|cbn in E; discriminate].
    assert (X : length v = inputs Fl l).
    { destruct (Nat.eq_dec (length v) (inputs Fl l)) as [|NE]; [assumption|]. rewrite (proj2 (C40_rejects Fl p l) v NE) in E. discriminate. }
    apply (proj1 (C40_forward Fl p l v W X y)) in E. destruct E as (_ & E). pose proof (E i Hi) as E1. pose proof (E j Hj) as E2.
    rewrite (pre_same Fl l v i j HB HW) in E1. congruence.
  - intros n g g' k a b a' b' i j x ms FA GX (l & m & K & _ & W & _ & _ & Hi & Hj & HB & HK & _) A.
    destruct (arrives_at n k _ x _ K A) as (vs & T & E). destruct (fit_firstn n g g' FA k) as (g1 & F1 & F2).
    destruct (F2 _ K) as (g2 & F3). assert (KL : k < length n) by (apply nth_error_Some; congruence).
    destruct (sweep Fl p _ _ _ F1 x GX) as (vs1 & y1 & T1 & L1 & G1 & _).
    assert (V : nth k vs x = y1).
    { rewrite <- L1. pose proof (trace_length Fl p _ _ _ T1) as LV. rewrite firstn_length_le in LV by lia.
      assert (P : forall n x vs vs1 k, trace Fl p (firstn (S k) n) x vs -> trace Fl p (firstn k n) x vs1 -> k <= length n -> nth k vs x = last vs1 x).
      { clear. induction n as [|l n IH]; intros x vs vs1 k H1 H2 Hk.
        - rewrite firstn_nil in *. inversion H1; subst. inversion H2; subst. cbn in Hk. assert (k = 0) by lia. subst. reflexivity.
        - destruct k as [|k]; [inversion H2; subst; inversion H1; subst; reflexivity|]. change (trace Fl p (l :: firstn (S k) n) x vs) in H1. change (trace Fl p (l :: firstn k n) x vs1) in H2. inversion H1 as [|? ? ? y ws E1 T1]; subst. inversion H2 as [|? ? ? y' us E2 T2]; subst.
          assert (y' = y) by congruence. subst y'. cbn [nth]. pose proof (IH y ws us k T1 T2 ltac:(cbn in Hk; lia)) as R.
          pose proof (trace_length Fl p _ _ _ T1) as LA. pose proof (trace_length Fl p _ _ _ T2) as LB.
          cbn [length] in Hk. rewrite firstn_length_le in LB by lia.
          assert (KA : k < length ws) by (assert (FL : length (firstn (S k) n) = Nat.min (S k) (length n)) by apply firstn_length; change (length ws = S (length (firstn (S k) n))) in LA; rewrite FL in LA; lia).
          rewrite (nth_indep _ x y KA), R. destruct us as [|v us]; [discriminate|]. change (last (x :: v :: us) x) with (last (v :: us) x).
          clear. revert v. induction us as [|a us IH]; intros v; [reflexivity | exact (IH a)]. }
      apply (P n x vs vs1 k T T1). lia. }
    rewrite V in E. clear V L1. inversion F3 as [|l0 a1 b1 r c W1 NM R1 R2| |]; subst. destruct y1 as [v|xs]; [contradiction|]. cbn [layer_forward] in E.
    pose (y := fun o s t => match activate Fl p (k_func l) (cpre Fl a1 b1 l xs o s t) with Ret y => y | Panic => z end).
    assert (AC : forall q, exists w, activate Fl p (k_func l) q = Ret w) by (intros q; destruct (k_func l); try (eexists; reflexivity); now destruct NM).
    pose proof (C44_forward Fl p a1 b1 r c l xs y W1 G1 R1 R2) as FW. rewrite FW in E.
    2:{ intros o s t _ _ _. unfold y. destruct (AC (cpre Fl a1 b1 l xs o s t)) as (w & ->). reflexivity. }
    assert (ME : ms = map (fun o => mat (r - a1 + 1) (c - b1 + 1) (y o)) (seq 0 (filters Fl l))) by congruence. subst ms.
    assert (ND : forall o, o < filters Fl l -> nth o (map (fun o => mat (r - a1 + 1) (c - b1 + 1) (y o)) (seq 0 (filters Fl l))) m_new = mat (r - a1 + 1) (c - b1 + 1) (y o)).
    { intros o Ho. apply nth_error_nth. rewrite nth_error_map, (nth_error_nth' _ 0) by (rewrite seq_length; exact Ho). rewrite seq_nth by exact Ho. reflexivity. }
    rewrite !ND by assumption.
    assert (AB : a1 = a /\ b1 = b).
    { destruct (kernel_nth Fl a b l 0 0 W) as (_ & S0 & S1); [apply W .. |]. destruct (kernel_nth Fl a1 b1 l 0 0 W1) as (_ & S2 & S3); [apply W .. |]. split; congruence. }
    destruct AB as (-> & ->). unfold mat. f_equal. unfold tab_rows. f_equal. apply map_ext. intros s. apply map_ext. intros t.
    unfold y. rewrite (cpre_same Fl a b l xs i j s t W HB HK). reflexivity.
Qed.

Theorem constant_forever : forall ls n', trained Fl p (map LDense ls) n' ->
  Forall (dense_wf Fl) ls -> (forall k l m, nth_error ls k = Some l -> nth_error ls (S k) = Some m -> inputs Fl m = units Fl l) ->
  Forall (fun l => exists w b, constant_layer Fl l w b) ls ->
  forall k x y i j, S k < length ls -> arrives Fl p n' (S k) x (IOScalar y) -> i < length y -> j < length y -> nth i y z = nth j y z.
Proof.
  intros ls n' TR W CH CO k x y i j Hk A Hi Hj.
  destruct (nth_error ls k) as [l|] eqn:K; [|apply nth_error_None in K; lia]. destruct (nth_error ls (S k)) as [m|] eqn:K2; [|apply nth_error_None in K2; lia].
  rewrite Forall_forall in W, CO. pose proof (W l (nth_error_In _ _ K)) as Wl. pose proof (W m (nth_error_In _ _ K2)) as Wm.
  destruct (CO l (nth_error_In _ _ K)) as (w & b & C1 & C2). destruct (CO m (nth_error_In _ _ K2)) as (w' & b' & C3 & C4).
  assert (WI : forall (l0 : dense Fl) o s, dense_wf Fl l0 -> o < units Fl l0 -> s < inputs Fl l0 -> In (weight Fl l0 o s) (body (d_weights l0))).
  { intros l0 o s (Q & _) Ho Hs. change (In (nth (o * inputs Fl l0 + s) (body (d_weights l0)) z) (body (d_weights l0))). apply nth_In. rewrite Q. unfold units, inputs in *. nia. }
  assert (TW : forall a b, a < units Fl l -> b < units Fl l -> twins Fl (map LDense ls) k a b).
  { intros a0 b0 Ha Hb. exists l, m. rewrite !nth_error_map, K, K2. split; [reflexivity|]. split; [reflexivity|]. split; [exact Wl|]. split; [exact Wm|].
    split; [eapply CH; eauto|]. split; [exact Ha|]. split; [exact Hb|]. pose proof (CH k l m K K2) as IM.
    assert (LB : length (d_biases l) = units Fl l) by apply Wl. split; [|split].
    - rewrite (C2 (nth a0 (d_biases l) z)), (C2 (nth b0 (d_biases l) z)) by (apply nth_In; lia). reflexivity.
    - intros q Hq. rewrite (C1 (weight Fl l a0 q)), (C1 (weight Fl l b0 q)) by (apply WI; auto). reflexivity.
    - intros o Ho. rewrite (C3 (weight Fl m o a0)), (C3 (weight Fl m o b0)) by (apply WI; auto; lia). reflexivity. }
  destruct (C52_history Fl p _ n' TR) as (AR & _).
  assert (N : nth_error (map (arch_of Fl) n') k = Some (arch_of Fl (LDense l))) by (rewrite AR, !nth_error_map, K; reflexivity).
  rewrite nth_error_map in N. destruct (nth_error n' k) as [q|] eqn:K'; [|discriminate]. assert (AQ : arch_of Fl q = arch_of Fl (LDense l)) by (cbn [option_map] in N; congruence).
  destruct q as [l'|l'|l'|l']; try discriminate. destruct (arch_dense Fl l' l AQ Wl) as (Wl' & U & I1 & _).
  assert (LY : length y = units Fl l').
  { destruct (arrives_at n' k _ x _ K' A) as (vs & T & E). cbn [layer_forward] in E. destruct (nth k vs x) as [v|ms]; [|cbn in E; discriminate].
    assert (X : length v = inputs Fl l').
    { destruct (Nat.eq_dec (length v) (inputs Fl l')) as [|NE]; [assumption|]. rewrite (proj2 (C40_rejects Fl p l') v NE) in E. discriminate. }
    apply (proj1 (C40_forward Fl p l' v Wl' X y)) in E. apply E. }
  apply (proj1 twins_output n' k i j x y); [|exact A]. apply (twins_trained Fl p _ _ _ _ _ TR), TW; lia.
Qed.
End Out.
