(** * Lemmas about the regression example *)
From Coq Require Import ZArith NArith Reals Lra Lia Psatz Factorial.
From Verif Require Import Base BaseFacts Float Matrix Cplx Random Act Input Loss Dense Conv Layer Dataset Network Examples RFloat
  SpecMatrix SpecLayer SpecConv SpecNet SpecGeom SpecMnist SpecExamples GeomFacts SignalFacts PropData ExampleFacts.
Local Open Scope nat_scope.
Local Open Scope list_scope.
Local Notation P32 := Float.P32.

Section Rec.
Context (Fl : FloatOps) (pr : profile).
Local Notation C := (cplx (F Fl)).

(** Whatever the arithmetic: a sweep that returns has made its rounds. *)
Lemma rounds_of : forall f lr samples size thr batches k0 a b n v w st,
  foldM (rec_step Fl pr f lr samples size thr) (seq k0 batches) (mkRec Fl n a b v w) = Ret st ->
  exists n' ls ls', rounds Fl pr f lr samples size thr batches a b n n' ls ls' /\
    rc_net st = n' /\ rc_tr st = damped Fl v k0 ls /\ rc_te st = damped Fl w k0 ls'.
Proof.
  intros f lr samples size thr. induction batches as [|m IH]; intros k0 a b n v w st H; cbn [seq foldM] in H.
  - injection H as <-. exists n, [], []. split; [constructor|]. auto.
  - apply obind_inv in H as (st1 & H1 & H). unfold rec_step in H1. cbn [rc_train rc_test rc_net rc_tr rc_te] in H1.
    apply obind_inv in H1 as ([[[a' b'] d] d'] & ES & H1). apply obind_inv in H1 as (r & EL & H1).
    apply obind_inv in H1 as (l & EL' & H1). destruct r as [l0|e]; [|discriminate]. cbn [unwrap] in EL'. injection EL' as <-.
    apply obind_inv in H1 as ([n1 r] & ET & H1). apply obind_inv in H1 as ([] & ER & H1). destruct r as [[]|e]; [|discriminate]. clear ER.
    apply obind_inv in H1 as (r & EV & H1). apply obind_inv in H1 as (l' & EV' & H1). destruct r as [l1|e]; [|discriminate]. cbn [unwrap] in EV'. injection EV' as <-.
    injection H1 as <-. apply IH in H as (n' & ls & ls' & RR & E1 & E2 & E3).
    exists n', (l0 :: ls), (l1 :: ls'). split; [econstructor; eassumption|]. cbn [damped]. auto.
Qed.

Lemma rec_sweep_rounds : forall f lr samples thr batches size a b n n' v w,
  rec_sweep Fl pr f lr samples thr batches size a b n = Ret (n', v, w) ->
  exists ls ls', rounds Fl pr f lr samples size thr batches a b n n' ls ls' /\ v = recorded Fl ls /\ w = recorded Fl ls'.
Proof.
  intros f lr samples thr batches size a b n n' v w H. unfold rec_sweep in H. apply obind_inv in H as (st & H1 & H).
  injection H as <- <- <-. apply rounds_of in H1 as (n' & ls & ls' & RR & <- & E2 & E3). exists ls, ls'. auto.
Qed.

Lemma rec_pipeline_epochs : forall f lr samples thr epochs batches size a b n n' trl tel,
  rec_pipeline Fl pr n f lr samples thr epochs batches size a b = Ret (n', trl, tel) ->
  rec_epochs Fl pr f lr samples size thr batches a b epochs n n' trl tel.
Proof.
  intros f lr samples thr epochs batches size a b n n' trl tel. unfold rec_pipeline.
  assert (X : forall epochs k0 n x y, foldM (rec_epoch Fl pr f lr samples thr batches size a b) (seq k0 epochs) (n, x, y) = Ret (n', trl, tel) ->
    exists u v, trl = x ++ u /\ tel = y ++ v /\ rec_epochs Fl pr f lr samples size thr batches a b epochs n n' u v).
  { clear n epochs. induction epochs as [|e IH]; intros k0 n x y H; cbn [seq foldM] in H.
    - injection H as <- <- <-. exists [], []. rewrite !app_nil_r. repeat split; constructor.
    - apply obind_inv in H as ([[n1 x1] y1] & H1 & H). unfold rec_epoch in H1. apply obind_inv in H1 as ([[n2 l1] l2] & H2 & H1).
      injection H1 as <- <- <-. apply rec_sweep_rounds in H2 as (ls & ls' & RR & -> & ->).
      apply IH in H as (u & v & -> & -> & RE). exists (recorded Fl ls :: u), (recorded Fl ls' :: v). rewrite <- !app_assoc.
      repeat split. econstructor; eassumption. }
  intros H. apply X in H as (u & v & -> & -> & RE). exact RE.
Qed.

(** ** Totality *)
Hypothesis Hz : feqb Fl (fzero Fl) (fzero Fl) = true.
Hypothesis Hdiv : forall z : C, let m := c_norm Fl z in feqb Fl m (fzero Fl) = false -> feqb Fl (fadd Fl (fsq Fl m) (fsq Fl (fzero Fl))) (fzero Fl) = false.
Hypothesis Hrate : forall k (lr : C), k <> 0 -> exists s, c_div Fl lr (c_of_nat Fl k) = Ret s.

Definition fitting (samples : nat) (n : network Fl) : Prop := 2 <= length n /\ fit_all Fl n (Vec samples) (Vec samples) /\ Forall (trainable Fl) n.

Lemma signal_batch : forall samples ps thr, Forall (made Fl pr (times Fl samples) thr) ps ->
  batch_for Fl (Vec samples) (Vec samples) (ds_of ps) /\ length (ds_inputs (ds_of ps)) = length ps.
Proof.
  intros samples ps thr G. destruct (C58_history ps) as (_ & _ & _ & H). unfold ds_points_iter in H. destruct H as (H1 & H2 & H3).
  split; [|exact H2]. rewrite <- H3 in H2. destruct (combine_parts _ _ _ H2 H1) as (E1 & E2). split; [congruence|].
  split; intros x Hx; [rewrite E1 in Hx | rewrite E2 in Hx]; apply in_map_iff in Hx as (q & <- & Hq);
    apply (proj1 (Forall_forall _ _) G) in Hq; apply made_shape in Hq as (u & v & -> & L1 & L2 & _); cbn [fst snd has_geom target_for]; lia.
Qed.

Lemma rec_step_total : forall f lr samples size thr st k, Nat.even samples = true -> 0 < size -> fitting samples (rc_net st) ->
  seed_ok pr (rc_train st) -> seed_ok pr (rc_test st) ->
  exists st', rec_step Fl pr f lr samples size thr st k = Ret st' /\ fitting samples (rc_net st') /\ seed_ok pr (rc_train st') /\ seed_ok pr (rc_test st').
Proof.
  intros f lr samples size thr [n a b v w] k EV SZ (L2 & FA & TR) HA HB. cbn [rc_net rc_train rc_test] in *. unfold rec_step. cbn [rc_net rc_train rc_test rc_tr rc_te].
  destruct (signal_total Fl pr Hz Hdiv samples size thr a b EV HA HB) as (a' & b' & d & d' & ES & HA' & HB'). rewrite ES. cbn [obind].
  apply signal_made in ES as (ps & qs & -> & -> & LP & LQ & FP & FQ).
  destruct (signal_batch samples ps thr FP) as (BP & NP). destruct (signal_batch samples qs thr FQ) as (BQ & NQ).
  set (d := ds_of ps) in *. set (d' := ds_of qs) in *. clearbody d d'. cbv zeta.
  assert (NN : n <> []) by (intros ->; cbn in L2; lia).
  assert (D1 : ds_inputs d <> []) by (intros X; rewrite X in NP; cbn in NP; lia).
  assert (D2 : ds_inputs d' <> []) by (intros X; rewrite X in NQ; cbn in NQ; lia).
  destruct (loss_total Fl P32 n _ _ d f NN FA BP D1) as (l & EL). rewrite EL. cbn [obind unwrap].
  destruct (Hrate (length (ds_inputs d)) lr) as (s & HS); [lia|].
  destruct (training_total Fl P32 n _ _ d f lr s L2 FA TR BP HS) as (n1 & E1 & F1 & T1 & L1). rewrite E1. cbn [obind unwrap].
  assert (NN1 : n1 <> []) by (intros ->; cbn in L1; lia).
  destruct (loss_total Fl P32 n1 _ _ d' f NN1 F1 BQ D2) as (l' & EL'). rewrite EL'. cbn [obind unwrap].
  eexists. split; [reflexivity|]. cbn [rc_net rc_train rc_test]. split; [unfold fitting; repeat split; auto; lia|]. auto.
Qed.

Lemma rec_sweep_total : forall f lr samples thr batches size a b n, Nat.even samples = true -> 0 < size -> fitting samples n ->
  seed_ok pr a -> seed_ok pr b ->
  exists n' v w, rec_sweep Fl pr f lr samples thr batches size a b n = Ret (n', v, w) /\ fitting samples n'.
Proof.
  intros f lr samples thr batches size a b n EV SZ FT HA HB. unfold rec_sweep.
  destruct (foldM_total (rec_step Fl pr f lr samples size thr) (fun _ st => fitting samples (rc_net st) /\ seed_ok pr (rc_train st) /\ seed_ok pr (rc_test st))
    (seq 0 batches) (mkRec Fl n a b (fzero Fl) (fzero Fl))) as (st & E & Q & _).
  - cbn. auto.
  - intros pre k post st _ (Q1 & Q2 & Q3). apply rec_step_total; assumption.
  - rewrite E. cbn [obind]. eauto.
Qed.

Lemma rec_pipeline_total : forall f lr samples thr epochs batches size a b n, Nat.even samples = true -> 0 < size -> fitting samples n ->
  seed_ok pr a -> seed_ok pr b ->
  exists n' trl tel, rec_pipeline Fl pr n f lr samples thr epochs batches size a b = Ret (n', trl, tel) /\ fitting samples n'.
Proof.
  intros f lr samples thr epochs batches size a b n EV SZ FT HA HB. unfold rec_pipeline.
  destruct (foldM_total (rec_epoch Fl pr f lr samples thr batches size a b) (fun _ st => fitting samples (fst (fst st))) (seq 0 epochs) (n, [], [])) as (st & E & Q).
  - exact FT.
  - intros pre k post [[n0 x] y] _ Q. cbn [fst] in Q. unfold rec_epoch.
    destruct (rec_sweep_total f lr samples thr batches size a b n0 EV SZ Q HA HB) as (n1 & v & w & E & Q1). rewrite E. cbn [obind].
    eexists. split; [reflexivity|]. exact Q1.
  - destruct st as [[n' x] y]. exists n', x, y. auto.
Qed.
End Rec.

(** ** The recorded value in exact arithmetic *)
Local Open Scope R_scope.

(** Sum of [l_i * w i] over a list, from index [k]. *)
Fixpoint wsum (w : nat -> R) (k : nat) (ls : list R) : R :=
  match ls with [] => 0 | l :: rest => l * w k + wsum w (S k) rest end.

Lemma fact_pos : forall n, 0 < INR (fact n).
Proof. intros n. apply lt_0_INR, lt_O_fact. Qed.

Lemma fofnat_R : forall k, fofnat ROps k = INR k.
Proof. intros k. unfold fofnat. cbn. now rewrite nat_N_Z, <- INR_IZR_INZ. Qed.

Lemma damped_R : forall (ls : list R) (v : R) k,
  damped ROps v k ls = v * INR (fact k) / INR (fact (k + length ls)) + wsum (fun i => INR (fact i) / INR (fact (k + length ls))) k ls.
Proof.
  induction ls as [|l ls IH]; intros v k; cbn [damped wsum length].
  - rewrite Nat.add_0_r. assert (G : forall x q : R, 0 < q -> x = x * q / q + 0) by (intros; field; lra). apply G, fact_pos.
  - rewrite IH. replace (S k + length ls)%nat with (k + S (length ls))%nat by lia. set (m := (k + S (length ls))%nat).
    change (fdiv ROps (fadd ROps v l) (fofnat ROps (k + 1))) with ((v + l) / fofnat ROps (k + 1)). rewrite fofnat_R.
    replace (INR (fact (S k))) with (INR (k + 1) * INR (fact k)) by (rewrite <- mult_INR; f_equal; cbn [fact]; lia).
    pose proof (fact_pos m). pose proof (fact_pos k). assert (0 < INR (k + 1)) by (apply lt_0_INR; lia).
    set (W := wsum _ _ _). clearbody W. cbn in v, l.
    assert (G : forall x y q r t : R, 0 < q -> 0 < t -> (x + y) / q * (q * r) / t + W = x * r / t + (y * (r / t) + W)) by (intros; field; lra). now apply G.
Qed.

Lemma recorded_R : forall ls : list R, recorded ROps ls = wsum (fun i => INR (fact i) / INR (fact (length ls))) 0 ls.
Proof.
  intros ls. unfold recorded. rewrite damped_R. change (fzero ROps) with 0. cbn [Nat.add]. set (W := wsum _ _ _). clearbody W.
  assert (G : forall q t : R, 0 < t -> 0 * q / t + W = W) by (intros; field; lra). apply G, fact_pos.
Qed.

Lemma mean_R : forall ls : list R, mean ROps ls = wsum (fun _ => / INR (length ls)) 0 ls.
Proof.
  intros ls. unfold mean. rewrite fofnat_R. change (fdiv ROps) with Rdiv. unfold Rdiv. change (@length (F ROps) ls) with (@length R ls). set (q := / INR (length ls)). clearbody q.
  assert (G : forall ls (s : R) k, fold_left (fadd ROps) ls s * q = s * q + wsum (fun _ => q) k ls).
  { clear. induction ls as [|l ls IH]; intros s k; cbn [fold_left wsum]; [ring|]. rewrite (IH _ (S k)). change (fadd ROps s l) with (s + l). ring. }
  etransitivity; [apply (G ls 0 0%nat)|]. set (W := wsum _ _ _). clearbody W. assert (Z : 0 * q + W = W) by ring. exact Z.
Qed.

Lemma wsum_le : forall (u w : nat -> R) ls k, Forall (fun l => 0 <= l) ls -> (forall i, (k <= i < k + length ls)%nat -> u i <= w i) ->
  wsum u k ls <= wsum w k ls /\
  (wsum u k ls = wsum w k ls -> forall i l, nth_error ls i = Some l -> u (k + i)%nat < w (k + i)%nat -> l = 0).
Proof.
  intros u w. induction ls as [|l ls IH]; intros k P H; cbn [wsum]; [split; [lra|]; intros _ [|i] l E; discriminate|].
  inversion P as [|? ? P1 P2]; subst. destruct (IH (S k) P2) as (A & B); [intros i Hi; apply H; cbn [length]; lia|].
  assert (U : u k <= w k) by (apply H; cbn [length]; lia).
  assert (L1 : l * u k <= l * w k) by (apply Rmult_le_compat_l; assumption). split; [lra|].
  intros E. assert (E1 : l * u k = l * w k) by lra. assert (E2 : wsum u (S k) ls = wsum w (S k) ls) by lra.
  intros [|i] l0 EN HL; cbn [nth_error] in EN.
  - injection EN as <-. rewrite Nat.add_0_r in HL. destruct (Req_dec l 0) as [Z|Z]; [exact Z|]. exfalso. assert (l * u k < l * w k) by (apply Rmult_lt_compat_l; lra). lra.
  - apply (B E2 i l0 EN). replace (S k + i)%nat with (k + S i)%nat by lia. exact HL.
Qed.

Lemma weight_le : forall i B, (i < B)%nat -> INR (fact i) / INR (fact B) <= / INR B.
Proof.
  intros i [|b] H; [lia|]. assert (F : (fact i <= fact b)%nat) by (apply fact_le; lia). apply le_INR in F.
  replace (INR (fact (S b))) with (INR (S b) * INR (fact b)) by (rewrite <- mult_INR; f_equal). pose proof (fact_pos b). assert (0 < INR (S b)) by (apply lt_0_INR; lia).
  apply (Rmult_le_reg_r (INR (S b) * INR (fact b))); [nra|].
  replace (INR (fact i) / (INR (S b) * INR (fact b)) * (INR (S b) * INR (fact b))) with (INR (fact i)) by (field; lra).
  replace (/ INR (S b) * (INR (S b) * INR (fact b))) with (INR (fact b)) by (field; lra). exact F.
Qed.

Lemma weight_lt : forall i B, (3 <= B)%nat -> (i < B - 1)%nat -> INR (fact i) / INR (fact B) < / INR B.
Proof.
  intros i [|b] H3 H; [lia|]. assert (F : (fact i < fact b)%nat).
  { destruct b as [|[|b]]; [lia|lia|]. assert ((fact i <= fact (S b))%nat) by (apply fact_le; lia). pose proof (lt_O_fact (S b)). cbn [fact] in *. nia. }
  apply lt_INR in F. replace (INR (fact (S b))) with (INR (S b) * INR (fact b)) by (rewrite <- mult_INR; f_equal). pose proof (fact_pos b). assert (0 < INR (S b)) by (apply lt_0_INR; lia).
  apply (Rmult_lt_reg_r (INR (S b) * INR (fact b))); [nra|].
  replace (INR (fact i) / (INR (S b) * INR (fact b)) * (INR (S b) * INR (fact b))) with (INR (fact i)) by (field; lra).
  replace (/ INR (S b) * (INR (S b) * INR (fact b))) with (INR (fact b)) by (field; lra). exact F.
Qed.

Lemma recorded_mean : forall ls : list R, Forall (fun l => 0 <= l) ls ->
  recorded ROps ls <= mean ROps ls /\
  (recorded ROps ls = mean ROps ls <-> (length ls <= 2)%nat \/ forall i l, nth_error ls i = Some l -> (i < length ls - 1)%nat -> l = 0).
Proof.
  intros ls P. rewrite recorded_R, mean_R.
  destruct (wsum_le (fun i => INR (fact i) / INR (fact (length ls))) (fun _ => / INR (length ls)) ls 0 P) as (A & B).
  { intros i Hi. apply weight_le. lia. }
  split; [exact A|]. split.
  - intros E. destruct (le_lt_dec (length ls) 2) as [L|L]; [now left|]. right. intros i l EN Hi.
    apply (B E i l EN). cbn [Nat.add]. apply weight_lt; lia.
  - intros [L|Z].
    + destruct ls as [|x [|y [|z ls]]]; cbn [wsum length] in *; try lia; cbn [fact Nat.mul Nat.add INR];
        match goal with |- @eq _ ?a ?b => change (@eq R a b) end; [reflexivity | field | field].
    + apply Rle_antisym; [exact A|]. clear A B.
      destruct (length ls) as [|b] eqn:EL; [apply length_zero_iff_nil in EL; subst; cbn; lra|].
      assert (G : forall l2 k, (k + length l2 = S b)%nat -> (forall i l, nth_error l2 i = Some l -> (i < length l2 - 1)%nat -> l = 0) ->
        wsum (fun _ => / INR (S b)) k l2 <= wsum (fun i => INR (fact i) / INR (fact (S b))) k l2).
      { induction l2 as [|l l2 IH]; intros k K H; cbn [wsum]; [lra|]. destruct l2 as [|l' l2].
        - cbn [wsum length] in *. replace k with b by lia. replace (INR (fact (S b))) with (INR (S b) * INR (fact b)) by (rewrite <- mult_INR; f_equal).
          pose proof (fact_pos b). assert (0 < INR (S b)) by (apply lt_0_INR; lia). right. field. lra.
        - assert (l = 0) as -> by (apply (H 0%nat); [reflexivity|cbn; lia]). rewrite !Rmult_0_l, !Rplus_0_l. apply IH; [cbn [length] in *; lia|].
          intros i x EN Hi. apply (H (S i) x EN). cbn [length] in *. lia. }
      apply G; [exact EL|]. intros i l EN Hi. apply (Z i l EN). lia.
Qed.

(** ** Losses are not negative *)
From Verif Require Import LossFacts PropSignal PropGeom PropTrain BFloat BFacts.

Lemma inv_nonneg : forall k, 0 <= / INR k.
Proof. intros [|k]; [cbn [INR]; rewrite Rinv_0; lra|]. left. apply Rinv_0_lt_compat, lt_0_INR. lia. Qed.

Lemma release_nonneg : forall (t y : list (cplx R)), 0 <= release_loss ROps MeanSquare t y.
Proof.
  intros t y. change (release_loss ROps MeanSquare t y) with (mean_sq_loss ROps t y). rewrite mean_sq_spec. rewrite fofnat_R.
  change (fdiv ROps) with Rdiv. unfold Rdiv.
  apply Rmult_le_pos; [|apply inv_nonneg]. apply rsum_nonneg. intros i _. unfold c_norm_sq.
  assert (G : forall a b : R, 0 <= a * a + b * b) by (intros; nra). apply G.
Qed.

Lemma net_loss_nonneg : forall n d (v : R), net_loss ROps P32 n d MeanSquare = Ret (Ok v) -> 0 <= v.
Proof.
  intros n d v H. unfold net_loss in H. destruct (ds_points_iter d) as [ins tgs].
  apply obind_inv in H as (vals & HM & H). apply obind_inv in H as (total & HT & H).
  assert (E : v = fdiv ROps total (fofnat ROps (length vals))) by congruence. clear H.
  assert (P : Forall (fun x : R => 0 <= x) vals).
  { clear - HM. revert vals HM. induction (combine ins tgs) as [|it its IH]; intros vals HM; cbn [mapM] in HM; [injection HM as <-; constructor|].
    apply obind_inv in HM as (x & E1 & HM). apply obind_inv in HM as (xs & E2 & HM). injection HM as <-. constructor; [|now apply IH].
    apply obind_inv in E1 as (r & _ & E1). apply obind_inv in E1 as (pred & _ & E1). destruct (loss ROps (snd it) pred MeanSquare) as [u|] eqn:EL; [|discriminate].
    cbn [unwrap] in E1. injection E1 as <-. unfold loss in EL. destruct pred as [p|p], (snd it) as [t|t]; try discriminate; injection EL as <-; apply release_nonneg. }
  destruct vals as [|x vals]; [discriminate|]. cbn [reduce unwrap_opt] in HT. injection HT as <-. inversion P as [|? ? P1 P2]; subst.
  rewrite fofnat_R. change (fdiv ROps) with Rdiv. unfold Rdiv. apply Rmult_le_pos; [|apply inv_nonneg].
  assert (G : forall l (s : R), 0 <= s -> Forall (fun x : R => 0 <= x) l -> 0 <= fold_left (fadd ROps) l s); [|now apply (G vals)].
  clear. induction l as [|y l IH]; intros s S Q; [exact S|]. inversion Q; subst. cbn [fold_left]. apply IH; [|assumption]. change (0 <= s + y). lra.
Qed.

Lemma rounds_nonneg : forall pr lr samples size thr k a b n n' ls ls',
  rounds ROps pr MeanSquare lr samples size thr k a b n n' ls ls' ->
  length ls = k /\ length ls' = k /\ Forall (fun l : R => 0 <= l) ls /\ Forall (fun l : R => 0 <= l) ls'.
Proof.
  intros pr lr samples size thr k a b n n' ls ls' H. induction H as [a b n | k a b a' b' d d' n n1 n' l l' ls ls' _ E1 _ E2 _ IH]; [auto|].
  apply net_loss_nonneg in E1, E2. destruct IH as (L1 & L2 & P1 & P2). cbn [length]. repeat split; auto.
Qed.

(** ** Statements *)
Local Open Scope nat_scope.
Lemma rec_lengths : forall Fl pr f lr samples size thr batches a b epochs n n' trl tel,
  rec_epochs Fl pr f lr samples size thr batches a b epochs n n' trl tel -> length trl = epochs /\ length tel = epochs.
Proof. intros. induction H; cbn [length]; [auto|lia]. Qed.

Lemma rounds_trained : forall Fl pr f lr samples size thr k a b n n' ls ls', rounds Fl pr f lr samples size thr k a b n n' ls ls' ->
  forall n0, trained Fl P32 n0 n -> trained Fl P32 n0 n'.
Proof. intros Fl pr f lr samples size thr k a b n n' ls ls' H. induction H; intros n0 T; [exact T|]. apply IHrounds. econstructor; eassumption. Qed.

Section Explore.
Context (Fl : FloatOps) (pr : profile).
Local Notation C := (cplx (F Fl)).
Hypothesis Hz : feqb Fl (fzero Fl) (fzero Fl) = true.
Hypothesis Hdiv : forall z : C, let m := c_norm Fl z in feqb Fl m (fzero Fl) = false -> feqb Fl (fadd Fl (fsq Fl m) (fsq Fl (fzero Fl))) (fzero Fl) = false.

Lemma column_ok : forall samples (v : list C), length v = samples -> as_column Fl samples (IOScalar v) = Ret (from_body v samples 1).
Proof. intros samples v H. unfold as_column. cbn [as_slice obind]. unfold to_matrix. now rewrite H, Nat.mul_1_r, Nat.eqb_refl. Qed.

Lemma explore_ok : forall n samples thr a b, Nat.even samples = true -> n <> [] -> fit_all Fl n (Vec samples) (Vec samples) ->
  seed_ok pr a -> seed_ok pr b ->
  exists a' b' d d' out, signal_reconstruction Fl pr samples 10 thr a b = Ret (a', b', d, d') /\
    explore Fl pr n samples thr a b = Ret out /\ length out = 10 /\
    forall k, k < 10 -> exists x y v, nth_error (points d) k = Some (IOScalar x, IOScalar y) /\
      net_forward Fl P32 n (IOScalar x) = Ret (Ok (IOScalar v)) /\ length x = samples /\ length y = samples /\ length v = samples /\
      nth_error out k = Some (from_body x samples 1, from_body y samples 1, from_body v samples 1).
Proof.
  intros n samples thr a b EV NE FA HA HB.
  destruct (signal_total Fl pr Hz Hdiv samples 10 thr a b EV HA HB) as (a' & b' & d & d' & ES & _ & _).
  exists a', b', d, d'. pose proof ES as ES'. apply signal_made in ES' as (ps & qs & -> & -> & LP & LQ & FP & FQ).
  destruct (C58_history ps) as (_ & GP & _ & PI & _). unfold explore. rewrite ES. cbn [obind].
  assert (PP : points (ds_of ps) = ps) by exact PI. rewrite PP.
  assert (K : forall k, k < 10 -> exists x y v, nth_error ps k = Some (IOScalar x, IOScalar y) /\
      net_forward Fl P32 n (IOScalar x) = Ret (Ok (IOScalar v)) /\ length x = samples /\ length y = samples /\ length v = samples /\
      explore_point Fl n samples (ds_of ps) k = Ret (from_body x samples 1, from_body y samples 1, from_body v samples 1)).
  { intros k K. destruct (nth_error ps k) as [q|] eqn:E; [|apply nth_error_None in E; lia].
    pose proof (proj1 (Forall_forall _ _) FP q (nth_error_In _ _ E)) as M. apply made_shape in M as (x & y & -> & Lx & Ly & _).
    destruct (forward_total Fl P32 n _ _ (IOScalar x) NE FA Lx) as (v & EF & V). destruct v as [v|v]; [|contradiction]. cbn [has_geom] in V.
    exists x, y, v. split; [reflexivity|]. split; [exact EF|]. split; [exact Lx|]. split; [exact Ly|]. split; [exact V|].
    unfold explore_point. rewrite (GP k _ E). cbn [obind]. rewrite EF. cbn [obind unwrap]. now rewrite !column_ok by assumption. }
  clear - K. assert (G : forall m k0, k0 + m <= 10 -> exists out, mapM (explore_point Fl n samples (ds_of ps)) (seq k0 m) = Ret out /\ length out = m /\
    forall k, k < m -> exists x y v, nth_error ps (k0 + k) = Some (IOScalar x, IOScalar y) /\
      net_forward Fl P32 n (IOScalar x) = Ret (Ok (IOScalar v)) /\ length x = samples /\ length y = samples /\ length v = samples /\
      nth_error out k = Some (from_body x samples 1, from_body y samples 1, from_body v samples 1)).
  { induction m as [|m IH]; intros k0 H; [exists []; repeat split; intros; lia|]. cbn [seq mapM].
    destruct (K k0) as (x & y & v & E1 & E2 & L1 & L2 & L3 & E3); [lia|]. rewrite E3. cbn [obind].
    destruct (IH (S k0)) as (out & E & L & HO); [lia|]. rewrite E. cbn [obind]. eexists. split; [reflexivity|]. cbn [length]. split; [lia|].
    intros [|k] Hk.
    - exists x, y, v. rewrite Nat.add_0_r. repeat split; auto.
    - destruct (HO k) as (x' & y' & v' & Q); [lia|]. exists x', y', v'. replace (k0 + S k) with (S k0 + k) by lia. exact Q. }
  destruct (G 10 0) as (out & E & L & HO); [lia|]. exists out. split; [reflexivity|]. split; [exact E|]. split; [exact L|]. exact HO.
Qed.
End Explore.

Lemma rate_R : forall k (lr : RC), k <> 0 -> exists s, c_div ROps lr (c_of_nat ROps k) = Ret s.
Proof. intros k lr H. exact (proj1 (C62_rate k H) lr). Qed.

Lemma program_rec : forall L pr seed samples f lr thr epochs batches size a b, samples <> 0 -> Nat.even samples = true -> 0 < size ->
  seed_ok pr seed -> seed_ok pr a -> seed_ok pr b ->
  exists seed' n n' trl tel out, get_auto_encoder (B32Ops L) pr seed samples = Ret (seed', (3, n)) /\
    rec_pipeline (B32Ops L) pr n f lr samples thr epochs batches size a b = Ret (n', trl, tel) /\
    length trl = epochs /\ length tel = epochs /\ explore (B32Ops L) pr n' samples thr a b = Ret out.
Proof.
  intros L pr seed samples f lr thr epochs batches size a b S0 EV SZ HS HA HB.
  destruct (auto_ok (B32Ops L) pr samples seed S0 HS) as (s' & n & E & _ & ST & TR & _). exists s', n.
  pose proof (stages_length (B32Ops L) _ _ ST) as LN. assert (L5 : length n = 5) by (clear - LN; cbn in LN; lia).
  pose proof (stages_fit (B32Ops L) n _ ST (Vec 0)) as FA. rewrite L5 in FA. cbn [nth auto_stages] in FA.
  destruct (rec_pipeline_total (B32Ops L) pr eq_refl (norm_divisible L) (rate32 L) f lr samples thr epochs batches size a b n EV SZ) as (n' & trl & tel & ER & FT); auto.
  { split; [lia|]. split; assumption. }
  destruct FT as (L2 & FA' & _).
  destruct (explore_ok (B32Ops L) pr eq_refl (norm_divisible L) n' samples thr a b EV) as (_ & _ & _ & _ & out & _ & EO & _); auto.
  { intros ->. cbn in L2. lia. }
  exists n', trl, tel, out. pose proof ER as EE. apply rec_pipeline_epochs in EE. apply rec_lengths in EE. tauto.
Qed.

Lemma rec_pipeline_curves : forall Fl pr n f lr samples thr epochs batches size a b n' trl tel,
  rec_pipeline Fl pr n f lr samples thr epochs batches size a b = Ret (n', trl, tel) ->
  rec_epochs Fl pr f lr samples size thr batches a b epochs n n' trl tel /\
  length trl = epochs /\ length tel = epochs /\
  wf (curve_column Fl epochs trl) /\ wf (curve_column Fl epochs tel).
Proof.
  intros Fl pr n f lr samples thr epochs batches size a b n' trl tel E. apply rec_pipeline_epochs in E. split; [exact E|].
  apply rec_lengths in E as (L1 & L2). unfold wf, curve_column. cbn [from_body body sh0 sh1]. rewrite L1, L2. repeat split; lia.
Qed.

Lemma rec_total_both : forall pr f samples epochs batches size a b,
  Nat.even samples = true -> 0 < size -> seed_ok pr a -> seed_ok pr b ->
  (forall L n lr thr, 2 <= length n -> fit_all (B32Ops L) n (Vec samples) (Vec samples) -> Forall (trainable (B32Ops L)) n ->
     exists n' trl tel, rec_pipeline (B32Ops L) pr n f lr samples thr epochs batches size a b = Ret (n', trl, tel)) /\
  (forall n lr thr, 2 <= length n -> fit_all ROps n (Vec samples) (Vec samples) -> Forall (trainable ROps) n ->
     exists n' trl tel, rec_pipeline ROps pr n f lr samples thr epochs batches size a b = Ret (n', trl, tel)).
Proof.
  intros pr f samples epochs batches size a b EV SZ HA HB. split.
  - intros L n lr thr L2 FA TR.
    destruct (rec_pipeline_total (B32Ops L) pr eq_refl (norm_divisible L) (rate32 L) f lr samples thr epochs batches size a b n EV SZ) as (n' & trl & tel & ER & _); auto.
    { split; [exact L2|]. split; assumption. } eauto.
  - intros n lr thr L2 FA TR.
    destruct (rec_pipeline_total ROps pr zero_R div_R rate_R f lr samples thr epochs batches size a b n EV SZ) as (n' & trl & tel & ER & _); auto.
    { split; [exact L2|]. split; assumption. } eauto.
Qed.

Local Open Scope R_scope.
Lemma wsum_fold : forall (w : nat -> R) ls k, wsum w k ls = fold_right Rplus 0 (map (fun i => nth i ls 0 * w (k + i)%nat) (seq 0 (length ls))).
Proof.
  intros w ls. induction ls as [|l ls IH]; intros k; cbn [wsum length seq map fold_right]; [reflexivity|].
  cbn [nth]. rewrite Nat.add_0_r, IH, <- seq_shift, map_map. do 2 f_equal. apply map_ext. intros i. now replace (k + S i)%nat with (S k + i)%nat by lia.
Qed.

Lemma recorded_weights : forall ls : list R,
  recorded ROps ls = fold_right Rplus 0 (map (fun i => nth i ls 0 * (INR (fact i) / INR (fact (length ls)))) (seq 0 (length ls))).
Proof. intros ls. rewrite recorded_R, wsum_fold. reflexivity. Qed.

Lemma recorded_below_mean : forall pr lr samples size thr batches a b n n' ls ls',
  rounds ROps pr MeanSquare lr samples size thr batches a b n n' ls ls' ->
  forall l, l = ls \/ l = ls' ->
  recorded ROps l <= mean ROps l /\
  (recorded ROps l = mean ROps l <-> (batches <= 2)%nat \/ forall i v, nth_error l i = Some v -> (i < batches - 1)%nat -> v = 0).
Proof.
  intros pr lr samples size thr batches a b n n' ls ls' H l Hl. apply rounds_nonneg in H as (L1 & L2 & P1 & P2).
  destruct Hl as [-> | ->]; [rewrite <- L1 | rewrite <- L2]; apply recorded_mean; assumption.
Qed.
