(** * Facts about training in exact arithmetic: the step of a batch from the
    gradients of its points *)
From Coq Require Import Reals Lra Permutation.
From Verif Require Import Base BaseFacts Float Matrix Cplx Act Input Loss Dense Conv Layer Dataset Network RFloat CFacts SpecMatrix MatrixFacts
  SpecLayer SpecConv SpecNet DenseFacts LayerFacts NetFacts TrainFacts PropTrain SpecGrad GradFacts GradFacts2.
Local Open Scope nat_scope.

Definition lsum (l : list RC) : RC := fold_right (c_add ROps) 0%RC l.

Lemma lsum_app : forall a b, lsum (a ++ b) = (lsum a + lsum b)%RC.
Proof.
  induction a as [|x a IH]; intros b; cbn [app].
  - change (lsum []) with 0%RC. ring.
  - change (lsum (x :: a ++ b)) with (x + lsum (a ++ b))%RC. change (lsum (x :: a)) with (x + lsum a)%RC. rewrite IH. ring.
Qed.

(** ** Flattened gradients *)
Section Flat.
Context (Fl : FloatOps).
Local Notation C := (cplx (F Fl)).
Definition gflat (W B : list (list C)) : list C := concat (map (fun g => fst g ++ snd g) (combine W B)).

Lemma zip_app : forall (op : C -> C -> C) a b c d, length a = length c -> zip_assign op (a ++ b) (c ++ d) = zip_assign op a c ++ zip_assign op b d.
Proof. intros op a. induction a as [|x a IH]; intros b [|y c] d L; try discriminate; [reflexivity|]. cbn [app zip_assign]. cbn [length] in L. rewrite IH by lia. reflexivity. Qed.

Lemma update_all : forall s (n : network Fl) W B, Forall (layer_full Fl) n ->
  map (@length C) W = map (fun l => length (fst (layer_values Fl l))) n ->
  map (@length C) B = map (fun l => length (snd (layer_values Fl l))) n ->
  exists n', mapM (update_layer Fl s) (combine (combine W B) n) = Ret n' /\ map (arch_of Fl) n' = map (arch_of Fl) n /\
    net_values Fl n' = zip_assign (sub_conj Fl) (net_values Fl n) (map (fun e => c_mul_assign Fl e s) (gflat W B)) /\
    length (gflat W B) = length (net_values Fl n).
Proof.
  intros s n. induction n as [|l n IH]; intros [|w W] [|b B] FU L1 L2; try discriminate.
  - exists []. repeat split; reflexivity.
  - inversion FU as [|? ? F0 F1]; subst. cbn [map] in L1, L2. injection L1 as l1 L1. injection L2 as l2 L2.
    destruct (IH W B F1 L1 L2) as (n' & I1 & I2 & I3 & I4). destruct (update_ok Fl s l w b F0 l1 l2) as (l' & U1 & U2 & U3).
    exists (l' :: n'). cbn [combine mapM]. rewrite U1. cbn [obind]. rewrite I1. cbn [obind]. split; [reflexivity|].
    cbn [map]. rewrite U2, I2. split; [reflexivity|]. unfold net_values, gflat in *. cbn [map concat combine fst snd]. split.
    + rewrite I3, U3. cbn [fst snd]. rewrite !map_app, !zip_app; rewrite ?app_length, ?map_length; auto; lia.
    + rewrite !app_length, I4, l1, l2. lia.
Qed.

(** ** A network is its architecture and its parameters *)
Lemma arch_lengths : forall l l' : clayer Fl, arch_of Fl l = arch_of Fl l' ->
  length (fst (layer_values Fl l)) = length (fst (layer_values Fl l')) /\ length (snd (layer_values Fl l)) = length (snd (layer_values Fl l')).
Proof.
  intros [l|l|l|l] [l'|l'|l'|l'] A; cbn in A; try discriminate; cbn [layer_values fst snd]; [| |split; reflexivity..].
  - injection A as _ _ _ _ A B _. auto.
  - injection A as _ _ _ _ _ B _ A. split; [|exact B]. unfold kernel_values.
    revert A. generalize (body (k_kernels l)) (body (k_kernels l')). induction l0 as [|k ks IH]; intros [|k' ks'] E; try discriminate; [reflexivity|].
    cbn [map concat] in *. rewrite !app_length. injection E as _ _ _ _ E1 E2. rewrite E1, (IH _ E2). reflexivity.
Qed.

Lemma net_eq : forall n n' : network Fl, map (arch_of Fl) n = map (arch_of Fl) n' -> net_values Fl n = net_values Fl n' -> n = n'.
Proof.
  induction n as [|l n IH]; intros [|l' n'] A V; try discriminate; [reflexivity|].
  cbn [map] in A. assert (A0 : arch_of Fl l = arch_of Fl l') by congruence. assert (A1 : map (arch_of Fl) n = map (arch_of Fl) n') by congruence.
  unfold net_values in V. cbn [map concat] in V. destruct (arch_lengths l l' A0) as (L1 & L2).
  assert (SP : forall (a b c d : list C), length a = length c -> a ++ b = c ++ d -> a = c /\ b = d).
  { clear. induction a as [|x a IH]; intros b [|y c] d L E; try discriminate; [auto|]. cbn in L, E. injection E as <- E. destruct (IH b c d ltac:(lia) E) as (-> & ->). auto. }
  rewrite <- !app_assoc in V. apply SP in V as (V1 & V); [|exact L1]. apply SP in V as (V2 & V); [|exact L2].
  rewrite (IH n' A1 V). f_equal. apply layer_eq; [exact A0|]. destruct (layer_values Fl l), (layer_values Fl l'). cbn [fst snd] in *. congruence.
Qed.

(** ** Accumulation *)
Lemma addv_ok : forall W ws : list (list C), map (@length C) ws = map (@length C) W ->
  exists W', addv Fl W ws = Ret W' /\ map (@length C) W' = map (@length C) W /\
    concat W' = zip_assign (c_add_assign Fl) (concat W) (concat ws).
Proof.
  induction W as [|w W IH]; intros [|d ws] L; try discriminate; [exists []; auto|].
  cbn [map] in L. injection L as l0 L. destruct (IH ws L) as (W' & E1 & E2 & E3). cbn [addv]. unfold add_slice_mut.
  rewrite l0, Nat.eqb_refl. cbn [negb unwrap obind]. rewrite E1. cbn [obind]. eexists. split; [reflexivity|].
  cbn [map concat]. rewrite E2, zip_assign_length, zip_app, E3 by congruence. split; reflexivity.
Qed.

Lemma addv_bad : forall W ws : list (list C), length ws = length W -> map (@length C) ws <> map (@length C) W -> addv Fl W ws = Panic.
Proof.
  induction W as [|w W IH]; intros [|d ws] L N; try discriminate; [now exfalso|]. cbn [addv]. unfold add_slice_mut.
  destruct (Nat.eqb_spec (length w) (length d)) as [E|E]; cbn [negb unwrap obind]; [|reflexivity].
  rewrite IH; [reflexivity | cbn in L; lia |]. intros K. apply N. cbn [map]. congruence.
Qed.

Lemma gflat_add : forall W B ws bs W' B', map (@length C) ws = map (@length C) W -> map (@length C) bs = map (@length C) B ->
  addv Fl W ws = Ret W' -> addv Fl B bs = Ret B' -> length W = length B ->
  gflat W' B' = zip_assign (c_add_assign Fl) (gflat W B) (gflat ws bs).
Proof.
  induction W as [|w W IH]; intros [|b B] [|d ws] [|e bs] W' B' L1 L2 A1 A2 L; try discriminate.
  - cbn in A1, A2. assert (W' = []) by congruence. assert (B' = []) by congruence. subst. reflexivity.
  - cbn [map] in L1, L2. injection L1 as l1 L1. injection L2 as l2 L2. cbn [addv] in A1, A2. unfold add_slice_mut in A1, A2.
    rewrite l1, Nat.eqb_refl in A1. rewrite l2, Nat.eqb_refl in A2. cbn [negb unwrap obind] in A1, A2.
    apply obind_inv in A1 as (W1 & A1 & E1). apply obind_inv in A2 as (B1 & A2 & E2).
    assert (W' = zip_assign (c_add_assign Fl) w d :: W1) as -> by (change (add_assign (cops Fl)) with (c_add_assign Fl) in E1; congruence).
    assert (B' = zip_assign (c_add_assign Fl) b e :: B1) as -> by (change (add_assign (cops Fl)) with (c_add_assign Fl) in E2; congruence).
    unfold gflat in *. cbn [combine map concat fst snd]. rewrite (IH B ws bs W1 B1) by (auto; cbn in L; lia).
    rewrite !zip_app; rewrite ?app_length; auto; lia.
Qed.
End Flat.

(** ** The gradient of a batch *)
Section BatchR.
Context (p : prec) (n : network ROps) (f : ComplexLossFunc).
Local Notation gz := (grad_zero ROps n).

(** The gradients of one point, when they have the right sizes. *)
Definition good (it : IOType RC * IOType RC) (g : list RC) : Prop :=
  exists ws bs, pgrad ROps p n f it = Ret (ws, bs) /\ map (@length RC) ws = map (@length RC) (fst gz) /\
    map (@length RC) bs = map (@length RC) (snd gz) /\ g = gflat ROps ws bs.

Lemma good_unique : forall it g g', good it g -> good it g' -> g = g'.
Proof. intros it g g' (ws & bs & E & _ & _ & ->) (ws' & bs' & E' & _ & _ & ->). assert (ws = ws') by congruence. assert (bs = bs') by congruence. now subst. Qed.

Lemma pgrad_length : forall it ws bs, pgrad ROps p n f it = Ret (ws, bs) -> length ws = length n /\ length bs = length n.
Proof.
  intros it ws bs E. unfold pgrad in E. apply obind_inv in E as (r & E1 & E). destruct r as [acts|]; cbn [unwrap obind] in E; [|discriminate].
  apply obind_inv in E as (g & E2 & E). apply obind_inv in E as ((((ws' & bs') & h) & hc) & E3 & E).
  assert (ws' = ws) by congruence. assert (bs' = bs) by congruence. subst. apply bp_length in E3 as (L1 & L2).
  apply collect_length in E1. rewrite combine_length in L1, L2. lia.
Qed.

Lemma point_sum : forall it W B, map (@length RC) W = map (@length RC) (fst gz) -> map (@length RC) B = map (@length RC) (snd gz) ->
  (exists g W' B', good it g /\ point_step ROps p n f (W, B) it = Ret (W', B') /\
     map (@length RC) W' = map (@length RC) (fst gz) /\ map (@length RC) B' = map (@length RC) (snd gz) /\
     gflat ROps W' B' = zip_assign (c_add_assign ROps) (gflat ROps W B) g /\ length g = length (gflat ROps W B)) \/
  (point_step ROps p n f (W, B) it = Panic /\ forall g, ~ good it g).
Proof.
  intros it W B L1 L2. destruct (grad_zero_slots ROps n) as (S1 & S2). destruct (grad_zero_length ROps n) as (G1 & G2).
  rewrite point_step_eq by (eapply slots_lengths; eauto).
  destruct (pgrad ROps p n f it) as [(ws, bs)|] eqn:E; cbn [obind].
  2: { right. split; [reflexivity|]. intros g (ws & bs & K & _). congruence. }
  destruct (pgrad_length _ _ _ E) as (P1 & P2).
  assert (LW : length W = length n) by (rewrite <- (map_length (@length RC)), L1, map_length; exact G1).
  assert (LB : length B = length n) by (rewrite <- (map_length (@length RC)), L2, map_length; exact G2).
  destruct (list_eq_dec Nat.eq_dec (map (@length RC) ws) (map (@length RC) W)) as [E1|E1].
  - destruct (list_eq_dec Nat.eq_dec (map (@length RC) bs) (map (@length RC) B)) as [E2|E2].
    + left. destruct (addv_ok ROps W ws E1) as (W' & A1 & A2 & _). destruct (addv_ok ROps B bs E2) as (B' & A3 & A4 & _).
      exists (gflat ROps ws bs), W', B'. rewrite A1. cbn [obind]. rewrite A3. cbn [obind].
      split; [exists ws, bs; repeat split; congruence|]. split; [reflexivity|]. split; [congruence|]. split; [congruence|].
      split; [apply gflat_add; auto; lia|].
      clear - E1 E2 LW LB. unfold gflat. assert (L : length W = length B) by lia. clear LW LB. revert ws B bs E1 E2 L.
      induction W as [|w W IH]; intros [|d ws] [|b B] [|e bs] E1 E2 L; try discriminate; [reflexivity|].
      cbn [map] in E1, E2. injection E1 as e1 E1. injection E2 as e2 E2. cbn [combine map concat fst snd]. rewrite !app_length, (IH ws B bs); auto; lia.
    + right. split.
      * destruct (addv ROps W ws); cbn [obind]; [|reflexivity]. rewrite addv_bad; [reflexivity | lia | exact E2].
      * intros g (ws' & bs' & K & _ & K2 & _). apply E2. assert (bs' = bs) by congruence. subst. congruence.
  - right. split.
    + rewrite addv_bad; [reflexivity | lia | exact E1].
    + intros g (ws' & bs' & K & K1 & _). apply E1. assert (ws' = ws) by congruence. subst. congruence.
Qed.

Lemma batch_sum : forall pts W B, map (@length RC) W = map (@length RC) (fst gz) -> map (@length RC) B = map (@length RC) (snd gz) ->
  (exists gs W' B', Forall2 good pts gs /\ foldM (point_step ROps p n f) pts (W, B) = Ret (W', B') /\
     map (@length RC) W' = map (@length RC) (fst gz) /\ map (@length RC) B' = map (@length RC) (snd gz) /\
     forall i, nth i (gflat ROps W' B') 0%RC = (nth i (gflat ROps W B) 0 + lsum (map (fun g => nth i g 0%RC) gs))%RC) \/
  (foldM (point_step ROps p n f) pts (W, B) = Panic /\ exists it, In it pts /\ forall g, ~ good it g).
Proof.
  induction pts as [|it pts IH]; intros W B L1 L2; cbn [foldM].
  - left. exists [], W, B. repeat split; auto. intros i. cbn [map lsum fold_right]. ring.
  - destruct (point_sum it W B L1 L2) as [(g & W1 & B1 & G & E & M1 & M2 & EG & LG)|(E & NG)]; rewrite E; cbn [obind].
    + destruct (IH W1 B1 M1 M2) as [(gs & W' & B' & F & E' & N1 & N2 & S)|(E' & it' & I & NG)].
      * left. exists (g :: gs), W', B'. repeat split; auto. intros i. rewrite S, EG. cbn [map lsum fold_right].
        fold (lsum (map (fun g => nth i g 0%RC) gs)).
        assert (Z : nth i (zip_assign (c_add_assign ROps) (gflat ROps W B) g) 0%RC = (nth i (gflat ROps W B) 0 + nth i g 0)%RC).
        { destruct (Nat.lt_ge_cases i (length (gflat ROps W B))) as [H|H].
          - rewrite (zip_nth _ _ _ _ _ 0%RC) by lia. reflexivity.
          - rewrite !nth_overflow by (rewrite ?zip_assign_length; lia). ring. }
        rewrite Z. ring.
      * right. split; [exact E'|]. exists it'. split; [now right | exact NG].
    + right. split; [reflexivity|]. exists it. split; [now left | exact NG].
Qed.

Lemma gz_flat : forall i, nth i (gflat ROps (fst gz) (snd gz)) 0%RC = 0%RC.
Proof.
  intros i. assert (Z : Forall (eq 0%RC) (gflat ROps (fst gz) (snd gz))).
  { unfold grad_zero, gflat. cbn [fst snd]. induction n as [|l m IH]; [constructor|]. cbn [map combine concat fst snd].
    apply Forall_app. split; [|exact IH]. apply Forall_app.
    split; (destruct (layer_propagates ROps l); [apply Forall_forall; intros x Hx; symmetry; eapply repeat_spec; exact Hx | constructor]). }
  destruct (Nat.lt_ge_cases i (length (gflat ROps (fst gz) (snd gz)))) as [H|H].
  - symmetry. apply (proj1 (Forall_forall _ _) Z). now apply nth_In.
  - now apply nth_overflow.
Qed.

(** ** The step of a batch *)
Lemma step_cases : forall pts (lr : R), Forall (layer_full ROps) n -> 2 <= length n -> pts <> [] ->
  (exists gs n', Forall2 good pts gs /\ net_gradient_opt ROps p n (batch pts) f (mkC lr 0%R) = Ret (n', Ok tt) /\
     map (arch_of ROps) n' = map (arch_of ROps) n /\ length (net_values ROps n') = length (net_values ROps n) /\
     forall i, nth i (net_values ROps n') 0%RC =
       (nth i (net_values ROps n) 0 - mkC (lr / INR (length pts))%R 0%R * conj (lsum (map (fun g => nth i g 0%RC) gs)))%RC) \/
  (net_gradient_opt ROps p n (batch pts) f (mkC lr 0%R) = Panic /\ exists it, In it pts /\ forall g, ~ good it g).
Proof.
  intros pts lr FU LN NP. unfold net_gradient_opt. rewrite (proj2 (Nat.leb_gt (length n) 1)) by lia.
  unfold net_gradient, ds_points_iter. rewrite batch_points.
  destruct (batch_sum pts (fst gz) (snd gz) eq_refl eq_refl) as [(gs & W & B & F & E & L1 & L2 & S)|(E & X)];
    rewrite <- surjective_pairing in E; rewrite E; cbn [obind]; [left | right; auto].
  destruct (grad_zero_sizes ROps n FU) as (Z1 & Z2). rewrite Z1 in L1. rewrite Z2 in L2.
  cbn [batch ds_inputs]. rewrite map_length.
  assert (N0 : length pts <> 0) by (destruct pts; [congruence | discriminate]).
  rewrite (div_real lr _ N0). cbn [obind]. set (s := mkC (lr * / INR (length pts))%R 0%R) in *.
  destruct (update_all ROps s n W B FU L1 L2) as (n' & U1 & U2 & U3 & U4). cbn [fst snd]. rewrite U1. cbn [obind].
  exists gs, n'. split; [exact F|]. split; [reflexivity|]. split; [exact U2|].
  split; [rewrite U3; apply zip_assign_length|]. intros i. specialize (S i). rewrite gz_flat in S.
  assert (S' : nth i (gflat ROps W B) 0%RC = lsum (map (fun g => nth i g 0%RC) gs)) by (rewrite S; ring). rewrite <- S', U3. clear S S'.
  destruct (Nat.lt_ge_cases i (length (net_values ROps n))) as [H|H].
  - rewrite (zip_nth _ _ _ i _ (c_mul_assign ROps 0%RC s)) by (rewrite ?map_length; lia).
    rewrite (map_nth (fun e => c_mul_assign ROps e s)). subst s. generalize (nth i (net_values ROps n) 0%RC) (nth i (gflat ROps W B) 0%RC). intros [a b] [u w].
    unfold sub_conj, c_sub_assign, c_mul_assign, c_conj. apply c_ext; cbn; unfold Rdiv; ring.
  - rewrite !nth_overflow by (rewrite ?zip_assign_length; lia). apply c_ext; cbn; ring.
Qed.
End BatchR.

(** ** A zero gradient stays zero *)
Definition zs (l : list RC) : Prop := Forall (eq 0%RC) l.

Lemma foldM_keep : forall {A S} (f : S -> A -> outcome S) (I : S -> Prop) l s s',
  (forall s a s', In a l -> I s -> f s a = Ret s' -> I s') -> I s -> foldM f l s = Ret s' -> I s'.
Proof.
  intros A S f I l. induction l as [|a l IH]; intros s s' H Hs E; cbn [foldM] in E; [congruence|].
  apply obind_inv in E as (s1 & E1 & E). apply (IH s1); [intros; eapply H; cbn; eauto | eapply H; cbn; eauto | exact E].
Qed.

Lemma zs_app : forall a b, zs (a ++ b) <-> zs a /\ zs b.
Proof. intros. apply Forall_app. Qed.
Lemma zs_concat : forall ls, zs (concat ls) <-> Forall zs ls.
Proof. intros ls. induction ls as [|l ls IH]; cbn [concat]; [split; constructor|]. rewrite zs_app, IH. split; [intros (? & ?); constructor; auto | inversion 1; auto]. Qed.
Lemma zs_repeat : forall n, zs (repeat 0%RC n).
Proof. induction n; constructor; auto. Qed.
Lemma zs_firstn : forall n l, zs l -> zs (firstn n l).
Proof. intros n l H. rewrite <- (firstn_skipn n l) in H. apply zs_app in H. tauto. Qed.
Lemma zs_skipn : forall n l, zs l -> zs (skipn n l).
Proof. intros n l H. rewrite <- (firstn_skipn n l) in H. apply zs_app in H. tauto. Qed.
Lemma zs_slice : forall l a b r, zs l -> slice l a b = Ret r -> zs r.
Proof. intros l a b r H E. unfold slice in E. destruct (_ && _); [|discriminate]. injection E as <-. now apply zs_firstn, zs_skipn. Qed.
Lemma zs_chunks : forall n l cs, zs l -> chunks n l = Ret cs -> Forall zs cs.
Proof.
  intros n l cs H E. assert (N : n <> 0) by (intros ->; discriminate). destruct (chunks_ret n l N) as (cs' & E' & E2).
  assert (cs = cs') by congruence. subst. apply zs_concat. congruence.
Qed.
Lemma zs_windows : forall n l cs, zs l -> windows n l = Ret cs -> Forall zs cs.
Proof.
  intros n l cs H E. unfold windows in E. destruct (n =? 0); [discriminate|]. destruct (_ <? _); injection E as <-; [constructor|].
  apply Forall_forall. intros x Hx. apply in_map_iff in Hx as (i & <- & _). now apply zs_firstn, zs_skipn.
Qed.
Lemma zs_mapM : forall {A} (f : A -> outcome RC) l r, (forall x y, In x l -> f x = Ret y -> 0%RC = y) -> mapM f l = Ret r -> zs r.
Proof.
  intros A f l. induction l as [|a l IH]; intros r H E; cbn [mapM] in E; [injection E as <-; constructor|].
  apply obind_inv in E as (x & E1 & E). apply obind_inv in E as (y & E2 & E). injection E as <-. constructor.
  - eapply H; [now left | exact E1].
  - apply IH; [|exact E2]. intros. eapply H; [right|]; eauto.
Qed.
Lemma zs_flat_mapM : forall {A} (f : A -> outcome (list RC)) l r, (forall x y, In x l -> f x = Ret y -> zs y) -> flat_mapM f l = Ret r -> zs r.
Proof.
  intros A f l r H E. unfold flat_mapM in E. apply obind_inv in E as (bs & E1 & E). injection E as <-. apply zs_concat.
  revert bs E1. induction l as [|a l IH]; intros bs E1; cbn [mapM] in E1; [injection E1 as <-; constructor|].
  apply obind_inv in E1 as (x & E1 & E). apply obind_inv in E as (y & E2 & E). injection E as <-. constructor.
  - eapply H; [now left | exact E1].
  - apply IH; [|exact E2]. intros. eapply H; [right|]; eauto.
Qed.
Lemma zs_zip : forall a b, zs a -> zs b -> zs (zip_assign (add_assign (cops ROps)) a b).
Proof.
  intros a b H. revert b. induction H as [|x a <- H IH]; intros b K; [destruct b; constructor|].
  destruct K as [|y b <- K]; cbn [zip_assign]; (constructor; [|first [apply IH; exact K | exact H]]); [reflexivity|].
  apply c_ext; cbn; ring.
Qed.
Lemma zs_add_slice_mut : forall a b r, zs a -> zs b -> unwrap (add_slice_mut (cops ROps) a b) = Ret r -> zs r.
Proof. intros a b r H K E. unfold add_slice_mut in E. destruct (negb _); cbn [unwrap] in E; [discriminate|]. injection E as <-. now apply zs_zip. Qed.

Lemma prod_zero : forall a b : list RC, zs a \/ zs b -> 0%RC = scalar_prod (cops ROps) a b.
Proof.
  intros a b H. unfold scalar_prod. change (dflt (cops ROps)) with 0%RC.
  revert b H. induction a as [|x a IH]; intros [|y b] H; try reflexivity. cbn [combine fold_left fst snd].
  replace (add (cops ROps) 0%RC (mul (cops ROps) x y)) with 0%RC.
  - apply IH. destruct H as [H|H]; inversion H; auto.
  - change (0%RC = (0 + x * y)%RC). destruct H as [H|H]; inversion H; subst; ring.
Qed.

Lemma conv_zero : forall m k r, zs (body m) \/ zs (body k) -> convolution (cops ROps) m k = Ret (Ok r) -> zs (body r).
Proof.
  intros m k r H E. unfold convolution in E. destruct (_ || _); [discriminate|].
  apply obind_inv in E as (a & _ & E). apply obind_inv in E as (f0 & _ & E). apply obind_inv in E as (b & _ & E). apply obind_inv in E as (f1 & _ & E).
  apply obind_inv in E as (bd & EB & E). apply obind_inv in E as (r' & ER & E). assert (r' = r) by congruence. subst r'.
  unfold to_matrix in ER. destruct (negb _); cbn [unwrap] in ER; [discriminate|]. injection ER as <-. cbn [from_body body].
  revert EB. apply zs_flat_mapM. intros i row _ ER. unfold conv_row in ER.
  apply obind_inv in ER as (sl & ES & ER). apply obind_inv in ER as (kr & EK & ER).
  revert ER. apply foldM_keep; [|apply zs_repeat]. intros acc (w, krow) acc' HI HA E0. cbn [fst snd] in E0.
  apply obind_inv in E0 as (ws & EW & E0). revert E0. apply zs_add_slice_mut; [exact HA|].
  apply Forall_forall. intros x Hx. apply in_map_iff in Hx as (sec & <- & Hsec). apply prod_zero.
  destruct H as [H|H]; [left | right].
  - unfold get_slider in ES. apply obind_inv in ES as (s & E1 & E2). apply zs_slice in E1; [|exact H]. apply zs_chunks in E2; [|exact E1].
    assert (zs w) by (apply (proj1 (Forall_forall _ _) E2); eapply in_combine_l; eauto).
    eapply (proj1 (Forall_forall _ _)); [eapply zs_windows; eassumption | exact Hsec].
  - unfold rows_as_iter in EK. apply zs_chunks in EK; [|exact H]. apply (proj1 (Forall_forall _ _) EK). eapply in_combine_r; eauto.
Qed.

Lemma pad_zero : forall m a b r, zs (body m) -> pad (cops ROps) m a b = Ret r -> zs (body r).
Proof.
  intros m a b r H E. unfold pad in E. apply obind_inv in E as (st & E1 & E). injection E as <-. cbn [from_body body].
  assert (K : zs (fst st) /\ zs (snd st)); [|tauto]. revert E1. apply (foldM_keep _ (fun st => zs (fst st) /\ zs (snd st))); [|split; [constructor | exact H]].
  intros (out, rest) i st' _ (H1 & H2) E. cbn [fst snd] in *. unfold pad_row in E. change (dflt (cops ROps)) with 0%RC in E.
  destruct (i <? a); [injection E as <-; cbn [fst snd]; split; [apply zs_app; split; [exact H1 | apply zs_repeat] | exact H2]|].
  destruct (_ <=? i); [injection E as <-; cbn [fst snd]; split; [apply zs_app; split; [exact H1 | apply zs_repeat] | exact H2]|].
  apply obind_inv in E as (d & ED & E). injection E as <-. cbn [fst snd]. apply zs_slice in ED; [|exact H2]. split; [|now apply zs_skipn].
  rewrite !zs_app. auto using zs_repeat.
Qed.

Lemma ups_zero : forall m a b k r, zs (body m) -> fractional_upsampling (cops ROps) m a b k = Ret (Ok r) -> zs (body r).
Proof.
  intros m a b k r H E. unfold fractional_upsampling in E.
  apply obind_inv in E as (rows & ER & E). apply obind_inv in E as (u & _ & E). apply obind_inv in E as (bt & _ & E).
  apply obind_inv in E as (lf & _ & E). apply obind_inv in E as (rt & _ & E). apply obind_inv in E as (st & ES & E).
  destruct (negb _); [discriminate|]. destruct (_ || _); [discriminate|]. apply obind_inv in E as (q & _ & E).
  apply obind_inv in E as (pd & EP & E). apply obind_inv in E as (o & EO & E). destruct o as [out|]; cbn [unwrap obind] in E; [|discriminate].
  assert (out = r) by congruence. subst out. revert EO. apply conv_zero. left. revert EP. apply pad_zero. cbn [from_body body].
  assert (K : zs (fst st) /\ Forall zs (snd st)); [|tauto]. revert ES.
  apply (foldM_keep _ (fun st => zs (fst st) /\ Forall zs (snd st))); [|split; [constructor | eapply zs_chunks; [exact H | exact ER]]].
  intros (out, rest) i st' _ (H1 & H2) E0. cbn [fst snd] in *. destruct rest as [|row rest]; [discriminate|]. injection E0 as <-.
  inversion H2 as [|? ? R1 R2]; subst. cbn [fst snd]. change (dflt (cops ROps)) with 0%RC. split; [|exact R2].
  assert (Z : forall i j, zs (concat (repeat (repeat 0%RC i) j))).
  { intros. apply zs_concat, Forall_forall. intros x Hx. apply repeat_spec in Hx. subst. apply zs_repeat. }
  rewrite !zs_app. repeat split; auto. rewrite flat_map_concat_map. apply zs_concat, Forall_forall. intros x Hx.
  apply in_map_iff in Hx as (e & <- & He). rewrite zs_app. split; [exact (zs_repeat _)|]. constructor; [|exact (zs_repeat _)]. apply (proj1 (Forall_forall _ _) R1 _ He).
Qed.

Lemma local_zero : forall p f q d r, zs d -> local_d ROps p f q d = Ret r -> zs r.
Proof.
  intros p f q d r H. unfold local_d. apply zs_mapM. intros (x, y) z HI E. cbn [fst snd] in E. apply obind_inv in E as (v & _ & E).
  apply in_combine_r in HI. apply (proj1 (Forall_forall _ _) H) in HI. subst y. injection E as <-. symmetry. exact (ltac:(ring) : (v * 0 = 0)%RC).
Qed.
Lemma local_conj_zero : forall p f q d r, zs d -> local_d_conj ROps p f q d = Ret r -> zs r.
Proof.
  intros p f q d r H. unfold local_d_conj. apply zs_mapM. intros (x, y) z HI E. cbn [fst snd] in E. apply obind_inv in E as (v & _ & E).
  apply in_combine_r in HI. apply (proj1 (Forall_forall _ _) H) in HI. subst y. injection E as <-. symmetry. exact (ltac:(ring) : (conj v * 0 = 0)%RC).
Qed.

Lemma conj_zs : forall l, zs l -> zs (map (c_conj ROps) l).
Proof. intros l H. induction H as [|x l <- H IH]; constructor; auto. apply c_ext; cbn; ring. Qed.

Lemma dense_zero : forall p l x g gc dw db h hc, zs g -> zs gc -> dense_derivatives ROps p l x g gc = Ret (Ok (dw, db, h, hc)) -> zs dw /\ zs db /\ zs h /\ zs hc.
Proof.
  intros p l x g gc dw db h hc Hg Hc E. unfold dense_derivatives in E. destruct (negb _); [discriminate|]. destruct (negb _); [discriminate|].
  destruct x as [x|]; [|discriminate]. apply obind_inv in E as (q & _ & E). apply obind_inv in E as (a & EA & E). apply obind_inv in E as (b & EB & E).
  apply obind_inv in E as (rows & _ & E). apply obind_inv in E as (((w & c) & d) & EF & E).
  apply local_zero in EA; [|exact Hg]. apply local_conj_zero in EB; [|exact Hc].
  assert (K : zs (fst (fst (w, c, d))) /\ zs (snd (fst (w, c, d))) /\ zs (snd (w, c, d))).
  { revert EF. apply (foldM_keep _ (fun st => zs (fst (fst st)) /\ zs (snd (fst st)) /\ zs (snd st))).
    - intros ((s1, s2), s3) ((v, vc), row) s' HI (H1 & H2 & H3) E0. cbn [fst snd] in *. apply obind_inv in E0 as (nd & E1 & E0).
      injection E0 as <-. cbn [fst snd]. apply in_combine_l in HI. pose proof (in_combine_l _ _ _ _ HI) as I1. pose proof (in_combine_r _ _ _ _ HI) as I2.
      apply (proj1 (Forall_forall _ _) EA) in I1. apply (proj1 (Forall_forall _ _) EB) in I2. subst v vc.
      assert (Z : forall y : list RC, zs (map (fun e => c_mul ROps e (c_add ROps 0%RC 0%RC)) y)).
      { intros y. induction y as [|e y IH]; constructor; auto. symmetry. exact (ltac:(ring) : (e * (0 + 0) = 0)%RC). }
      split; [apply zs_app; auto|]. split; [apply zs_app; split; [exact H2 | constructor; [|constructor]]; symmetry; exact (ltac:(ring) : (0 + 0 = 0)%RC)|].
      eapply zs_add_slice_mut; [exact H3 | | exact E1]. apply Z.
    - cbn [fst snd]. split; [constructor|]. split; [constructor | apply zs_repeat]. }
  cbn [fst snd] in K. injection E as <- <- <- <-. destruct K as (K1 & K2 & K3). auto using conj_zs.
Qed.

Lemma reduce_zero : forall l r, zs l -> reduce (c_add ROps) l = Some r -> 0%RC = r.
Proof.
  intros l r H E. destruct H as [|x l <- H]; [discriminate|]. cbn [reduce] in E. assert (E' : fold_left (c_add ROps) l 0%RC = r) by congruence. clear E.
  induction H as [|x l <- H IH]; [exact E'|]. apply IH. cbn [fold_left] in E'. replace (c_add ROps 0%RC 0%RC) with 0%RC in E' by (apply c_ext; cbn; ring). exact E'.
Qed.

Lemma convl_zero : forall p l x g gc dw db h hc, zs g -> zs gc -> conv_derivatives ROps p l x g gc = Ret (Ok (dw, db, h, hc)) -> zs dw /\ zs db /\ zs h /\ zs hc.
Proof.
  intros p l x g gc dw db h hc Hg Hc E. unfold conv_derivatives in E. destruct x as [|input]; [discriminate|].
  apply obind_inv in E as (m & _ & E). apply obind_inv in E as (rk & _ & E). destruct rk as [k|]; cbn [unwrap obind] in E; [|discriminate].
  apply obind_inv in E as (px & _ & E). apply obind_inv in E as (py & _ & E). apply obind_inv in E as (o0 & _ & E). apply obind_inv in E as (o1 & _ & E).
  apply obind_inv in E as (q & _ & E). apply obind_inv in E as (a & EA & E). apply obind_inv in E as (b & EB & E). apply obind_inv in E as (osz & _ & E).
  apply obind_inv in E as (fs & _ & E). apply obind_inv in E as (st & EF & E).
  apply local_zero in EA; [|exact Hg]. apply local_conj_zero in EB; [|exact Hc].
  assert (K : zs (cb_a ROps st) /\ zs (cb_b ROps st) /\ zs (cb_dldk ROps st) /\ zs (cb_dldb ROps st) /\ zs (cb_dlda ROps st) /\ zs (cb_dldac ROps st)).
  { revert EF. apply (foldM_keep _ (fun st => zs (cb_a ROps st) /\ zs (cb_b ROps st) /\ zs (cb_dldk ROps st) /\ zs (cb_dldb ROps st) /\ zs (cb_dlda ROps st) /\ zs (cb_dldac ROps st))).
    2: { cbn. repeat split; auto; try constructor; apply zs_repeat. }
    intros s flt s' _ (H1 & H2 & H3 & H4 & H5 & H6) E0. unfold conv_filter_step in E0.
    apply obind_inv in E0 as (ba & E1 & E0). apply obind_inv in E0 as (bb & E2 & E0). apply zs_slice in E1; [|exact H1]. apply zs_slice in E2; [|exact H2].
    cbv zeta in E0. apply obind_inv in E0 as ((dk & dbl) & EOA & E0). apply obind_inv in E0 as ((na & nb) & EOB & E0).
    apply obind_inv in E0 as (db1 & E3 & E0). apply obind_inv in E0 as (nd & E4 & E0). apply obind_inv in E0 as (ndc & E5 & E0). injection E0 as <-. cbn.
    assert (OA : zs dk /\ zs dbl).
    { unfold conv_oper_a in EOA. apply obind_inv in EOA as (dk' & F1 & EOA). apply obind_inv in EOA as (dbl' & F2 & EOA). injection EOA as <- <-. split.
      - revert F1. apply zs_flat_mapM. intros ft y _ G. apply obind_inv in G as (r1 & G1 & G). destruct r1 as [t1|]; cbn [unwrap obind] in G; [|discriminate].
        apply obind_inv in G as (r2 & G2 & G). destruct r2 as [t2|]; cbn [unwrap obind] in G; [|discriminate]. apply obind_inv in G as (t & G3 & G). injection G as <-.
        apply conv_zero in G1; [|right; exact E1]. apply conv_zero in G2; [|right; exact E2].
        unfold add_mut in G3. destruct (_ && _); [discriminate|]. destruct (m_is_empty t1); [injection G3 as <-; exact G2|].
        destruct (m_is_empty t2); [injection G3 as <-; exact G1|]. injection G3 as <-. cbn [with_body body]. now apply zs_zip.
      - unfold add_slice in F2. cbn [from_body body] in F2. destruct (length ba =? 0); [injection F2 as <-; exact E2|]. destruct (negb _); cbn [unwrap] in F2; [discriminate|]. injection F2 as <-.
        apply Forall_forall. intros y Hy. apply in_map_iff in Hy as ((u, v) & <- & HI). pose proof (in_combine_l _ _ _ _ HI) as I1. pose proof (in_combine_r _ _ _ _ HI) as I2.
        apply (proj1 (Forall_forall _ _) E1) in I1. apply (proj1 (Forall_forall _ _) E2) in I2. subst u v. cbn [fst snd]. apply c_ext; cbn; ring. }
    assert (OB : zs na /\ zs nb).
    { unfold conv_oper_b in EOB. apply obind_inv in EOB as (fl & _ & EOB). apply obind_inv in EOB as (pa & F1 & EOB). apply obind_inv in EOB as (pb & F2 & EOB).
      apply obind_inv in EOB as (na' & F3 & EOB). apply obind_inv in EOB as (nb' & F4 & EOB). injection EOB as <- <-.
      apply pad_zero in F1; [|exact E1]. apply pad_zero in F2; [|exact E2]. split.
      - revert F3. apply zs_flat_mapM. intros ft y _ G. apply obind_inv in G as (r1 & G1 & G). destruct r1 as [t1|]; cbn [unwrap obind] in G; [|discriminate].
        injection G as <-. apply conv_zero in G1; auto.
      - revert F4. apply zs_flat_mapM. intros ft y _ G. apply obind_inv in G as (r1 & G1 & G). destruct r1 as [t1|]; cbn [unwrap obind] in G; [|discriminate].
        injection G as <-. apply conv_zero in G1; auto. }
    destruct OA as (OA1 & OA2), OB as (OB1 & OB2).
    split; [now apply zs_skipn|]. split; [now apply zs_skipn|]. split; [now apply zs_app|]. split.
    - apply zs_app. split; [exact H4|]. constructor; [|constructor]. destruct (reduce (c_add ROps) dbl) as [v|] eqn:ER; cbn [unwrap_opt] in E3; [|discriminate].
      injection E3 as <-. now apply (reduce_zero dbl).
    - split; [exact (zs_add_slice_mut _ _ _ H5 OB1 E4) | exact (zs_add_slice_mut _ _ _ H6 OB2 E5)]. }
  destruct K as (_ & _ & K). injection E as <- <- <- <-. exact K.
Qed.

Lemma red_zero : forall l x g gc dw db h hc, zs g -> zs gc -> red_derivatives ROps l x g gc = Ret (Ok (dw, db, h, hc)) -> zs dw /\ zs db /\ zs h /\ zs hc.
Proof.
  intros l x g gc dw db h hc Hg Hc E. unfold red_derivatives in E. destruct x as [|fs]; [discriminate|].
  apply obind_inv in E as (ch & _ & E). apply obind_inv in E as (ca & EA & E). apply obind_inv in E as (cb & EB & E).
  apply obind_inv in E as ((((c1 & c2) & na) & nb) & EF & E). injection E as <- <- <- <-.
  apply zs_chunks in EA; [|exact Hg]. apply zs_chunks in EB; [|exact Hc].
  assert (K : Forall zs c1 /\ Forall zs c2 /\ zs na /\ zs nb); [|destruct K as (_ & _ & K1 & K2); repeat split; auto; constructor].
  pose (I := fun st : list (list RC) * list (list RC) * list RC * list RC => Forall zs (fst (fst (fst st))) /\ Forall zs (snd (fst (fst st))) /\ zs (snd (fst st)) /\ zs (snd st)).
  change (I (c1, c2, na, nb)). revert EF. apply foldM_keep; [|unfold I; cbn; repeat split; auto; constructor].
  intros (((ca0, cb0), na0), nb0) ft s' _ (H1 & H2 & H3 & H4) E. cbn [fst snd] in *. unfold red_step in E.
  apply obind_inv in E as (f0 & _ & E). apply obind_inv in E as (f1 & _ & E). destruct ca0 as [|a ca1]; [discriminate|].
  apply obind_inv in E as (ma & E1 & E). apply obind_inv in E as (ua & E2 & E). destruct ua as [ua|]; cbn [unwrap obind] in E; [|discriminate].
  destruct cb0 as [|b cb1]; [discriminate|]. apply obind_inv in E as (mb & E3 & E). apply obind_inv in E as (ub & E4 & E). destruct ub as [ub|]; cbn [unwrap obind] in E; [|discriminate].
  injection E as <-. inversion H1; inversion H2; subst. unfold I. cbn [fst snd].
  assert (TM : forall l m, unwrap (to_matrix l f0 f1) = Ret m -> zs l -> zs (body m)).
  { intros l1 m E Z. unfold to_matrix in E. destruct (negb _); cbn [unwrap] in E; [discriminate|]. injection E as <-. exact Z. }
  apply TM in E1; [|assumption]. apply TM in E3; [|assumption]. apply ups_zero in E2; [|assumption]. apply ups_zero in E4; [|assumption].
  repeat split; auto; apply zs_app; auto.
Qed.

Lemma bp_zero : forall p xs g gc ws bs h hc, zs g -> zs gc -> bp ROps p xs g gc = Ret (ws, bs, h, hc) -> Forall zs ws /\ Forall zs bs /\ zs h /\ zs hc.
Proof.
  induction xs as [|[x l] xs IH]; intros g gc ws bs h hc Hg Hc E; cbn [bp] in E.
  - injection E as <- <- <- <-. auto.
  - apply obind_inv in E as ((((ws0 & bs0) & h0) & hc0) & E0 & E). destruct (IH _ _ _ _ _ _ Hg Hc E0) as (I1 & I2 & I3 & I4).
    destruct (layer_propagates ROps l).
    + apply obind_inv in E as (r & E1 & E). destruct r as [d|e]; cbn [unwrap obind] in E; [|discriminate].
      destruct d as (((dw & db) & h1) & hc1). injection E as <- <- <- <-.
      assert (K : zs dw /\ zs db /\ zs h1 /\ zs hc1).
      { destruct l as [l|l|l|l]; cbn [layer_derivatives] in E1; [exact (dense_zero _ _ _ _ _ _ _ _ _ I3 I4 E1) | exact (convl_zero _ _ _ _ _ _ _ _ _ I3 I4 E1)
          | exact (red_zero _ _ _ _ _ _ _ _ I3 I4 E1) | discriminate]. }
      destruct K as (K1 & K2 & K3 & K4). auto.
    + injection E as <- <- <- <-. repeat split; auto; constructor; auto; constructor.
Qed.
