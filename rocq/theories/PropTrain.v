(** * Properties of training steps: parameters, outcome, order (C52, C53, C55) *)
From Coq Require Import Reals Lra ZArith Permutation.
From Flocq Require Import Core BinarySingleNaN.
From Verif Require Import Base BaseFacts Float Matrix Cplx Random Act Input Loss Dense Conv Layer Dataset Network SpecMatrix MatrixFacts
  SpecLayer SpecConv SpecNet SpecEval DenseFacts LayerFacts NetFacts TrainFacts TrainDense RFloat CFacts BFloat BFacts PropDense PropConv PropComplex PropEval ExOps.
Local Notation P32 := Float.P32.
Local Notation P64 := Float.P64.
Local Open Scope nat_scope.

(** ** C52 *)
(** [params_len] counts the stored numbers. *)
Theorem C52_count : forall Fl (n : network Fl), Forall (layer_full Fl) n -> net_params_len Fl n = length (net_values Fl n).
Proof.
  intros Fl n H. unfold net_params_len, net_values.
  assert (G : forall a, fold_left (fun len l => len + (fst (layer_params_len Fl l) + snd (layer_params_len Fl l))) n a =
     a + length (concat (map (fun l => fst (layer_values Fl l) ++ snd (layer_values Fl l)) n))); [|apply G].
  induction H as [|l n Hl H IH]; intros a; cbn [fold_left map concat length]; [lia|].
  rewrite IH, !app_length.
  assert (E : fst (layer_params_len Fl l) = length (fst (layer_values Fl l)) /\ snd (layer_params_len Fl l) = length (snd (layer_values Fl l))).
  { destruct l as [l|l|l|l]; cbn [layer_params_len layer_values fst snd layer_full] in *.
    - split; [symmetry; exact Hl | reflexivity].
    - split; [|reflexivity]. unfold kernel_values. apply kernel_count. exact Hl.
    - split; reflexivity.
    - split; reflexivity. }
  destruct E as (-> & ->). lia.
Qed.
Print Assumptions C52_count.

(** Freshly initialised layers are full. *)
Theorem C52_init : forall Fl p pr n u f m seed seed' l a b,
  (dense_init Fl p pr (ShScalar n) u f m seed = Ret (seed', Ok l) -> layer_full Fl (LDense l)) /\
  (forall k, conv_init Fl p pr (ShMatrix n) u a b f m seed = Ret (seed', Ok k) -> layer_full Fl (LConv k)).
Proof.
  intros. split.
  - intros H. apply C39_init in H as (H & _). exact H.
  - intros k H. apply C43_init in H as (_ & _ & _ & H & _). apply Forall_forall. intros q Hq. apply H. exact Hq.
Qed.
Print Assumptions C52_init.

(** Any number of training steps, with any batches, losses and rates, keeps
    everything but the values of the parameters. *)
Theorem C52_history : forall Fl p n n', trained Fl p n n' ->
  map (arch_of Fl) n' = map (arch_of Fl) n /\ (Forall (layer_full Fl) n -> Forall (layer_full Fl) n').
Proof.
  intros Fl p n n' H. induction H as [n|n n' n'' data f lr H IH E]; [auto|].
  assert (S : map (arch_of Fl) n'' = map (arch_of Fl) n' /\ (Forall (layer_full Fl) n' -> Forall (layer_full Fl) n'')).
  { unfold net_gradient_opt in E. destruct (length n' <=? 1); [discriminate|].
    apply obind_inv in E as ((W & B) & EG & E). apply obind_inv in E as (s & _ & E). apply obind_inv in E as (m & EM & E).
    assert (m = n'') by congruence. subst m. clear E. cbn [fst snd] in EM.
    destruct (gradient_lengths Fl p n' data f W B EG) as (L1 & L2). destruct (grad_zero_length Fl n') as (L3 & L4).
    apply (f_equal (@length nat)) in L1. apply (f_equal (@length nat)) in L2. rewrite !map_length in L1, L2. rewrite L3 in L1. rewrite L4 in L2.
    clear - EM L1 L2. revert W B n'' L1 L2 EM. induction n' as [|l n' IH]; intros [|w W] [|b B] n'' L1 L2 EM; try discriminate.
    - cbn in EM. assert (n'' = []) as -> by congruence. auto.
    - cbn [combine mapM] in EM. apply obind_inv in EM as (l' & E1 & EM). apply obind_inv in EM as (r & E2 & EM).
      assert (l' :: r = n'') by congruence. subst n''. cbn [length] in L1, L2.
      destruct (IH W B r) as (I1 & I2); [lia | lia | exact E2 |].
      destruct (update_arch Fl s (w, b) l l' E1) as (A1 & A2). cbn [map]. rewrite A1, I1. split; [reflexivity|].
      intros HF. inversion HF; subst. constructor; auto. }
  destruct IH as (I1 & I2), S as (S1 & S2). split; [congruence | auto].
Qed.
Print Assumptions C52_history.

(** In terms of the accessors: depth, shapes and parameter counts. *)
Theorem C52_observed : forall Fl p n n', trained Fl p n n' ->
  length n' = length n /\ net_params_len Fl n' = net_params_len Fl n /\
  net_input_shape Fl n' = net_input_shape Fl n /\ net_output_shape Fl n' = net_output_shape Fl n /\
  (forall k, option_map (layer_input_shape Fl) (nth_error n' k) = option_map (layer_input_shape Fl) (nth_error n k)) /\
  (forall k, option_map (layer_output_shape Fl) (nth_error n' k) = option_map (layer_output_shape Fl) (nth_error n k)) /\
  (forall k, option_map (layer_params_len Fl) (nth_error n' k) = option_map (layer_params_len Fl) (nth_error n k)).
Proof.
  intros Fl p n n' H. destruct (C52_history Fl p n n' H) as (A & _).
  assert (K : forall (l l' : clayer Fl), arch_of Fl l' = arch_of Fl l -> layer_input_shape Fl l' = layer_input_shape Fl l /\
     layer_output_shape Fl l' = layer_output_shape Fl l /\ layer_params_len Fl l' = layer_params_len Fl l).
  { intros [l|l|l|l] [l'|l'|l'|l'] E; cbn [arch_of] in E; try discriminate.
    - injection E as E0 E1 _ _ _ EB _. cbn. unfold dense_input_shape, dense_output_shape, dense_params_len. rewrite E0, E1, EB. auto.
    - injection E as EI E0 E1 _ _ EB _ EK. cbn. unfold conv_input_shape, conv_output_shape, conv_params_len. rewrite EI, E0, EB.
      repeat split. f_equal.
      assert (G : forall (ks ks' : list (matrix (cplx (F Fl)))) (a : nat), map (fun m : matrix (cplx (F Fl)) => (sh0 m, sh1 m, cap0 m, cap1 m, length (body m))) ks' =
         map (fun m => (sh0 m, sh1 m, cap0 m, cap1 m, length (body m))) ks ->
         fold_left (fun acc (k : matrix (cplx (F Fl))) => acc + sh0 k * sh1 k) ks' a = fold_left (fun acc k => acc + sh0 k * sh1 k) ks a).
      { clear. induction ks as [|k ks IH]; intros [|k' ks'] a E; try discriminate; [reflexivity|]. cbn [map] in E. injection E as E0 E1 _ _ _ E.
        cbn [fold_left]. rewrite E0, E1. apply IH. exact E. }
      now apply G.
    - injection E as ->. auto.
    - injection E as ->. auto. }
  assert (M : forall (B : Type) (h : clayer Fl -> B), (forall l l', arch_of Fl l' = arch_of Fl l -> h l' = h l) -> map h n' = map h n).
  { intros B h Hh. clear - A Hh. revert n A. induction n' as [|l' n' IH]; intros [|l n] A; try discriminate; [reflexivity|].
    cbn [map] in A. injection A as A0 A. cbn [map]. rewrite (Hh _ _ A0), (IH _ A). reflexivity. }
  assert (O : forall (B : Type) (h : clayer Fl -> B) k, (forall l l', arch_of Fl l' = arch_of Fl l -> h l' = h l) ->
     option_map h (nth_error n' k) = option_map h (nth_error n k)).
  { intros B h k Hh. rewrite <- !nth_error_map. now rewrite (M B h Hh). }
  assert (L : length n' = length n) by (apply (f_equal (@length _)) in A; now rewrite !map_length in A).
  split; [exact L|]. split.
  { unfold net_params_len. assert (G : forall (l l' : network Fl) a, map (layer_params_len Fl) l' = map (layer_params_len Fl) l ->
      fold_left (fun len l => len + (fst (layer_params_len Fl l) + snd (layer_params_len Fl l))) l' a =
      fold_left (fun len l => len + (fst (layer_params_len Fl l) + snd (layer_params_len Fl l))) l a).
    { clear. induction l as [|k ks IH]; intros [|k' ks'] a E; try discriminate; [reflexivity|]. cbn [map] in E.
      cbn [fold_left]. replace (layer_params_len Fl k') with (layer_params_len Fl k) by congruence. apply IH. congruence. }
    apply G, M. intros l l' E. now apply K. }
  split.
  { specialize (O _ (layer_input_shape Fl) 0). unfold net_input_shape. destruct n, n'; try discriminate; [reflexivity|].
    cbn in O. f_equal. assert (Some (layer_input_shape Fl c0) = Some (layer_input_shape Fl c)) by (apply O; intros l l' E; now apply K). congruence. }
  split.
  { specialize (O _ (layer_output_shape Fl) (length n - 1)). unfold net_output_shape. rewrite L.
    destruct (length n =? 0); [reflexivity|].
    assert (E : option_map (layer_output_shape Fl) (nth_error n' (length n - 1)) = option_map (layer_output_shape Fl) (nth_error n (length n - 1)))
      by (apply O; intros l l' E; now apply K).
    destruct (nth_error n' (length n - 1)), (nth_error n (length n - 1)); cbn in *; try discriminate; [|reflexivity]. congruence. }
  repeat split; intros k; apply O; intros l l' E; now apply K.
Qed.
Print Assumptions C52_observed.

Definition ex_net : network ZFl := [LDense ex_dense; LDense ex_dense].
Example C52_ex : exists n', net_gradient_opt ZFl P32 ex_net ex_data MeanSquare (mkC 2 0)%Z = Ret (n', Ok tt) /\ n' <> ex_net /\
  Forall (layer_full ZFl) ex_net /\ net_params_len ZFl n' = 12.
Proof. eexists. split; [reflexivity|]. split; [discriminate|]. split; [repeat constructor | reflexivity]. Qed.

(** ** C53 *)
(** The other optimiser offered is not implemented: it never returns. *)
Theorem C53_mvn : forall Fl (n n' : network Fl), net_mvn_opt Fl n <> Ret n'.
Proof. intros Fl n n' H. discriminate H. Qed.
Print Assumptions C53_mvn.

Theorem C53_missing : forall Fl p (n : network Fl) data f lr,
  (length n <= 1 -> net_gradient_opt Fl p n data f lr = Ret (n, Err MissingLayers)) /\
  (2 <= length n -> net_gradient_opt Fl p n data f lr = Panic \/
                    exists n', net_gradient_opt Fl p n data f lr = Ret (n', Ok tt)).
Proof.
  intros Fl p n data f lr. unfold net_gradient_opt. split; intros L.
  - now rewrite (proj2 (Nat.leb_le _ _) L).
  - rewrite (proj2 (Nat.leb_gt _ _) L). destruct (net_gradient Fl p n data f) as [(W & B)|]; cbn [obind]; [|auto].
    destruct (c_div Fl lr _) as [s|]; cbn [obind]; [|auto]. destruct (mapM _ _) as [n'|]; cbn [obind]; [right; eauto | auto].
Qed.
Print Assumptions C53_missing.

Lemma tiny_nat : forall pr em Hp He z, (1 <= z)%Z -> ~ tiny (Bofz pr em Hp He z).
Proof.
  intros pr em Hp He z Hz (F & T).
  pose proof (binary_normalize_correct pr em Hp He mode_NE z 0 false) as H. cbn [round_mode] in H.
  change (binary_normalize pr em Hp He mode_NE z 0 false) with (Bofz pr em Hp He z) in H.
  destruct (Rlt_bool _ _).
  2: { apply overflow_not_finite in H. congruence. }
  destruct H as (E & _).
  assert (P1 : (0 < pr)%Z) by exact Hp. assert (P2 : (pr < em)%Z) by exact He.
  assert (G : (1 <= B2R (Bofz pr em Hp He z))%R).
  { rewrite E. apply round_ge_generic; [apply (fexp_correct pr em Hp) | apply valid_rnd_N | |].
    - change 1%R with (bpow radix2 0). apply generic_format_bpow. unfold SpecFloat.fexp, SpecFloat.emin. lia.
    - unfold F2R. cbn [Fnum Fexp bpow]. rewrite Rmult_1_r. now apply IZR_le. }
  assert (S : (bpow radix2 (3 - em - pr - 1) < bpow radix2 0)%R) by (apply bpow_lt; lia).
  change (bpow radix2 0) with 1%R in S. nra.
Qed.

Lemma tiny_zero : forall pr em Hp He, tiny (Bofz pr em Hp He 0).
Proof.
  intros pr em Hp He. split; [reflexivity|]. change (B2R (Bofz pr em Hp He 0)) with 0%R. rewrite pow_i by lia.
  apply Rlt_le, bpow_gt_0.
Qed.

(** Dividing the rate by the number of points panics exactly when there are none. *)
Theorem C53_rate : forall N,
  (forall lr : cplx (F ROps), c_div ROps lr (c_of_nat ROps N) = Panic <-> N = 0) /\
  (forall L (lr : cplx b32), c_div (B32Ops L) lr (c_of_nat (B32Ops L) N) = Panic <-> N = 0) /\
  (forall L (lr : cplx b64), c_div (B64Ops L) lr (c_of_nat (B64Ops L) N) = Panic <-> N = 0).
Proof.
  intros N. split; [|split].
  - intros lr. unfold c_div, c_of_nat, fofnat, fsq. cbn [re im feqb fadd fmul fofN ROps]. change (fzero ROps) with 0%R.
    rewrite nat_N_Z, <- INR_IZR_INZ. destruct (Reqb _ _) eqn:E.
    + apply Reqb_eq in E. split; auto. intros _. destruct N as [|N]; auto. exfalso. pose proof (lt_0_INR (S N) ltac:(lia)). nra.
    + apply Reqb_neq in E. split; [discriminate|]. intros ->. exfalso. apply E. cbn. ring.
  - intros L lr. unfold B32Ops. rewrite C05_division_panics_iff. cbn [c_of_nat re im fofnat fofN BOps]. unfold fofnat. cbn [fofN BOps].
    split.
    + intros (T & _). destruct N as [|N]; auto. exfalso. revert T. apply tiny_nat. lia.
    + intros ->. split; apply tiny_zero.
  - intros L lr. unfold B64Ops. rewrite C05_division_panics_iff. cbn [c_of_nat re im fofnat fofN BOps]. unfold fofnat. cbn [fofN BOps].
    split.
    + intros (T & _). destruct N as [|N]; auto. exfalso. revert T. apply tiny_nat. lia.
    + intros ->. split; apply tiny_zero.
Qed.
Print Assumptions C53_rate.

(** An empty batch panics. *)
Theorem C53_empty_batch : forall p f,
  (forall (n : network ROps) targets lr, 2 <= length n -> net_gradient_opt ROps p n (mkData [] targets) f lr = Panic) /\
  (forall L (n : network (B32Ops L)) targets lr, 2 <= length n -> net_gradient_opt (B32Ops L) p n (mkData [] targets) f lr = Panic) /\
  (forall L (n : network (B64Ops L)) targets lr, 2 <= length n -> net_gradient_opt (B64Ops L) p n (mkData [] targets) f lr = Panic).
Proof.
  assert (G : forall Fl p (n : network Fl) f ts lr, 2 <= length n -> c_div Fl lr (c_of_nat Fl 0) = Panic ->
     net_gradient_opt Fl p n (mkData [] ts) f lr = Panic).
  { intros Fl p n f ts lr L E. unfold net_gradient_opt. rewrite (proj2 (Nat.leb_gt _ _) L). unfold net_gradient.
    cbn [ds_points_iter ds_inputs ds_target combine foldM obind length]. now rewrite E. }
  intros p f. destruct (C53_rate 0) as (H1 & H2 & H3). split; [|split].
  - intros n ts lr L. apply G; auto. exact (proj2 (H1 lr) eq_refl).
  - intros L n ts lr HL. apply G; [exact HL|]. exact (proj2 (H2 L lr) eq_refl).
  - intros L n ts lr HL. apply G; [exact HL|]. exact (proj2 (H3 L lr) eq_refl).
Qed.
Print Assumptions C53_empty_batch.

(** A dense network without ModZ can be trained on every batch of points of the
    right sizes (targets may be longer than the output). *)
Theorem C53_dense : forall Fl p (ls : list (dense Fl)) w xs ts f lr s,
  2 <= length ls -> widths_fit Fl ls w -> (forall l, In l ls -> d_func l <> ModZ) ->
  (forall x, In x xs -> length x = w) -> (forall t, In t ts -> out_width Fl ls w <= length t) ->
  c_div Fl lr (c_of_nat Fl (length xs)) = Ret s ->
  exists ls', net_gradient_opt Fl p (map LDense ls) (mkData (map (@IOScalar _) xs) (map (@IOScalar _) ts)) f lr = Ret (map LDense ls', Ok tt) /\
    widths_fit Fl ls' w /\ map d_func ls' = map d_func ls /\ map (units Fl) ls' = map (units Fl) ls.
Proof.
  intros Fl p ls w xs ts f lr s L2 W NM HX HT HS. unfold net_gradient_opt, net_gradient. rewrite map_length, (proj2 (Nat.leb_gt _ _) L2).
  cbn [ds_points_iter ds_inputs ds_target]. destruct (dense_grad_zero Fl ls) as (Z1 & Z2).
  rewrite (dense_bsizes Fl ls (widths_wf Fl ls w W)) in Z2.
  destruct (grad_zero Fl (map LDense ls)) as (W0, B0). cbn [fst snd] in Z1, Z2.
  destruct (dense_gradient Fl p ls w f (combine (map (@IOScalar _) xs) (map (@IOScalar _) ts)) W0 B0) as (WW & BB & E & S1 & S2); auto.
  { intros ->. inversion L2. }
  { intros [a b] H. pose proof (in_combine_l _ _ _ _ H) as Ha. pose proof (in_combine_r _ _ _ _ H) as Hb.
    apply in_map_iff in Ha as (x & <- & Hx). apply in_map_iff in Hb as (t & <- & Ht). exists x, t. auto. }
  rewrite E. cbn [obind]. rewrite map_length, HS. cbn [obind fst snd].
  destruct (dense_updates Fl ls w s WW BB W S1 S2) as (ls' & -> & W' & F1 & F2 & F3). cbn [obind].
  exists ls'. auto.
Qed.
Print Assumptions C53_dense.

(** One target shorter than the output is enough to panic. *)
Theorem C53_short_target : forall Fl p (ls : list (dense Fl)) l w xs ts k x t f lr,
  1 <= length ls -> widths_fit Fl (ls ++ [l]) w -> (forall q, In q (ls ++ [l]) -> d_func q <> ModZ) ->
  nth_error xs k = Some x -> nth_error ts k = Some t -> length x = w -> length t < units Fl l ->
  net_gradient_opt Fl p (map LDense (ls ++ [l])) (mkData (map (@IOScalar _) xs) (map (@IOScalar _) ts)) f lr = Panic.
Proof.
  intros Fl p ls l w xs ts k x t f lr L1 W NM Hx Ht X T. unfold net_gradient_opt, net_gradient.
  rewrite map_length, app_length. cbn [length]. rewrite (proj2 (Nat.leb_gt _ _)) by lia. cbn [ds_points_iter ds_inputs ds_target].
  assert (PP : pgrad Fl p (map LDense (ls ++ [l])) f (IOScalar x, IOScalar t) = Panic) by (eapply dense_short; eauto).
  assert (G : forall its W0 B0, slots Fl (map LDense (ls ++ [l])) W0 -> slots Fl (map LDense (ls ++ [l])) B0 ->
     In (IOScalar x, IOScalar t) its -> foldM (point_step Fl p (map LDense (ls ++ [l])) f) its (W0, B0) = Panic).
  { induction its as [|it its IH]; intros W0 B0 S1 S2 HI; [destruct HI|]. cbn [foldM].
    destruct (point_step Fl p (map LDense (ls ++ [l])) f (W0, B0) it) as [(W1 & B1)|] eqn:E; cbn [obind]; [|reflexivity].
    destruct HI as [->|HI].
    - rewrite point_step_eq, PP in E by auto. discriminate.
    - destruct (point_step_lengths Fl p _ _ _ _ _ _ _ S1 S2 E) as (E1 & E2). apply IH; auto; eapply slots_lengths; eauto. }
  destruct (grad_zero_slots Fl (map LDense (ls ++ [l]))) as (Z1 & Z2). destruct (grad_zero Fl (map LDense (ls ++ [l]))) as (W0, B0).
  rewrite G; auto. eapply nth_error_In with (n := k). apply combine_nth_error; rewrite nth_error_map; [now rewrite Hx | now rewrite Ht].
Qed.
Print Assumptions C53_short_target.

Example C53_ex : widths_fit ZFl [ex_dense; ex_dense] 2 /\ (forall l, In l [ex_dense; ex_dense] -> d_func l <> ModZ) /\
  c_div ZFl (mkC 2 0)%Z (c_of_nat ZFl 2) = Ret (mkC 1 0)%Z /\
  net_gradient_opt ZFl P32 ex_net ex_data MeanSquare (mkC 2 0)%Z =
    net_gradient_opt ZFl P32 (map LDense [ex_dense; ex_dense])
      (mkData (map (@IOScalar _) [[mkC 1 0; mkC 1 1]; [mkC 0 0; mkC 1 1]]%Z) (map (@IOScalar _) [[mkC 3 0; mkC 0 (-9)]; [mkC 7 0; mkC 0 1]]%Z)) MeanSquare (mkC 2 0)%Z.
Proof. repeat split; try discriminate. intros l [<-|[<-|[]]]; discriminate. Qed.

(** ** C55 *)
(** A batch given as a list of points. *)
Definition batch {A B} (pts : list (IOType A * IOType B)) : dataset A B := mkData (map fst pts) (map snd pts).

Lemma batch_points : forall {A B} (pts : list (IOType A * IOType B)), combine (ds_inputs (batch pts)) (ds_target (batch pts)) = pts.
Proof. intros A B pts. cbn. induction pts as [|[a b] pts IH]; [reflexivity|]. cbn. now rewrite IH. Qed.

Lemma zip_swap : forall (a u v : list (cplx (F ROps))), length u = length v ->
  zip_assign (c_add_assign ROps) (zip_assign (c_add_assign ROps) a u) v = zip_assign (c_add_assign ROps) (zip_assign (c_add_assign ROps) a v) u.
Proof.
  induction a as [|x a IH]; intros [|y u] [|z v] H; try discriminate; cbn [zip_assign]; try reflexivity.
  cbn [length] in H. rewrite IH by lia. f_equal. unfold c_add_assign. cbn [re im fadd ROps]. f_equal; ring.
Qed.

Lemma addv_swap : forall W u v : list (list (cplx (F ROps))),
  (W1 <- addv ROps W u ;; addv ROps W1 v) = (W1 <- addv ROps W v ;; addv ROps W1 u).
Proof.
  induction W as [|w W IH]; intros [|d u] [|e v]; cbn [addv obind]; try reflexivity.
  - destruct (unwrap _); cbn [obind]; [|reflexivity]. destruct (addv ROps W v); reflexivity.
  - destruct (unwrap _); cbn [obind]; [|reflexivity]. destruct (addv ROps W u); reflexivity.
  - specialize (IH u v). unfold add_slice_mut.
    destruct (Nat.eqb_spec (length w) (length d)) as [E1|E1]; destruct (Nat.eqb_spec (length w) (length e)) as [E2|E2];
      cbn [negb unwrap obind].
    + destruct (addv ROps W u) as [W1|]; destruct (addv ROps W v) as [W2|]; cbn [obind addv] in *; unfold add_slice_mut;
        rewrite ?zip_assign_length, ?(proj2 (Nat.eqb_eq _ _) E1), ?(proj2 (Nat.eqb_eq _ _) E2); cbn [negb unwrap obind].
      * rewrite IH. change (add_assign (cops ROps)) with (c_add_assign ROps). rewrite zip_swap by congruence. reflexivity.
      * rewrite IH. reflexivity.
      * rewrite <- IH. reflexivity.
      * reflexivity.
    + destruct (addv ROps W u) as [W1|]; cbn [obind addv]; [|reflexivity]. unfold add_slice_mut. rewrite zip_assign_length.
      apply Nat.eqb_neq in E2. rewrite E2. reflexivity.
    + destruct (addv ROps W v) as [W1|]; cbn [obind addv]; [|reflexivity]. unfold add_slice_mut. rewrite zip_assign_length.
      apply Nat.eqb_neq in E1. rewrite E1. reflexivity.
    + reflexivity.
Qed.

(** In exact arithmetic the batch gradient and the trained network do not depend
    on the order of the points: same parameters, or a panic for both. *)
Theorem C55_training : forall p (n : network ROps) pts pts' f lr, Permutation pts pts' ->
  net_gradient_opt ROps p n (batch pts) f lr = net_gradient_opt ROps p n (batch pts') f lr.
Proof.
  intros p n pts pts' f lr P.
  assert (G : net_gradient ROps p n (batch pts) f = net_gradient ROps p n (batch pts') f).
  { unfold net_gradient, ds_points_iter. rewrite !batch_points. destruct (grad_zero_slots ROps n) as (S1 & S2).
    apply (foldM_perm (fun g => slots ROps n (fst g) /\ slots ROps n (snd g))); auto.
    - intros (W & B) a b (H1 & H2). cbn [fst snd] in *. rewrite !point_step_eq by auto.
      destruct (pgrad ROps p n f a) as [(wa & ba)|] eqn:PA; destruct (pgrad ROps p n f b) as [(wb & bb)|] eqn:PB; cbn [obind].
      + assert (ST : forall W' B' wx bx wy by0 it, pgrad ROps p n f it = Ret (wy, by0) ->
           (s' <- (W1 <- addv ROps W' wx ;; B1 <- addv ROps B' bx ;; Ret (W1, B1)) ;; point_step ROps p n f s' it) =
           (W1 <- addv ROps W' wx ;; B1 <- addv ROps B' bx ;; point_step ROps p n f (W1, B1) it)).
        { intros. destruct (addv ROps W' wx); cbn [obind]; [|reflexivity]. destruct (addv ROps B' bx); reflexivity. }
        rewrite !(ST _ _ _ _ wb bb b PB), !(ST _ _ _ _ wa ba a PA).
        assert (K : forall wx bx wy by0 it, pgrad ROps p n f it = Ret (wy, by0) ->
           (W1 <- addv ROps W wx ;; B1 <- addv ROps B bx ;; point_step ROps p n f (W1, B1) it) =
           (W2 <- (W1 <- addv ROps W wx ;; addv ROps W1 wy) ;; B2 <- (B1 <- addv ROps B bx ;; addv ROps B1 by0) ;; Ret (W2, B2))).
        { intros wx bx wy by0 it E. destruct (addv ROps W wx) as [W1|] eqn:A1; cbn [obind]; [|reflexivity].
          destruct (addv ROps B bx) as [B1|] eqn:A2; cbn [obind]; [|destruct (addv ROps W1 wy); reflexivity].
          apply addv_lengths in A1. apply addv_lengths in A2.
          rewrite point_step_eq by (eapply slots_lengths; eauto). rewrite E. reflexivity. }
        rewrite (K wa ba wb bb b PB), (K wb bb wa ba a PA), (addv_swap W wa wb), (addv_swap B ba bb). reflexivity.
      + destruct (addv ROps W wa) as [W1|] eqn:A1; cbn [obind]; [|reflexivity]. destruct (addv ROps B ba) as [B1|] eqn:A2; cbn [obind]; [|reflexivity].
        apply addv_lengths in A1. apply addv_lengths in A2. rewrite point_step_eq by (eapply slots_lengths; eauto). rewrite PB. reflexivity.
      + destruct (addv ROps W wb) as [W1|] eqn:A1; cbn [obind]; [|reflexivity]. destruct (addv ROps B bb) as [B1|] eqn:A2; cbn [obind]; [|reflexivity].
        apply addv_lengths in A1. apply addv_lengths in A2. rewrite point_step_eq by (eapply slots_lengths; eauto). rewrite PA. reflexivity.
      + reflexivity.
    - intros (W & B) a (W' & B') (H1 & H2) E. destruct (point_step_lengths ROps p n f W B a W' B' H1 H2 E) as (L1 & L2).
      split; cbn [fst snd]; eapply slots_lengths; eauto. }
  unfold net_gradient_opt. rewrite G. cbn [batch ds_inputs]. rewrite !map_length, (Permutation_length P). reflexivity.
Qed.
Print Assumptions C55_training.

Lemma mapM_perm : forall {A B} (f : A -> outcome B) l l', Permutation l l' ->
  (mapM f l = Panic /\ mapM f l' = Panic) \/ (exists r r', mapM f l = Ret r /\ mapM f l' = Ret r' /\ Permutation r r').
Proof.
  intros A B f l l' P. induction P as [|a l l' P IH|a b l|l l' l'' P1 IH1 P2 IH2]; cbn [mapM].
  - right. exists [], []. auto.
  - destruct (f a) as [x|]; cbn [obind]; [|auto]. destruct IH as [(E1 & E2)|(r & r' & E1 & E2 & P')]; rewrite E1, E2; cbn [obind]; [auto|].
    right. exists (x :: r), (x :: r'). auto.
  - destruct (f a) as [x|], (f b) as [y|]; cbn [obind]; auto. destruct (mapM f l) as [r|]; cbn [obind]; [|auto].
    right. exists (y :: x :: r), (x :: y :: r). auto using perm_swap.
  - destruct IH1 as [(E1 & E2)|(r & r' & E1 & E2 & P')]; destruct IH2 as [(E3 & E4)|(r2 & r2' & E3 & E4 & P'')]; auto; try congruence.
    right. exists r, r2'. repeat split; auto. assert (r' = r2) by congruence. subst. etransitivity; eauto.
Qed.

Theorem C55_loss : forall p (n : network ROps) pts pts' f, Permutation pts pts' ->
  net_loss ROps p n (batch pts) f = net_loss ROps p n (batch pts') f.
Proof.
  intros p n pts pts' f P. unfold net_loss, ds_points_iter. rewrite !batch_points.
  destruct (mapM_perm (fun it => pred <-! net_forward ROps p n (fst it) ;; unwrap (loss ROps (snd it) pred f)) pts pts' P)
    as [(E1 & E2)|(r & r' & E1 & E2 & P')].
  - rewrite E1, E2. reflexivity.
  - rewrite E1, E2. cbn [obind]. rewrite (Permutation_length P').
    assert (S : reduce (fadd ROps) r = reduce (fadd ROps) r'); [|now rewrite S].
    assert (F : forall (l : list R) a, fold_left Rplus l a = (a + fold_left Rplus l 0)%R).
    { induction l as [|x l IH]; intros a; cbn [fold_left]; [ring|]. rewrite IH, (IH (0 + x)%R). ring. }
    assert (SP : forall l l' : list R, Permutation l l' -> fold_left Rplus l 0%R = fold_left Rplus l' 0%R).
    { intros l l' Q. induction Q as [|x l l' Q IH|x y l|l l' l'' Q1 IH1 Q2 IH2]; cbn [fold_left]; auto.
      - rewrite (F l), (F l'), IH. reflexivity.
      - rewrite (F l (0 + y + x)%R), (F l (0 + x + y)%R). ring.
      - congruence. }
    destruct r as [|x r]; destruct r' as [|x' r'].
    + reflexivity.
    + apply Permutation_nil in P'. discriminate.
    + symmetry in P'. apply Permutation_nil in P'. discriminate.
    + cbn [reduce]. f_equal. apply SP in P'. cbn [fold_left] in P'. change (fold_left Rplus r x = fold_left Rplus r' x').
      change (fold_left Rplus r (0 + x)%R = fold_left Rplus r' (0 + x')%R) in P'. rewrite !Rplus_0_l in P'. exact P'.
Qed.
Print Assumptions C55_loss.

(** The accuracy does not depend on it even in floating point. *)
Theorem C55_accuracy : forall Fl p (n : network Fl) pts pts', Permutation pts pts' ->
  net_max_pred_test Fl p n (batch pts) = net_max_pred_test Fl p n (batch pts').
Proof.
  intros Fl p n pts pts' P. unfold net_max_pred_test, ds_points_iter. rewrite !batch_points.
  assert (LT : length (ds_target (batch pts)) = length (ds_target (batch pts'))).
  { cbn [batch ds_target]. rewrite !map_length. now apply Permutation_length. }
  rewrite LT.
  match goal with |- obind (mapM ?F pts) _ = _ => destruct (mapM_perm F pts pts' P) as [(E1 & E2)|(r & r' & E1 & E2 & P')] end.
  - rewrite E1, E2. reflexivity.
  - rewrite E1, E2. cbn [obind].
    assert (SP : forall l l' a, Permutation l l' -> fold_left Nat.add l a = fold_left Nat.add l' a).
    { intros l l' a Q. revert a. induction Q as [|x l l' Q IH|x y l|l l' l'' Q1 IH1 Q2 IH2]; intros a; cbn [fold_left]; auto.
      - replace (a + y + x) with (a + x + y) by lia. reflexivity.
      - now rewrite IH1. }
    now rewrite (SP _ _ _ P').
Qed.
Print Assumptions C55_accuracy.

Example C55_ex : Permutation [(IOScalar [mkC 1 0; mkC 1 1], IOScalar [mkC 3 0; mkC 0 (-9)]); (IOScalar [mkC 0 0; mkC 1 1], IOScalar [mkC 7 0; mkC 0 1])]%Z
  [(IOScalar [mkC 0 0; mkC 1 1], IOScalar [mkC 7 0; mkC 0 1]); (IOScalar [mkC 1 0; mkC 1 1], IOScalar [mkC 3 0; mkC 0 (-9)])]%Z.
Proof. apply perm_swap. Qed.
