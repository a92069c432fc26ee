(** * Batches, updates and descent *)
From Coq Require Import Reals Lra Psatz.
From Coquelicot Require Import Coquelicot.
From Verif Require Import Base BaseFacts Float Matrix Cplx Random Act Input Loss Dense Conv Layer Dataset Network RFloat SpecMatrix MatrixFacts CFacts
  SpecCalculus CalcFacts SpecLoss LossFacts PropLoss SpecLayer DenseFacts LayerCalc LayerFacts SpecConv ConvFacts SpecNet NetFacts
  TrainFacts TrainDense PropTrain SpecGrad GradFacts.
Local Open Scope nat_scope.
Local Notation re := Cplx.re.
Local Notation im := Cplx.im.

(** ** Rates are additive in the gradient *)

Lemma zip_nth : forall {A B} (op : A -> B -> A) (l : list A) (r : list B) k d e, k < length l -> k < length r ->
  nth k (zip_assign op l r) d = op (nth k l d) (nth k r e).
Proof.
  intros A B op. induction l as [|a l IH]; intros [|b r] k d e H1 H2; cbn [length] in *; try lia.
  destruct k; cbn [zip_assign nth]; [reflexivity|]. apply IH; lia.
Qed.

Lemma rate_add : forall (l r v : list RC), length l = length v -> length r = length v ->
  rate (zip_assign (add_assign (cops ROps)) l r) v = (rate l v + rate r v)%R.
Proof.
  intros l r v L1 L2. rewrite !rate_csum.
  match goal with |- (2 * re ?a = 2 * re ?b + 2 * re ?c)%R => assert (E : a = (b + c)%RC) end.
  - rewrite <- csum_add. apply csum_ext. intros k Hk.
    rewrite (zip_nth _ l r k 0%RC 0%RC) by lia. change (add_assign (cops ROps) ?a ?b) with (a + b)%RC. ring.
  - rewrite E. cbn [re c_add]. cbn. ring.
Qed.

Lemma addv_some : forall (W ws : list (list RC)), map (@length RC) W = map (@length RC) ws ->
  exists W', addv ROps W ws = Ret W' /\ map (@length RC) W' = map (@length RC) W.
Proof. intros W ws E. destruct (addv_ok ROps W ws E) as (W' & E1 & _). exists W'. split; [exact E1 | eapply addv_lengths; exact E1]. Qed.

Lemma addv_rate : forall V W ws W' B bs B', 
  map (@length RC) W = map (fun v => length (fst v)) V -> map (@length RC) ws = map (fun v => length (fst v)) V ->
  map (@length RC) B = map (fun v => length (snd v)) V -> map (@length RC) bs = map (fun v => length (snd v)) V ->
  addv ROps W ws = Ret W' -> addv ROps B bs = Ret B' -> net_rate W' B' V = (net_rate W B V + net_rate ws bs V)%R.
Proof.
  induction V as [|v V IH]; intros W ws W' B bs B' L1 L2 L3 L4 E1 E2.
  - destruct W; [|discriminate]. destruct ws; [|discriminate]. destruct B; [|discriminate]. destruct bs; [|discriminate].
    cbn in E1, E2. injection E1 as <-. cbn. ring.
  - destruct W as [|w W]; [discriminate|]. destruct ws as [|d ws]; [discriminate|]. destruct B as [|b B]; [discriminate|]. destruct bs as [|e bs]; [discriminate|].
    cbn [map] in *.
    assert (H1 : length w = length (fst v) /\ map (@length RC) W = map (fun v => length (fst v)) V) by (split; congruence).
    assert (H2 : length d = length (fst v) /\ map (@length RC) ws = map (fun v => length (fst v)) V) by (split; congruence).
    assert (H3 : length b = length (snd v) /\ map (@length RC) B = map (fun v => length (snd v)) V) by (split; congruence).
    assert (H4 : length e = length (snd v) /\ map (@length RC) bs = map (fun v => length (snd v)) V) by (split; congruence).
    clear L1 L2 L3 L4. cbn [addv] in E1, E2. unfold add_slice_mut in E1, E2.
    destruct H1 as (h1 & H1), H2 as (h2 & H2), H3 as (h3 & H3), H4 as (h4 & H4).
    assert (X1 : (length w =? length d) = true) by (apply Nat.eqb_eq; congruence).
    assert (X2 : (length b =? length e) = true) by (apply Nat.eqb_eq; congruence).
    change (cplx (F ROps)) with RC in E1, E2.
    rewrite X1 in E1. rewrite X2 in E2. cbn [negb unwrap obind] in E1, E2.
    apply obind_inv in E1 as (W1 & F1 & E1). apply obind_inv in E2 as (B1 & F2 & E2).
    injection E1 as <-. injection E2 as <-.
    cbn [net_rate]. rewrite !rate_add by assumption. rewrite (IH W ws W1 B bs B1) by assumption. ring.
Qed.

Lemma rate_zeros : forall n v, rate (repeat 0%RC n) v = 0%R.
Proof.
  intros n v. rewrite rate_csum, csum_zero; [cbn; ring|]. intros k _.
  assert (E : nth k (repeat 0%RC n) 0%RC = 0%RC) by apply nth_repeat. rewrite E. ring.
Qed.

(** ** Parameter counts *)
Lemma full_params : forall Fl (l : clayer Fl), layer_full Fl l ->
  fst (layer_params_len Fl l) = length (fst (layer_values Fl l)) /\ snd (layer_params_len Fl l) = length (snd (layer_values Fl l)).
Proof.
  intros Fl l H. destruct l as [l|l|l|l]; cbn [layer_params_len layer_values fst snd layer_full] in *.
  - split; [symmetry; exact H | reflexivity].
  - split; [|reflexivity]. unfold kernel_values. apply kernel_count. exact H.
  - split; reflexivity.
  - split; reflexivity.
Qed.

Lemma grad_zero_sizes : forall Fl (n : network Fl), Forall (layer_full Fl) n ->
  map (@length _) (fst (grad_zero Fl n)) = map (fun l => length (fst (layer_values Fl l))) n /\
  map (@length _) (snd (grad_zero Fl n)) = map (fun l => length (snd (layer_values Fl l))) n.
Proof.
  intros Fl n H. unfold grad_zero. cbn [fst snd]. rewrite !map_map.
  split; apply map_ext_in; intros l Hl; rewrite Forall_forall in H; specialize (H l Hl); destruct (full_params Fl l H) as (E1 & E2).
  - destruct (layer_propagates Fl l) eqn:P; [rewrite repeat_length; exact E1|]. destruct l; (discriminate P || reflexivity).
  - destruct (layer_propagates Fl l) eqn:P; [rewrite repeat_length; exact E2|]. destruct l; (discriminate P || reflexivity).
Qed.

Lemma grad_zero_rate : forall (n : network ROps) V, net_rate (fst (grad_zero ROps n)) (snd (grad_zero ROps n)) V = 0%R.
Proof.
  induction n as [|l n IH]; intros [|v V]; try reflexivity. unfold grad_zero in *. cbn [fst snd map net_rate] in *. rewrite IH.
  change (c_default ROps) with (0%RC).
  destruct (layer_propagates ROps l); rewrite ?rate_zeros; [ring|].
  change (@nil (cplx (F ROps))) with (repeat (0%RC : RC) 0). rewrite !rate_zeros. ring.
Qed.

Lemma moves_sizes : forall Ls V, net_moves Ls V ->
  map (fun l => length (fst (layer_values ROps l))) (at_time Ls 0%R) = map (fun v => length (fst v)) V /\
  map (fun l => length (snd (layer_values ROps l))) (at_time Ls 0%R) = map (fun v => length (snd v)) V.
Proof.
  intros Ls V M. induction M as [|L v Ls V (_ & [D1 _] & [D2 _]) M (I1 & I2)]; [split; reflexivity|].
  cbn [at_time map] in *. fold (at_time Ls 0%R). rewrite I1, I2. specialize (D1 0%R). specialize (D2 0%R). cbn beta in D1, D2.
  split; f_equal; assumption.
Qed.

Lemma const_vderiv : forall l : list RC, vderiv (fun _ => l) (repeat 0%RC (length l)).
Proof.
  intros l. split; [intros; now rewrite repeat_length|]. intros k _. 
  assert (E : nth k (repeat (0%RC : RC) (length l)) (c_default ROps) = 0%RC) by apply nth_repeat. rewrite E. apply cderiv_const.
Qed.

Lemma const_moves : forall l : clayer ROps, layer_moves (fun _ => l)
  (repeat 0%RC (length (fst (layer_values ROps l))), repeat 0%RC (length (snd (layer_values ROps l)))).
Proof. intros l. split; [reflexivity|]. split; apply const_vderiv. Qed.

Lemma smooth_full : forall p ls first x, smooth_path p first ls x -> Forall (layer_full ROps) ls.
Proof.
  intros p ls. induction ls as [|l ls IH]; intros first x S; constructor; destruct S as (A & _ & C & N).
  - destruct l as [l|l|l|l]; destruct x as [v|m]; cbn [at_preacts layer_full] in *; try contradiction; auto.
    + apply A.
    + destruct A as (a & b & r & c & W & _). apply Forall_forall. intros k Hk. apply W, Hk.
  - destruct (layer_chain p (fun _ => l) _ (fun _ => x) (repeat 0%RC (length (io_values x))) first (const_moves l)) as (y & vy & E & _).
    + split; [reflexivity | apply const_vderiv].
    + intros _. now rewrite repeat_length.
    + exact A.
    + exact C.
    + apply (IH false (y 0%R)). apply N. now apply locally_singleton in E.
Qed.

(** ** One data point *)
Lemma loss_io : forall (t y : IOType RC) f, fits_target t y ->
  loss ROps t y f = loss ROps (IOScalar (io_values t)) (IOScalar (io_values y)) f /\
  d_loss ROps t y f = d_loss ROps (IOScalar (io_values t)) (IOScalar (io_values y)) f.
Proof.
  intros t y f (H & _). destruct t as [t|t], y as [y|y]; try contradiction; [split; reflexivity|].
  cbn [io_values loss d_loss]. unfold map_values. rewrite <- !flat_map_concat_map. split; reflexivity.
Qed.

Lemma point_grad : forall p Ls V, net_moves Ls V -> Ls <> [] -> forall x tg n,
  smooth_path p true (at_time Ls 0%R) x ->
  (forall y, net_forward ROps p (at_time Ls 0%R) x = Ret (Ok y) -> fits_target tg y /\ length (io_values y) = n) -> 2 <= n ->
  exists ws bs (l : R -> R), pgrad ROps p (at_time Ls 0%R) MeanSquare (x, tg) = Ret (ws, bs) /\
    map (@length RC) ws = map (fun v => length (fst v)) V /\ map (@length RC) bs = map (fun v => length (snd v)) V /\
    locally 0%R (fun t => exists y, net_forward ROps p (at_time Ls t) x = Ret (Ok y) /\ loss ROps tg y MeanSquare = Ok (l t)) /\
    is_derive l 0%R (net_rate ws bs V / (INR n - 1))%R.
Proof.
  intros p Ls V M NE x tg n SP FT N2.
  assert (NE' : forall t, at_time Ls t <> []) by (intros t; destruct Ls; [congruence | discriminate]).
  destruct (sweep p Ls V M (fun _ => x) (repeat 0%RC (length (io_values x))) true) as (acts & out & vy & G1 & (G2a & G2b) & G3).
  { split; [reflexivity | apply const_vderiv]. }
  { intros _. now rewrite repeat_length. }
  { exact SP. }
  assert (FW : forall t, trace ROps p (at_time Ls t) x (acts t) /\ last (acts t) x = out t -> net_forward ROps p (at_time Ls t) x = Ret (Ok (out t))).
  { intros t (T & E). rewrite forward_fold by apply NE'. rewrite (fwd_fold _ _ _ _ _ T). cbn [obind]. now rewrite E. }
  pose proof (locally_singleton _ _ G1) as G0. cbn beta in G0. destruct (FT _ (FW 0%R G0)) as (FT0 & LN).
  assert (LV : length vy = n). { destruct G2b as (L & _). rewrite <- LN. symmetry. apply L. }
  assert (FTt : forall t, fits_target tg (out t)).
  { intros t. destruct FT0 as (K & L). specialize (G2a t). destruct G2b as (LL & _). split.
    - destruct tg, (out t), (out 0%R); cbn in G2a, K |- *; try contradiction; try discriminate; trivial.
    - rewrite L, LL, LL. reflexivity. }
  destruct (C34_gradient (io_values tg) (fun t => io_values (out t)) vy) as (g & D1 & _ & D3).
  { destruct FT0 as (_ & L). congruence. }
  { exact G2b. }
  destruct (D3 ltac:(lia)) as (l & L1 & L2). clear D3.
  assert (LG : length g = length vy).
  { destruct (C34_entries ROps (io_values tg) (io_values (out 0%R))) as (g' & D1' & LG' & _).
    assert (g' = g) as -> by congruence. rewrite LG'. destruct FT0 as (_ & L). rewrite L. change (cplx (F ROps)) with RC. rewrite LN. lia. }
  destruct (G3 g LG) as (ws & bs & h & hc & B1 & B2 & B3 & B4 & B5 & B6 & _).
  exists ws, bs, l. split; [|split; [exact B2|split; [exact B3|split]]].
  - unfold pgrad. cbn [fst snd]. destruct G0 as (T0 & O0).
    rewrite (collect_trace ROps p _ _ _ (NE' 0%R) T0). cbn [obind unwrap].
    change (cplx (F ROps)) with RC. rewrite O0. rewrite (proj2 (loss_io tg (out 0%R) MeanSquare FT0)). rewrite D1. cbn [obind unwrap].
    rewrite B1. reflexivity.
  - revert G1. apply filter_imp. intros t H. exists (out t). split; [apply FW, H|]. rewrite (proj1 (loss_io tg (out t) MeanSquare (FTt t))). apply L1.
  - rewrite LV in L2. rewrite B6 in L2. rewrite rate_zero, Rplus_0_r in L2. exact L2.
Qed.

(** ** Batches *)
Lemma batch_steps : forall p Ls V, net_moves Ls V -> Ls <> [] -> forall n, 2 <= n -> forall pts,
  (forall x tg, In (x, tg) pts -> smooth_path p true (at_time Ls 0%R) x /\
     forall y, net_forward ROps p (at_time Ls 0%R) x = Ret (Ok y) -> fits_target tg y /\ length (io_values y) = n) ->
  exists ls : list (R -> R), length ls = length pts /\
    locally 0%R (fun t => mapM (fun it => pred <-! net_forward ROps p (at_time Ls t) (fst it) ;; unwrap (loss ROps (snd it) pred MeanSquare)) pts
      = Ret (map (fun l => l t) ls)) /\
    forall W B, slots ROps (at_time Ls 0%R) W -> slots ROps (at_time Ls 0%R) B ->
      map (@length RC) W = map (fun v => length (fst v)) V -> map (@length RC) B = map (fun v => length (snd v)) V ->
      exists W' B' (rs : list R), foldM (point_step ROps p (at_time Ls 0%R) MeanSquare) pts (W, B) = Ret (W', B') /\
        map (@length RC) W' = map (fun v => length (fst v)) V /\ map (@length RC) B' = map (fun v => length (snd v)) V /\
        Forall2 (fun (l : R -> R) (r : R) => is_derive l 0%R (r / (INR n - 1))%R) ls rs /\
        net_rate W' B' V = (net_rate W B V + fold_right Rplus 0 rs)%R.
Proof.
  intros p Ls V M NE n N2. induction pts as [|(x & tg) pts IH]; intros H.
  - exists []. split; [reflexivity|]. split; [apply filter_forall; reflexivity|].
    intros W B _ _ L1 L2. exists W, B, []. repeat (split; [assumption || reflexivity || constructor|]). cbn [fold_right]. ring.
  - destruct (H x tg (or_introl eq_refl)) as (SP & FT).
    destruct (point_grad p Ls V M NE x tg n SP FT N2) as (ws & bs & l & G1 & G2 & G3 & G4 & G5).
    destruct IH as (ls & I1 & I2 & I3). { intros x' tg' Hin. apply H. now right. }
    exists (l :: ls). split; [cbn [length]; now rewrite I1|]. split.
    + generalize (filter_and _ _ G4 I2). apply filter_imp. intros t ((y & E1 & E2) & E3). cbn [mapM fst snd].
      rewrite E1. cbn [obind unwrap]. rewrite E2. cbn [obind unwrap]. rewrite E3. reflexivity.
    + intros W B S1 S2 L1 L2. cbn [foldM]. rewrite point_step_eq by assumption. rewrite G1. cbn [obind].
      destruct (addv_some W ws) as (W1 & A1 & A2). { rewrite L1. now rewrite G2. }
      destruct (addv_some B bs) as (B1 & A3 & A4). { rewrite L2. now rewrite G3. }
      rewrite A1. cbn [obind]. rewrite A3. cbn [obind].
      destruct (I3 W1 B1) as (W' & B' & rs & J1 & J2 & J3 & J4 & J5).
      { eapply slots_lengths; [exact A2 | exact S1]. }
      { eapply slots_lengths; [exact A4 | exact S2]. }
      { now rewrite A2. }
      { now rewrite A4. }
      exists W', B', (net_rate ws bs V :: rs). split; [exact J1|]. split; [exact J2|]. split; [exact J3|]. split.
      * constructor; [exact G5 | exact J4].
      * rewrite J5. rewrite (addv_rate V W ws W1 B bs B1) by assumption. cbn [fold_right]. ring.
Qed.

Lemma sum_derive : forall n (ls : list (R -> R)) (rs : list R), Forall2 (fun (l : R -> R) (r : R) => is_derive l 0%R (r / (INR n - 1))%R) ls rs ->
  forall (a : R -> R) (r : R), is_derive a 0%R r ->
  is_derive (fun t => fold_left Rplus (map (fun l => l t) ls) (a t)) 0%R (r + fold_right Rplus 0 rs / (INR n - 1))%R.
Proof.
  intros n ls rs H. induction H as [|l s ls rs D H IH]; intros a r A; cbn [map fold_left fold_right].
  - replace (r + 0 / (INR n - 1))%R with r by (unfold Rdiv; ring). exact A.
  - replace (r + (s + fold_right Rplus 0 rs) / (INR n - 1))%R with ((r + s / (INR n - 1)) + fold_right Rplus 0 rs / (INR n - 1))%R by (unfold Rdiv; ring).
    apply (IH (fun t => (a t + l t)%R)). apply (@is_derive_plus R_AbsRing R_NormedModule a l 0%R r (s / (INR n - 1))%R); [exact A | exact D].
Qed.

Lemma batch_grad : forall p Ls V pts n, net_moves Ls V -> Ls <> [] -> pts <> [] -> 2 <= n ->
  (forall x tg, In (x, tg) pts -> smooth_path p true (at_time Ls 0%R) x /\
     forall y, net_forward ROps p (at_time Ls 0%R) x = Ret (Ok y) -> fits_target tg y /\ length (io_values y) = n) ->
  exists W B (l : R -> R), net_gradient ROps p (at_time Ls 0%R) (batch pts) MeanSquare = Ret (W, B) /\
    map (@length RC) W = map (fun v => length (fst v)) V /\ map (@length RC) B = map (fun v => length (snd v)) V /\
    locally 0%R (fun t => net_loss ROps p (at_time Ls t) (batch pts) MeanSquare = Ret (Ok (l t))) /\
    is_derive l 0%R (net_rate W B V / (INR (length pts) * (INR n - 1)))%R.
Proof.
  intros p Ls V pts n M NE NP N2 H.
  assert (FULL : Forall (layer_full ROps) (at_time Ls 0%R)).
  { destruct pts as [|(x & tg) pts]; [congruence|]. destruct (H x tg (or_introl eq_refl)) as (SP & _). eapply smooth_full; exact SP. }
  destruct (batch_steps p Ls V M NE n N2 pts H) as (ls & L1 & L2 & L3).
  destruct (grad_zero_slots ROps (at_time Ls 0%R)) as (S1 & S2).
  destruct (grad_zero_sizes ROps _ FULL) as (Z1 & Z2). destruct (moves_sizes Ls V M) as (Y1 & Y2).
  destruct (L3 (fst (grad_zero ROps (at_time Ls 0%R))) (snd (grad_zero ROps (at_time Ls 0%R))) S1 S2) as (W & B & rs & J1 & J2 & J3 & J4 & J5).
  { change (cplx (F ROps)) with RC in Z1. rewrite Z1. exact Y1. }
  { change (cplx (F ROps)) with RC in Z2. rewrite Z2. exact Y2. }
  destruct ls as [|l ls]. { destruct pts; [congruence | discriminate]. }
  destruct rs as [|r rs]; [inversion J4|].
  exists W, B, (fun t => (fold_left Rplus (map (fun l => l t) ls) (l t) / INR (length pts))%R). split; [|split; [exact J2|split; [exact J3|split]]].
  - unfold net_gradient, ds_points_iter. rewrite batch_points.
    destruct (grad_zero ROps (at_time Ls 0%R)). exact J1.
  - revert L2. apply filter_imp. intros t E. unfold net_loss, ds_points_iter. rewrite batch_points. rewrite E. cbn [obind map reduce unwrap_opt].
    rewrite fofnat_R. rewrite <- L1. cbn [length]. rewrite map_length. reflexivity.
  - rewrite grad_zero_rate in J5. inversion J4 as [|? ? ? ? D0 D1]; subst.
    pose proof (sum_derive n ls rs D1 l _ D0) as SD.
    assert (N0 : INR (length pts) <> 0%R). { apply not_0_INR. destruct pts; [congruence | discriminate]. }
    assert (N1 : (INR n - 1)%R <> 0%R). { apply Rminus_eq_contra. intros E. apply (INR_eq n 1) in E. lia. }
    replace (net_rate W B V / (INR (length pts) * (INR n - 1)))%R
      with (/ INR (length pts) * (r / (INR n - 1) + fold_right Rplus 0 rs / (INR n - 1)))%R.
    2: { rewrite J5. cbn [fold_right]. field. auto. }
    apply (is_derive_ext (fun t => (/ INR (length pts) * fold_left Rplus (map (fun l => l t) ls) (l t))%R)).
    { intros t. unfold Rdiv. apply Rmult_comm. }
    apply is_derive_scal, SD.
Qed.

(** ** The update *)
Lemma layer_eq : forall Fl (l l' : clayer Fl), arch_of Fl l = arch_of Fl l' -> layer_values Fl l = layer_values Fl l' -> l = l'.
Proof.
  intros Fl l l' A V. destruct l as [[[k w0 w1 w2 w3] bs f]|[i [k w0 w1 w2 w3] bs f]|l|l]; destruct l' as [[[k' v0 v1 v2 v3] bs' f']|[i' [k' v0 v1 v2 v3] bs' f']|l'|l']; cbn in A; try discriminate;
    [| |injection A as <-; reflexivity .. ].
  - cbn in V. injection A as <- <- <- <- _ _ <-. injection V as <- <-. reflexivity.
  - cbn in V. injection A as <- <- <- <- <- _ <- A. unfold kernel_values in V. cbn in V. injection V as V <-.
    assert (k = k') as <-; [|reflexivity].
    revert k' A V. induction k as [|[b a0 a1 a2 a3] k IH]; intros [|[b' c0 c1 c2 c3] k'] A V; try discriminate; [reflexivity|].
    cbn in A, V. injection A as <- <- <- <- LB A. 
    assert (b = b' /\ concat (map body k) = concat (map body k')) as (<- & V').
    { clear - LB V. revert b' LB V. induction b as [|e b IH]; intros [|e' b'] LB V; try discriminate; [split; [reflexivity | exact V]|].
      cbn in LB, V. injection LB as LB. injection V as <- V. destruct (IH b' LB V) as (-> & ->). auto. }
    now rewrite (IH k' A V').
Qed.

Lemma update_ok : forall Fl s (l : clayer Fl) dw db, layer_full Fl l ->
  length dw = length (fst (layer_values Fl l)) -> length db = length (snd (layer_values Fl l)) ->
  exists l', update_layer Fl s ((dw, db), l) = Ret l' /\ arch_of Fl l' = arch_of Fl l /\
    layer_values Fl l' = (zip_assign (sub_conj Fl) (fst (layer_values Fl l)) (map (fun e => c_mul_assign Fl e s) dw),
                          zip_assign (sub_conj Fl) (snd (layer_values Fl l)) (map (fun e => c_mul_assign Fl e s) db)).
Proof.
  intros Fl s l dw db FU L1 L2.
  assert (U : exists l', update_layer Fl s ((dw, db), l) = Ret l' /\
     layer_values Fl l' = (zip_assign (sub_conj Fl) (fst (layer_values Fl l)) (map (fun e => c_mul_assign Fl e s) dw),
                          zip_assign (sub_conj Fl) (snd (layer_values Fl l)) (map (fun e => c_mul_assign Fl e s) db))).
  { unfold update_layer. destruct (full_params Fl l FU) as (P1 & P2).
    destruct l as [l|l|l|l]; cbn [layer_values fst snd layer_propagates dense_propagates conv_propagates red_propagates flat_propagates layer_adjust] in *.
    - unfold dense_adjust, slice_mul_mut_scalar. rewrite !map_length, L1, L2, !Nat.eqb_refl. cbn [negb map_ok obind unwrap].
      eexists. split; [reflexivity|]. reflexivity.
    - unfold conv_adjust, slice_mul_mut_scalar. destruct (conv_params_len Fl l) as (nw, nb) eqn:CP.
      cbn [layer_params_len] in P1, P2. rewrite CP in P1, P2. cbn [fst snd] in P1, P2.
      rewrite !map_length, P1, P2, L1, L2, !Nat.eqb_refl. cbn [negb map_ok obind unwrap].
      eexists. split; [reflexivity|]. cbn [layer_values k_kernels k_biases kernel_values with_body body]. f_equal.
      unfold kernel_values at 1. cbn [k_kernels with_body body]. apply adjust_kernels_values.
    - eexists. split; [reflexivity|]. reflexivity.
    - eexists. split; [reflexivity|]. reflexivity. }
  destruct U as (l' & U1 & U2). exists l'. split; [exact U1|]. split; [|exact U2]. now apply update_arch in U1.
Qed.

(** The network after a step of size [t], as a motion. *)
Definition step_layer (c : R) (gl : (list RC * list RC) * clayer ROps) (t : R) : clayer ROps :=
  match update_layer ROps (mkC (t * c)%R 0%R) gl with Ret l' => l' | Panic => snd gl end.
Definition step_vel (c : R) (d : RC) : RC := mkC (- (c * re d))%R (c * im d)%R.

Lemma zip_sub_vderiv : forall c (l d : list RC), length d = length l ->
  vderiv (fun t => zip_assign (sub_conj ROps) l (map (fun e => c_mul_assign ROps e (mkC (t * c)%R 0%R)) d)) (map (step_vel c) d).
Proof.
  intros c l d L. split.
  - intros t. rewrite zip_assign_length, map_length. now symmetry.
  - rewrite map_length. intros k Hk.
    apply (cderiv_ext (fun t => (nth k l 0 - mkC (t * c * re (nth k d 0%RC))%R (- (t * c * im (nth k d 0%RC)))%R)%RC)).
    + intros t. rewrite (zip_nth _ l (map (fun e => c_mul_assign ROps e (mkC (t * c)%R 0%R)) d) k _ (c_mul_assign ROps (c_default ROps) (mkC (t * c)%R 0%R)))
        by (rewrite ?map_length; lia).
      rewrite (map_nth (fun e => c_mul_assign ROps e (mkC (t * c)%R 0%R))).
      generalize (nth k l (c_default ROps)) (nth k d (c_default ROps)). intros [a b] [u v].
      unfold sub_conj, c_sub_assign, c_mul_assign, c_conj, c_sub. cbn. f_equal; ring.
    + assert (NE : nth k (map (step_vel c) d) (c_default ROps) = step_vel c (nth k d (c_default ROps))).
      { rewrite <- (map_nth (step_vel c)). apply nth_indep. now rewrite map_length. }
      rewrite NE.
      generalize (nth k l 0%RC) (nth k d (c_default ROps)). intros [a b] [u v]. unfold step_vel. split; cbn.
      * auto_derive; [auto | ring].
      * auto_derive; [auto | ring].
Qed.

Lemma step_layer_ok : forall c (l : clayer ROps) dw db, layer_full ROps l ->
  length dw = length (fst (layer_values ROps l)) -> length db = length (snd (layer_values ROps l)) ->
  layer_moves (step_layer c ((dw, db), l)) (map (step_vel c) dw, map (step_vel c) db) /\
  step_layer c ((dw, db), l) 0%R = l /\
  forall t, update_layer ROps (mkC (t * c)%R 0%R) ((dw, db), l) = Ret (step_layer c ((dw, db), l) t).
Proof.
  intros c l dw db FU L1 L2.
  assert (G : forall t, update_layer ROps (mkC (t * c)%R 0%R) ((dw, db), l) = Ret (step_layer c ((dw, db), l) t) /\
     arch_of ROps (step_layer c ((dw, db), l) t) = arch_of ROps l /\
     layer_values ROps (step_layer c ((dw, db), l) t) =
       (zip_assign (sub_conj ROps) (fst (layer_values ROps l)) (map (fun e => c_mul_assign ROps e (mkC (t * c)%R 0%R)) dw),
        zip_assign (sub_conj ROps) (snd (layer_values ROps l)) (map (fun e => c_mul_assign ROps e (mkC (t * c)%R 0%R)) db))).
  { intros t. destruct (update_ok ROps (mkC (t * c)%R 0%R) l dw db FU L1 L2) as (l' & U1 & U2 & U3).
    unfold step_layer. rewrite U1. auto. }
  assert (Z : step_layer c ((dw, db), l) 0%R = l).
  { destruct (G 0%R) as (_ & A & V). apply layer_eq; [exact A|]. rewrite V.
    assert (H : forall v d : list RC, length d = length v -> zip_assign (sub_conj ROps) v (map (fun e => c_mul_assign ROps e (mkC (0 * c)%R 0%R)) d) = v).
    { induction v as [|a v IH]; intros [|e d] LL; try discriminate; [reflexivity|]. cbn [map zip_assign length] in *. rewrite IH by lia. f_equal.
      destruct a as [a b], e as [u w]. unfold sub_conj, c_sub_assign, c_mul_assign, c_conj. cbn. f_equal; ring. }
    rewrite !H by assumption. now destruct (layer_values ROps l). }
  split; [|split; [exact Z | intros t; apply G]]. split; [|split].
  - intros t. rewrite (proj1 (proj2 (G t))), (proj1 (proj2 (G 0%R))). reflexivity.
  - apply (vderiv_ext (fun t => zip_assign (sub_conj ROps) (fst (layer_values ROps l)) (map (fun e => c_mul_assign ROps e (mkC (t * c)%R 0%R)) dw))).
    + intros t. now rewrite (proj2 (proj2 (G t))).
    + apply zip_sub_vderiv. exact L1.
  - apply (vderiv_ext (fun t => zip_assign (sub_conj ROps) (snd (layer_values ROps l)) (map (fun e => c_mul_assign ROps e (mkC (t * c)%R 0%R)) db))).
    + intros t. now rewrite (proj2 (proj2 (G t))).
    + apply zip_sub_vderiv. exact L2.
Qed.

Definition step_vels (c : R) (W B : list (list RC)) : list (list RC * list RC) :=
  map (fun g => (map (step_vel c) (fst g), map (step_vel c) (snd g))) (combine W B).
Definition step_net (c : R) (W B : list (list RC)) (n : network ROps) : list (R -> clayer ROps) :=
  map (step_layer c) (combine (combine W B) n).

Lemma step_net_ok : forall c (n : network ROps) W B, Forall (layer_full ROps) n ->
  map (@length RC) W = map (fun l => length (fst (layer_values ROps l))) n ->
  map (@length RC) B = map (fun l => length (snd (layer_values ROps l))) n ->
  net_moves (step_net c W B n) (step_vels c W B) /\ at_time (step_net c W B n) 0%R = n /\
  forall t, mapM (update_layer ROps (mkC (t * c)%R 0%R)) (combine (combine W B) n) = Ret (at_time (step_net c W B n) t).
Proof.
  intros c n. induction n as [|l n IH]; intros [|dw W] [|db B] FU L1 L2; try discriminate.
  - split; [constructor | split; reflexivity].
  - inversion FU as [|? ? F0 F1]; subst. cbn [map] in L1, L2. injection L1 as l1 L1. injection L2 as l2 L2.
    destruct (IH W B F1 L1 L2) as (I1 & I2 & I3). destruct (step_layer_ok c l dw db F0 l1 l2) as (S1 & S2 & S3).
    unfold step_net, step_vels, at_time in *. cbn [combine map fst snd]. split; [constructor; assumption|]. split.
    + rewrite I2, S2. reflexivity.
    + intros t. cbn [mapM]. rewrite S3. cbn [obind]. rewrite I3. reflexivity.
Qed.

Definition norm_sum (l : list RC) : R := fold_right (fun c s => (c_norm_sq ROps c + s)%R) 0%R l.

Lemma norm_sum_app : forall a b, norm_sum (a ++ b) = (norm_sum a + norm_sum b)%R.
Proof. intros a b. unfold norm_sum. induction a as [|x a IH]; cbn [app fold_right]; [ring|]. rewrite IH. ring. Qed.

Lemma rate_cons : forall g gs v vs, rate (g :: gs) (v :: vs) = (2 * re (g * v)%RC + rate gs vs)%R.
Proof. intros. rewrite !rate_csum. cbn [length]. rewrite csum_S_first. cbn [nth]. cbn. ring. Qed.

Lemma rate_step : forall c d, rate d (map (step_vel c) d) = (- (2 * c) * norm_sum d)%R.
Proof.
  intros c d. induction d as [|a d IH]; [unfold rate, norm_sum; cbn; ring|].
  cbn [map norm_sum fold_right]. rewrite rate_cons, IH. unfold norm_sum. destruct a as [x y].
  unfold step_vel, c_norm_sq, fsq. cbn. ring.
Qed.

Lemma net_rate_step : forall c W B, length W = length B -> net_rate W B (step_vels c W B) = (- (2 * c) * grad_norm_sq W B)%R.
Proof.
  intros c W B L. unfold grad_norm_sq. fold (norm_sum (concat W ++ concat B)). rewrite norm_sum_app.
  revert B L. induction W as [|w W IH]; intros [|b B] L; try discriminate; [cbn; ring|].
  cbn [length] in L. injection L as L. unfold step_vels in *. cbn [combine map net_rate fst snd concat]. rewrite IH by exact L.
  rewrite !rate_step, !norm_sum_app. ring.
Qed.

Lemma norm_sum_cons : forall (x y : R) l, norm_sum (mkC x y :: l) = (x * x + y * y + norm_sum l)%R.
Proof. intros. unfold norm_sum, c_norm_sq, fsq. cbn. ring. Qed.

Lemma norm_sum_nonneg : forall l, (0 <= norm_sum l)%R.
Proof.
  induction l as [|[x y] l IH]; [unfold norm_sum; cbn; lra|]. rewrite norm_sum_cons. nra.
Qed.

Lemma norm_sum_pos : forall l, Exists (fun c => c <> (0%RC : RC)) l -> (0 < norm_sum l)%R.
Proof.
  intros l H. induction H as [[x y] l H|[x y] l H IH]; rewrite norm_sum_cons.
  - pose proof (norm_sum_nonneg l) as N.
    assert (K : (x <> 0 \/ y <> 0)%R).
    { destruct (Req_dec x 0) as [->|]; [|auto]. destruct (Req_dec y 0) as [->|]; [|auto]. exfalso. now apply H. }
    destruct K as [K|K]; pose proof (Rsqr_pos_lt _ K) as S; unfold Rsqr in S; nra.
  - nra.
Qed.

(** ** Descent *)
Lemma neg_derive_descends : forall (l : R -> R) (d : R), is_derive l 0%R d -> (d < 0)%R ->
  exists e, (0 < e)%R /\ forall t, (0 < t < e)%R -> (l t < l 0)%R.
Proof.
  intros l d D N. apply is_derive_Reals in D. destruct (D (- d / 2)%R) as (e & H); [lra|].
  exists e. split; [apply cond_pos|]. intros t Ht. specialize (H t). rewrite Rplus_0_l in H.
  assert (X : (Rabs ((l t - l 0) / t - d) < - d / 2)%R). { apply H; [lra|]. rewrite Rabs_pos_eq; lra. }
  apply Rabs_def2 in X as (X & _).
  assert (Y : ((l t - l 0) / t < 0)%R) by lra.
  assert (Z : ((l t - l 0) = (l t - l 0) / t * t)%R) by (field; lra). nra.
Qed.

Lemma div_real : forall t m, m <> 0 -> c_div ROps (mkC t 0%R) (c_of_nat ROps m) = Ret (mkC (t * / INR m)%R 0%R).
Proof.
  intros t m H. unfold c_of_nat. rewrite fofnat_R. apply not_0_INR in H. unfold c_div, fsq. cbn [Cplx.re Cplx.im].
  change (fzero ROps) with 0%R. change (feqb ROps) with Reqb. cbn [fadd fsub fmul fdiv ROps].
  destruct (Reqb _ 0) eqn:E.
  - apply Reqb_eq in E. exfalso. nra.
  - f_equal. f_equal; field; exact H.
Qed.
