(** * The backward sweep computes the gradient *)
From Coq Require Import Reals Lra Psatz.
From Coquelicot Require Import Coquelicot.
From Verif Require Import Base BaseFacts Float Matrix Cplx Random Act Input Loss Dense Conv Layer Dataset Network RFloat SpecMatrix MatrixFacts CFacts
  SpecCalculus CalcFacts SpecLoss LossFacts PropLoss SpecLayer DenseFacts LayerCalc LayerFacts SpecConv ConvFacts ConvCalc PropConvGrad SpecNet NetFacts
  TrainFacts TrainDense SpecGrad PoolCalc.
Local Open Scope nat_scope.
Local Notation re := Cplx.re.
Local Notation im := Cplx.im.

Lemma arch_dense : forall Fl (d d0 : dense Fl), arch_of Fl (LDense d) = arch_of Fl (LDense d0) -> dense_wf Fl d0 ->
  dense_wf Fl d /\ units Fl d = units Fl d0 /\ inputs Fl d = inputs Fl d0 /\ d_func d = d_func d0.
Proof.
  intros Fl d d0 A (w1 & w2 & w3). cbn [arch_of] in A. injection A as A1 A2 A3 A4 A5 A6 A7. unfold dense_wf, wf, units, inputs in *.
  split; [split; [congruence | split; congruence]|]. split; [congruence | split; congruence].
Qed.

Lemma arch_conv : forall Fl a b (d k0 : conv Fl), arch_of Fl (LConv d) = arch_of Fl (LConv k0) -> conv_wf Fl a b k0 ->
  conv_wf Fl a b d /\ filters Fl d = filters Fl k0 /\ channels Fl d = channels Fl k0 /\ k_func d = k_func k0.
Proof.
  intros Fl a b d k0 A W0. cbn [arch_of] in A.
  injection A as A1 A2 A3 A4 A5 A6 A7 A8. unfold conv_wf, filters, channels in *.
  destruct W0 as (w1 & w2 & w3 & w4 & w5 & w6 & w7 & w8).
  assert (LB : length (body (k_kernels d)) = length (body (k_kernels k0))) by (apply (f_equal (@length _)) in A8; now rewrite !map_length in A8).
  assert (WF : wf (k_kernels d)) by (unfold wf in *; congruence).
  split; [|split; [congruence | split; congruence]].
  split; [exact WF|]. repeat (split; [congruence || lia|]).
  intros k Hk. apply (in_map (fun m => (sh0 m, sh1 m, cap0 m, cap1 m, length (body m)))) in Hk. rewrite A8 in Hk.
  apply in_map_iff in Hk as (m' & E' & Hm'). destruct (w8 m' Hm') as (W & S0 & S1). injection E' as e0 e1 e2 e3 e4. unfold wf in *.
  split; [congruence | split; congruence].
Qed.

Lemma maps_layout : forall {T} n r c (x y : list (matrix T)), maps_wf n r c y ->
  map (fun m => (sh0 m, sh1 m, length (body m))) x = map (fun m => (sh0 m, sh1 m, length (body m))) y -> maps_wf n r c x.
Proof.
  intros T n r c x y (L & M) E. split.
  - apply (f_equal (@length _)) in E. rewrite !map_length in E. congruence.
  - intros m Hm. apply (in_map (fun m => (sh0 m, sh1 m, length (body m)))) in Hm. rewrite E in Hm.
    apply in_map_iff in Hm as (m' & E' & Hm'). destruct (M m' Hm') as (W & S0 & S1). injection E' as e0 e1 e2. unfold wf in *.
    split; [congruence | split; congruence].
Qed.

Section Grad.
Context (p : prec).

Lemma vderiv_ext : forall (q q' : R -> list RC) v, (forall t, q t = q' t) -> vderiv q v -> vderiv q' v.
Proof.
  intros q q' v E [L D]. split; [intros; rewrite <- E; apply L|]. intros k Hk.
  apply (cderiv_ext (fun t => nth k (q t) (c_default ROps))); [intros; now rewrite E | apply D, Hk].
Qed.

(** ** From architectures to well-formed layers *)
Lemma dense_curve : forall (L : R -> clayer ROps) d0 v, L 0%R = LDense d0 -> layer_moves L v -> dense_wf ROps d0 ->
  exists D : R -> dense ROps, (forall t, L t = LDense (D t)) /\ D 0%R = d0 /\ dense_moves D (fst v) (snd v).
Proof.
  intros L d0 v E0 (A & DW & DB) W0.
  exists (fun t => match L t with LDense d => d | _ => d0 end).
  assert (E : forall t, L t = LDense (match L t with LDense d => d | _ => d0 end)).
  { intros t. specialize (A t). rewrite E0 in A. destruct (L t); cbn in A; try discriminate. reflexivity. }
  split; [exact E|]. split; [now rewrite E0|]. split; [|split].
  - intros t. rewrite E0. specialize (A t). rewrite E0 in A. rewrite (E t) in A.
    apply arch_dense; [exact A | exact W0].
  - eapply vderiv_ext; [|exact DW]. intros t. cbn beta. now rewrite (E t).
  - eapply vderiv_ext; [|exact DB]. intros t. cbn beta. now rewrite (E t).
Qed.

Lemma conv_curve : forall a b (L : R -> clayer ROps) k0 v, L 0%R = LConv k0 -> layer_moves L v -> conv_wf ROps a b k0 ->
  exists K : R -> conv ROps, (forall t, L t = LConv (K t)) /\ K 0%R = k0 /\ conv_moves a b K (fst v) (snd v).
Proof.
  intros a b L k0 v E0 (A & DW & DB) W0.
  exists (fun t => match L t with LConv d => d | _ => k0 end).
  assert (E : forall t, L t = LConv (match L t with LConv d => d | _ => k0 end)).
  { intros t. specialize (A t). rewrite E0 in A. destruct (L t); cbn in A; try discriminate. reflexivity. }
  split; [exact E|]. split; [now rewrite E0|]. split; [|split].
  - intros t. rewrite E0. specialize (A t). rewrite E0 in A. rewrite (E t) in A.
    apply arch_conv; [exact A | exact W0].
  - eapply vderiv_ext; [|exact DW]. intros t. cbn beta. now rewrite (E t).
  - eapply vderiv_ext; [|exact DB]. intros t. cbn beta. now rewrite (E t).
Qed.

Lemma scalar_curve : forall (x : R -> IOType RC) v0 vx, x 0%R = IOScalar v0 -> io_moves x vx ->
  exists y, (forall t, x t = IOScalar (y t)) /\ y 0%R = v0 /\ vderiv y vx.
Proof.
  intros x v0 vx E0 (A & D). exists (fun t => io_values (x t)). split; [|split; [now rewrite E0 | exact D]].
  intros t. specialize (A t). rewrite E0 in A. destruct (x t); cbn in A; [reflexivity | discriminate].
Qed.

Lemma matrix_curve : forall (x : R -> IOType RC) m0 vx, x 0%R = IOMatrix m0 -> io_moves x vx ->
  exists y, (forall t, x t = IOMatrix (y t)) /\ y 0%R = m0 /\ vderiv (fun t => map_values (y t)) vx /\
    forall n r c, maps_wf n r c m0 -> maps_move n r c y vx.
Proof.
  intros x m0 vx E0 (A & D). exists (fun t => match x t with IOMatrix m => m | _ => m0 end).
  assert (E : forall t, x t = IOMatrix (match x t with IOMatrix m => m | _ => m0 end)).
  { intros t. specialize (A t). rewrite E0 in A. destruct (x t); cbn in A; [discriminate | reflexivity]. }
  assert (DV : vderiv (fun t => map_values (match x t with IOMatrix m => m | _ => m0 end)) vx).
  { eapply vderiv_ext; [|exact D]. intros t. cbn beta. now rewrite (E t). }
  split; [exact E|]. split; [now rewrite E0|]. split; [exact DV|]. intros n r c M. split; [|exact DV].
  intros t. specialize (A t). rewrite E0 in A. rewrite (E t) in A. cbn [io_layout] in A. injection A as A. eapply maps_layout; eauto.
Qed.

Lemma maps_io : forall n r c (y : R -> list (matrix RC)) vy, maps_move n r c y vy -> io_moves (fun t => IOMatrix (y t)) vy.
Proof.
  intros n r c y vy (M & D). split; [|exact D]. intros t. cbn [io_layout]. f_equal.
  destruct (M t) as (L & H), (M 0%R) as (L0 & H0).
  assert (G : forall ms : list (matrix RC), (forall m, In m ms -> wf m /\ sh0 m = r /\ sh1 m = c) ->
     map (fun m => (sh0 m, sh1 m, length (body m))) ms = repeat (r, c, r * c) (length ms)).
  { clear. induction ms as [|m ms IH]; intros H; [reflexivity|]. cbn [map length repeat]. rewrite IH by (intros; apply H; now right).
    destruct (H m (or_introl eq_refl)) as (W & <- & <-). unfold wf in W. now rewrite W. }
  rewrite !G by assumption. congruence.
Qed.

(** ** One layer *)
(** What the sweep does with a layer. *)
Definition layer_back (l : clayer ROps) (x : IOType RC) (h hc : list RC) : outcome (list RC * list RC * list RC * list RC) :=
  if layer_propagates ROps l then d <-! layer_derivatives ROps p l x h hc ;; Ret d else Ret ([], [], h, hc).

Lemma layer_chain : forall (L : R -> clayer ROps) v (x : R -> IOType RC) vx first,
  layer_moves L v -> io_moves x vx -> (first = true -> vx = repeat 0%RC (length vx)) ->
  at_preacts (act_diff p) (L 0%R) (x 0%R) ->
  (first = true \/ (forall k, L 0%R <> LConv k) \/ at_preacts (no_conj p) (L 0%R) (x 0%R)) ->
  exists (y : R -> IOType RC) (vy : list RC),
    locally 0%R (fun t => layer_forward ROps p (L t) (x t) = Ret (Ok (y t))) /\ io_moves y vy /\
    forall g gc, length g = length vy -> length gc = length vy ->
      (gc = map (c_conj ROps) g \/ at_preacts (no_conj p) (L 0%R) (x 0%R)) ->
      exists dw db h hc, layer_back (L 0%R) (x 0%R) g gc = Ret (dw, db, h, hc) /\
        length dw = length (fst v) /\ length db = length (snd v) /\ length h = length vx /\ length hc = length vx /\
        rate g vy = (rate dw (fst v) + rate db (snd v) + rate h vx)%R /\
        match L 0%R with
        | LDense _ => hc = map (c_conj ROps) h
        | LReduce _ => gc = map (c_conj ROps) g -> hc = map (c_conj ROps) h
        | LFlatten _ => h = g /\ hc = gc
        | _ => True
        end.
Proof.
  intros L v x vx first ML MX F AD CV.
  destruct (L 0%R) as [d0|k0|r0|f0] eqn:E0; destruct (x 0%R) as [v0|m0] eqn:X0; cbn [at_preacts] in AD; try contradiction.
  - (* dense *)
    destruct AD as (W & X & AD). destruct (dense_curve L d0 v E0 ML W) as (D & ED & D0 & MD).
    destruct (scalar_curve x v0 vx X0 MX) as (s & ES & S0 & MS). subst d0 v0.
    assert (LX : length vx = inputs ROps (D 0%R)) by (destruct MS as (MS & _); rewrite <- (MS 0%R); exact X).
    destruct (dense_chain p D (fst v) (snd v) s vx MD MS LX AD) as (y & vy & E1 & E2 & E3 & E4).
    exists (fun t => IOScalar (y t)), vy. split; [|split].
    + revert E1. apply filter_imp. intros t H. rewrite ED, ES. exact H.
    + split; [reflexivity | exact E2].
    + intros g gc Lg Lgc HG. destruct (E4 g gc Lg Lgc) as (dw & db & dx & F1 & F2 & F3 & F4 & F5).
      { destruct HG as [HG|HG]; [left; exact HG|]. right. cbn [at_preacts] in HG. apply HG. }
      exists dw, db, dx, (map (c_conj ROps) dx). unfold layer_back. cbn [layer_propagates dense_propagates layer_derivatives].
      rewrite F1. cbn [obind unwrap]. rewrite map_length. repeat (split; [assumption || reflexivity|]). reflexivity.
  - (* conv *)
    destruct AD as (a & b & r & c & W & M & A & B & AD).
    destruct (conv_curve a b L k0 v E0 ML W) as (K & EK & K0 & MK).
    destruct (matrix_curve x m0 vx X0 MX) as (s & ES & S0 & _ & MS). subst k0 m0. specialize (MS _ _ _ M).
    assert (FIN : forall (y : R -> list (matrix RC)) vy,
       locally 0%R (fun t => conv_forward ROps p (K t) (IOMatrix (s t)) = Ret (Ok (IOMatrix (y t)))) ->
       maps_move (filters ROps (K 0%R)) (r - a + 1) (c - b + 1) y vy ->
       (forall g gc, length g = length vy -> length gc = length vy ->
          (gc = map (c_conj ROps) g \/ at_preacts (no_conj p) (LConv (K 0%R)) (IOMatrix (s 0%R))) ->
          exists dk db dx dxc, conv_derivatives ROps p (K 0%R) (IOMatrix (s 0%R)) g gc = Ret (Ok (dk, db, dx, dxc)) /\
            length dk = length (fst v) /\ length db = length (snd v) /\ length dx = length vx /\ length dxc = length vx /\
            rate g vy = (rate dk (fst v) + rate db (snd v) + rate dx vx)%R) ->
       exists (y : R -> IOType RC) (vy : list RC),
        locally 0%R (fun t => layer_forward ROps p (L t) (x t) = Ret (Ok (y t))) /\ io_moves y vy /\
        forall g gc, length g = length vy -> length gc = length vy ->
          (gc = map (c_conj ROps) g \/ at_preacts (no_conj p) (LConv (K 0%R)) (IOMatrix (s 0%R))) ->
          exists dw db h hc, layer_back (LConv (K 0%R)) (IOMatrix (s 0%R)) g gc = Ret (dw, db, h, hc) /\
            length dw = length (fst v) /\ length db = length (snd v) /\ length h = length vx /\ length hc = length vx /\
            rate g vy = (rate dw (fst v) + rate db (snd v) + rate h vx)%R /\ True).
    { intros y vy E1 E2 E4. exists (fun t => IOMatrix (y t)), vy. split; [|split].
      - revert E1. apply filter_imp. intros t H. rewrite EK, ES. exact H.
      - eapply maps_io; exact E2.
      - intros g gc Lg Lgc HG. destruct (E4 g gc Lg Lgc HG) as (dk & db & dx & dxc & F1 & F2 & F3 & F4 & F5 & F6).
        exists dk, db, dx, dxc. unfold layer_back. cbn [layer_propagates conv_propagates layer_derivatives].
        rewrite F1. cbn [obind unwrap]. repeat (split; [assumption || reflexivity|]). trivial. }
    destruct (conv_chain p a b r c K (fst v) (snd v) s vx MK MS A B AD) as (y & vy & E1 & E2 & E3 & E4).
    (* shapes determine [a], [b], [r], [c] *)
    assert (HOLO : at_preacts (no_conj p) (LConv (K 0%R)) (IOMatrix (s 0%R)) ->
      forall o i j, o < filters ROps (K 0%R) -> i < r - a + 1 -> j < c - b + 1 -> no_conj p (k_func (K 0%R)) (cpre ROps a b (K 0%R) (s 0%R) o i j)).
    { intros (a' & b' & r' & c' & W' & M' & _ & _ & H).
      assert (a' = a /\ b' = b) as (-> & ->).
      { destruct W as (w1 & w2 & w3 & _ & _ & _ & _ & w8). destruct W' as (_ & _ & _ & _ & _ & _ & _ & w8').
        assert (exists k, In k (body (k_kernels (K 0%R)))) as (k & Hk).
        { unfold wf, filters, channels in *. destruct (body (k_kernels (K 0%R))) as [|k ks]; [|exists k; now left]. exfalso. cbn [length] in w1. clear - w1 w2 w3. nia. }
        destruct (w8 k Hk) as (_ & <- & <-), (w8' k Hk) as (_ & <- & <-). auto. }
      assert (r' = r /\ c' = c) as (-> & ->).
      { destruct W as (_ & _ & w3 & _). destruct M as (ML0 & M), M' as (_ & M').
        assert (exists k, In k (s 0%R)) as (k & Hk). { destruct (s 0%R) as [|k ks]; [cbn in ML0; lia|]. exists k. now left. }
        destruct (M k Hk) as (_ & <- & <-), (M' k Hk) as (_ & <- & <-). auto. }
      exact H. }
    destruct CV as [C1|[C1|C1]].
    + apply (FIN y vy E1 E2). intros g gc Lg Lgc HG. destruct (E4 g gc Lg Lgc) as (dk & db & dx & dxc & F1 & F2 & F3 & F4 & F5 & F6).
      { destruct HG as [HG|HG]; [left; exact HG | right; apply HOLO, HG]. }
      exists dk, db, dx, dxc. repeat (split; [assumption|]). rewrite F6. rewrite (F C1), !rate_zero. reflexivity.
    + exfalso. now apply (C1 (K 0%R)).
    + destruct (C46_exact_without_conjugate p a b r c K (fst v) (snd v) s vx MK MS A B) as (y' & vy' & E1' & E2' & E4').
      { intros o i j Ho Hi Hj. split; [apply AD; assumption | apply HOLO; assumption]. }
      apply (FIN y' vy' E1' E2'). intros g gc Lg Lgc _.
      assert (LV : length vy' = length vy).
      { destruct E2 as (_ & [G1 _]), E2' as (N2 & [G2 _]). rewrite E3. rewrite <- (G2 0%R).
        rewrite (map_values_tab3 _ _ _ _ (N2 0%R)). apply tab3_length. }
      destruct (E4' g gc Lg Lgc) as (dk & db & dx & dxc & F1 & F6).
      destruct (E4 g gc ltac:(congruence) ltac:(congruence)) as (dk' & db' & dx' & dxc' & F1' & F2 & F3 & F4 & F5 & _).
      { right. apply HOLO, C1. }
      assert (T : dk' = dk /\ db' = db /\ dx' = dx /\ dxc' = dxc) by (rewrite F1 in F1'; repeat split; congruence).
      destruct T as (-> & -> & -> & ->). exists dk, db, dx, dxc. repeat (split; [assumption|]). assumption.
  - (* reduce *)
    destruct AD as (a & n & r & c & MP & N1 & M & A & B & MR & MC).
    destruct (matrix_curve x m0 vx X0 MX) as (s & ES & S0 & _ & MS). subst m0. specialize (MS _ _ _ M).
    assert (EL : forall t, exists l, L t = LReduce l /\ mean_pool a l).
    { intros t. destruct ML as (AR & _). specialize (AR t). rewrite E0 in AR. destruct (L t) as [|?|l|]; cbn in AR; try discriminate.
      exists l. split; [reflexivity|]. assert (l = r0) by congruence. subst l. exact MP. }
    assert (EV : fst v = [] /\ snd v = []).
    { destruct ML as (_ & [D1 _] & [D2 _]). specialize (D1 0%R). specialize (D2 0%R). rewrite E0 in D1, D2. cbn in D1, D2.
      split; apply length_zero_iff_nil; auto. }
    destruct EV as (-> & ->).
    destruct (pool_chain a r0 n r c s vx (proj1 MP) MS A B MR MC) as (y & vy & E1 & E2 & E3 & E4 & E5).
    exists (fun t => IOMatrix (y t)), vy. split; [|split].
    + apply filter_forall. intros t. assert (L t = LReduce r0) as ->.
      { destruct ML as (AR & _). specialize (AR t). rewrite E0 in AR. destruct (L t); cbn in AR; try discriminate. congruence. }
      rewrite ES. apply E1.
    + eapply maps_io; exact E2.
    + intros g gc Lg Lgc HG. exists [], [], (mean_grad a n r c g), (mean_grad a n r c gc). unfold layer_back.
      cbn [layer_propagates red_propagates layer_derivatives].
      rewrite (pool_back a r0 n r c (s 0%R) g gc MP N1 M A B MR MC) by congruence. cbn [obind unwrap]. rewrite !mean_grad_length.
      repeat (split; [reflexivity || congruence|]). split; [rewrite E5; unfold rate at 2 3; cbn; ring|].
      intros ->. apply mean_grad_conj; auto; [apply MP | congruence].
  - (* flatten *)
    destruct (matrix_curve x m0 vx X0 MX) as (s & ES & S0 & MS & _).
    assert (EL : forall t, exists f, L t = LFlatten f).
    { intros t. destruct ML as (A & _). specialize (A t). rewrite E0 in A. destruct (L t) as [|?|?|f]; cbn in A; try discriminate. now exists f. }
    assert (EV : fst v = [] /\ snd v = []).
    { destruct ML as (_ & [D1 _] & [D2 _]). specialize (D1 0%R). specialize (D2 0%R). rewrite E0 in D1, D2. cbn in D1, D2.
      split; apply length_zero_iff_nil; auto. }
    destruct EV as (-> & ->).
    exists (fun t => IOScalar (map_values (s t))), vx. split; [|split].
    + apply filter_forall. intros t. destruct (EL t) as (f & ->). rewrite ES. cbn. do 3 f_equal. apply flat_map_concat_map.
    + split; [reflexivity | exact MS].
    + intros g gc Lg Lgc HG. exists [], [], g, gc. unfold layer_back. cbn [layer_propagates flat_propagates].
      repeat (split; [assumption || reflexivity|]). split; [unfold rate at 2 3; cbn; ring | auto].
Qed.

(** ** The whole sweep *)
Lemma bp_cons : forall (x : IOType RC) l rest g gc,
  bp ROps p ((x, l) :: rest) g gc =
  (r <- bp ROps p rest g gc ;; let '(ws, bs, h, hc) := r in
   d <- layer_back l x h hc ;; let '(dw, db, h', hc') := d in Ret (dw :: ws, db :: bs, h', hc')).
Proof.
  intros x l rest g gc. cbn [bp]. destruct (bp ROps p rest g gc) as [(((ws & bs) & h) & hc)|]; cbn [obind]; [|reflexivity].
  unfold layer_back. destruct (layer_propagates ROps l); [|reflexivity].
  destruct (layer_derivatives ROps p l x h hc) as [[(((dw & db) & h') & hc')|e]|]; reflexivity.
Qed.

Lemma sweep : forall Ls V, net_moves Ls V -> forall (x : R -> IOType RC) vx first, io_moves x vx ->
  (first = true -> vx = repeat 0%RC (length vx)) -> smooth_path p first (at_time Ls 0%R) (x 0%R) ->
  exists (acts : R -> list (IOType RC)) (out : R -> IOType RC) (vy : list RC),
    locally 0%R (fun t => trace ROps p (at_time Ls t) (x t) (acts t) /\ last (acts t) (x t) = out t) /\ io_moves out vy /\
    forall g, length g = length vy ->
      exists ws bs h hc, bp ROps p (combine (acts 0%R) (at_time Ls 0%R)) g (map (c_conj ROps) g) = Ret (ws, bs, h, hc) /\
        map (@length RC) ws = map (fun v => length (fst v)) V /\ map (@length RC) bs = map (fun v => length (snd v)) V /\
        length h = length vx /\ length hc = length vx /\
        rate g vy = (net_rate ws bs V + rate h vx)%R /\ (then_dense (at_time Ls 0%R) -> hc = map (c_conj ROps) h).
Proof.
  intros Ls V M. induction M as [|L v Ls V ML M IH]; intros x vx first MX F SP.
  - exists (fun t => [x t]), x, vx. split; [apply filter_forall; intros; split; [constructor | reflexivity]|]. split; [exact MX|].
    intros g Lg. exists [], [], g, (map (c_conj ROps) g). cbn [at_time map combine bp]. rewrite map_length.
    repeat (split; [assumption || reflexivity|]). split; [cbn [net_rate]; ring | auto].
  - cbn [at_time map smooth_path] in SP. fold (at_time Ls 0%R) in SP. destruct SP as (AD & TD & CV & NX).
    destruct (layer_chain L v x vx first ML MX F AD CV) as (y & vy & E1 & E2 & E3).
    destruct (IH y vy false E2) as (acts & out & vz & G1 & G2 & G3).
    { discriminate. }
    { apply NX. now apply locally_singleton in E1. }
    exists (fun t => x t :: acts t), out, vz. split; [|split; [exact G2|]].
    + generalize (filter_and _ _ E1 G1). apply filter_imp. intros t (H1 & H2 & H3). split.
      * cbn [at_time map]. apply trace_cons with (y := y t); assumption.
      * pose proof (trace_length _ _ _ _ _ H2) as LT. rewrite <- H3. destruct (acts t) as [|b l]; [discriminate|].
        cbn [last]. clear. revert b. induction l as [|c l IH]; intros b; [reflexivity|]. cbn [last]. apply IH.
    + intros g Lg. destruct (G3 g Lg) as (ws & bs & h & hc & B1 & B2 & B3 & B4 & B5 & B6 & B7).
      destruct (E3 h hc B4 B5) as (dw & db & h' & hc' & D1 & D2 & D3 & D4 & D5 & D6 & D7).
      { destruct TD as [TD|TD]; [left; apply B7, TD | right; exact TD]. }
      exists (dw :: ws), (db :: bs), h', hc'. cbn [at_time map combine]. fold (at_time Ls 0%R). rewrite bp_cons, B1. cbn [obind]. rewrite D1. cbn [obind].
      split; [reflexivity|]. cbn [map]. rewrite B2, B3, D2, D3. repeat (split; [assumption || reflexivity|]). split.
      * cbn [net_rate]. rewrite B6, D6. ring.
      * cbn [then_dense]. destruct (L 0%R); intros TT; try contradiction; [exact D7| apply D7, B7, TT|]. destruct D7 as (-> & ->). apply B7, TT.
Qed.
End Grad.
