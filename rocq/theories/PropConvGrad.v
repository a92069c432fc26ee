(** * Gradients of convolutional layers (C45, C46) *)
From Coq Require Import Reals Lra.
From Coquelicot Require Import Coquelicot.
From Verif Require Import Base BaseFacts Float Matrix Cplx Random Act Input Dense Conv Layer RFloat SpecMatrix MatrixFacts CFacts Adjoint
  SpecCalculus CalcFacts SpecLoss LossFacts SpecLayer SpecConv DenseFacts LayerFacts LayerCalc ConvFacts ConvCalc PropAct PropDense PropConv ExOps.
Local Notation P32 := Float.P32.
Local Notation P64 := Float.P64.
Local Notation re := Cplx.re.
Local Notation im := Cplx.im.
Local Open Scope nat_scope.

(** ** C45 *)
(** [dsum ro co f] (Adjoint.v) is the sum of f(i, j) over i < ro, j < co. *)
Theorem C45_gradients : forall p a b r c (l : conv ROps) x (g gc : list RC) (d dc : nat -> nat -> nat -> RC),
  conv_wf ROps a b l -> maps_wf (channels ROps l) r c x -> a <= r -> b <= c ->
  let ro := r - a + 1 in let co := c - b + 1 in let f := filters ROps l in let n := channels ROps l in
  length g = f * (ro * co) -> length gc = f * (ro * co) ->
  (forall o i j, o < f -> i < ro -> j < co ->
     d_activate ROps p (k_func l) (cpre ROps a b l x o i j) = Ret (d o i j) /\
     d_conj_activate ROps p (k_func l) (cpre ROps a b l x o i j) = Ret (dc o i j)) ->
  let delta o i j := (d o i j * at3 0 ro co g o i j + conj (dc o i j) * at3 0 ro co gc o i j)%RC in
  exists dk db dx dxc,
    conv_derivatives ROps p l (IOMatrix x) g gc = Ret (Ok (dk, db, dx, dxc)) /\
    length dk = f * n * (a * b) /\ length db = f /\
    (forall o ch u v, o < f -> ch < n -> u < a -> v < b ->
       at3 0%RC a b dk (o * n + ch) u v = dsum ro co (fun i j => (px 0 x ch (u + i)%nat (v + j)%nat * delta o i j)%RC)) /\
    (forall o, o < f -> nth o db 0%RC = dsum ro co (delta o)).
Proof.
  intros p a b r c l x g gc d dc W M A B ro co f n Lg Lgc HD delta.
  pose proof (conv_derivatives_ok ROps p a b r c l x g gc d dc (Logic.conj W (Logic.conj M (Logic.conj A B))) Lg Lgc HD) as E.
  cbv zeta in E. fold ro co f n in E.
  set (da := fun o i j => (d o i j * at3 0%RC ro co g o i j)%RC) in E.
  set (db := fun o i j => (conj (dc o i j) * at3 0%RC ro co gc o i j)%RC) in E.
  do 4 eexists. split; [exact E|]. clear E.
  assert (LK : forall h : nat -> nat -> nat -> nat -> RC, length (concat (map (fun o => tab3 n a b (h o)) (seq 0 f))) = (f * n * (a * b))%nat).
  { intros h. rewrite (concat_length_const (n * (a * b))); [rewrite map_length, seq_length; lia|].
    apply Forall_forall. intros l0 Hl. apply in_map_iff in Hl as (o & <- & _). apply tab3_length. }
  split; [apply LK|]. split; [now rewrite map_length, seq_length|]. split.
  - intros o ch u v Ho Hc Hu Hv. unfold at3.
    replace (((o * n + ch) * a + u) * b + v)%nat with (o * (n * (a * b)) + ((ch * a + u) * b + v))%nat by ring.
    rewrite (nth_concat_const 0%RC (n * (a * b)) _ o ((ch * a + u) * b + v)).
    + rewrite nth_map_seq by auto.
      etransitivity; [apply (at3_tab3 0%RC n a b); auto|]. cbv beta. rewrite <- corr_add_kernel. reflexivity.
    + apply Forall_forall. intros l0 Hl. apply in_map_iff in Hl as (o' & <- & _). apply tab3_length.
    + now apply at3_idx_lt.
  - intros o Ho. rewrite nth_map_seq by auto. pose proof W as (_ & _ & _ & A1 & B1 & _).
    rewrite sum_all_csum by (subst ro co; nia). rewrite (tab_csum ro co (fun i j => (da o i j + db o i j)%RC)). reflexivity.
Qed.
Print Assumptions C45_gradients.

(** They are the chain-rule values: for a fixed input and kernels and biases
    moving along any curves, the rate of change of any real quantity with output
    gradient [g] is the one predicted by the returned parameter gradients. *)
Theorem C45_chain_rule : forall p a b r c (K : R -> conv ROps) vk vb (x : list (matrix RC)),
  conv_moves a b K vk vb -> maps_wf (channels ROps (K 0%R)) r c x -> a <= r -> b <= c ->
  (forall o i j, o < filters ROps (K 0%R) -> i < r - a + 1 -> j < c - b + 1 ->
     act_diff p (k_func (K 0%R)) (cpre ROps a b (K 0%R) x o i j)) ->
  exists (y : R -> list (matrix RC)) (vy : list RC),
    locally 0%R (fun t => conv_forward ROps p (K t) (IOMatrix x) = Ret (Ok (IOMatrix (y t)))) /\
    maps_move (filters ROps (K 0%R)) (r - a + 1) (c - b + 1) y vy /\
    forall g, length g = length vy ->
      exists dk db dx dxc,
        conv_derivatives ROps p (K 0%R) (IOMatrix x) g (map (c_conj ROps) g) = Ret (Ok (dk, db, dx, dxc)) /\
        length dk = length vk /\ length db = length vb /\
        rate g vy = (rate dk vk + rate db vb)%R.
Proof.
  intros p a b r c K vk vb x MK M A B AD.
  set (vx := repeat (0%RC : RC) (length (map_values x))).
  assert (MX : maps_move (channels ROps (K 0%R)) r c (fun _ => x) vx).
  { split; [auto|]. unfold vx. split; [intros; now rewrite repeat_length|]. intros k Hk.
    eapply cderiv_cast; [apply cderiv_const|]. symmetry. apply nth_repeat. }
  destruct (conv_chain p a b r c K vk vb (fun _ => x) vx MK MX A B AD) as (y & vy & E1 & E2 & E3 & E4).
  exists y, vy. repeat (split; [assumption|]). intros g Lg.
  destruct (E4 g (map (c_conj ROps) g)) as (dk & db & dx & dxc & F1 & F2 & F3 & F4 & F5 & F6); [auto | now rewrite map_length | now left|].
  exists dk, db, dx, dxc. repeat (split; [assumption|]). rewrite F6. unfold vx. rewrite rate_zero. lra.
Qed.
Print Assumptions C45_chain_rule.

(** A layer and an input meeting the hypotheses: one 1 x 1 kernel with weight and
    bias both moving, tanh activation. *)
Example C45_ex : exists (K : R -> conv ROps) vk vb x,
  conv_moves 1 1 K vk vb /\ maps_wf (channels ROps (K 0%R)) 2 1 x /\ vk <> [mkC 0%R 0%R] /\
  (forall o i j, o < filters ROps (K 0%R) -> i < 2 - 1 + 1 -> j < 1 - 1 + 1 ->
     act_diff P64 (k_func (K 0%R)) (cpre ROps 1 1 (K 0%R) x o i j)).
Proof.
  assert (D : vderiv (fun t => [mkC t 1%R]) [mkC 1%R 0%R]).
  { split; [reflexivity|]. intros [|k] Hk; cbn in Hk; [|lia]. cbn. split; cbn; auto_derive; auto. }
  exists (fun t => mkConv ROps 1 (from_body [from_body [mkC t 1%R] 1 1] 1 1) [mkC t 1%R] RITTanh), [mkC 1%R 0%R], [mkC 1%R 0%R],
    [mat 2 1 (fun _ _ => mkC 1%R 0%R)].
  split; [|split; [|split]].
  - split; [|split; [exact D | exact D]]. intros t. unfold conv_wf. cbn. repeat split; try lia; destruct H as [<- | []]; reflexivity.
  - split; [reflexivity|]. intros m [<- | []]. split; [apply wf_mat | split; reflexivity].
  - intros H. apply (f_equal (fun l => Cplx.re (nth 0 l (mkC 0%R 0%R)))) in H. cbn in H. lra.
  - intros o i j Ho Hi Hj. apply C41_smooth. exact I.
Qed.
Example C45_ex_values : conv_derivatives ZFl P32 ex_conv (IOMatrix ex_maps) [mkC 1 0; mkC 0 0; mkC 0 1; mkC 0 0]%Z (repeat (mkC 0 0)%Z 4) =
  Ret (Ok ([mkC 1 0; mkC 2 0; mkC 0 1; mkC 0 0; mkC 0 1; mkC 0 2; mkC (-1) 0; mkC 0 0], [mkC 1 0; mkC 0 1],
           [mkC 1 0; mkC 0 2; mkC 0 0; mkC 0 0; mkC 1 0; mkC (-1) 0; mkC 0 0; mkC 0 0], repeat (mkC 0 0) 8))%Z.
Proof. vm_compute. reflexivity. Qed.

(** ** C46 *)
(** What is handed to the layer below, exactly, for any arithmetic: the full
    correlation of the flipped kernels with da/dq * dlda, and the same with
    conj(da/dq~) * dlda_conj. *)
Theorem C46_formula : forall Fl p a b r c (l : conv Fl) x (g gc : list (cplx (F Fl))) (d dc : nat -> nat -> nat -> cplx (F Fl)),
  conv_wf Fl a b l -> maps_wf (channels Fl l) r c x -> a <= r -> b <= c ->
  let z := c_default Fl in
  let ro := r - a + 1 in let co := c - b + 1 in let f := filters Fl l in let n := channels Fl l in
  length g = f * (ro * co) -> length gc = f * (ro * co) ->
  (forall o i j, o < f -> i < ro -> j < co ->
     d_activate Fl p (k_func l) (cpre Fl a b l x o i j) = Ret (d o i j) /\
     d_conj_activate Fl p (k_func l) (cpre Fl a b l x o i j) = Ret (dc o i j)) ->
  let part1 o i j := c_mul Fl (d o i j) (at3 z ro co g o i j) in
  let part2 o i j := c_mul Fl (c_conj Fl (dc o i j)) (at3 z ro co gc o i j) in
  exists dk db dx dxc,
    conv_derivatives Fl p l (IOMatrix x) g gc = Ret (Ok (dk, db, dx, dxc)) /\
    length dx = n * (r * c) /\ length dxc = n * (r * c) /\
    forall ch i j, ch < n -> i < r -> j < c ->
      let full h := sum_from (c_add Fl) z (fun o => corr (cops Fl) a b (framed z ro co (a - 1) (b - 1) (h o))
                                             (fun u v => kval Fl l o ch (a - 1 - u) (b - 1 - v)) i j) f in
      at3 z r c dx ch i j = full part1 /\ at3 z r c dxc ch i j = full part2.
Proof.
  intros Fl p a b r c l x g gc d dc W M A B z ro co f n Lg Lgc HD part1 part2.
  pose proof (conv_derivatives_ok Fl p a b r c l x g gc d dc (Logic.conj W (Logic.conj M (Logic.conj A B))) Lg Lgc HD) as E.
  cbv zeta in E. fold ro co f n in E.
  do 4 eexists. split; [exact E|]. clear E. rewrite !tab3_length. repeat (split; [reflexivity|]).
  intros ch i j Hc Hi Hj. cbv zeta. rewrite !at3_tab3 by auto. split; reflexivity.
Qed.
Print Assumptions C46_formula.

(** The chain rule asks for the entrywise sum of the two. *)
Theorem C46_sum_is_the_gradient : forall p a b r c (K : R -> conv ROps) vk vb (x : R -> list (matrix RC)) vx,
  conv_moves a b K vk vb -> maps_move (channels ROps (K 0%R)) r c x vx -> a <= r -> b <= c ->
  (forall o i j, o < filters ROps (K 0%R) -> i < r - a + 1 -> j < c - b + 1 ->
     act_diff p (k_func (K 0%R)) (cpre ROps a b (K 0%R) (x 0%R) o i j)) ->
  exists (y : R -> list (matrix RC)) (vy : list RC),
    locally 0%R (fun t => conv_forward ROps p (K t) (IOMatrix (x t)) = Ret (Ok (IOMatrix (y t)))) /\
    maps_move (filters ROps (K 0%R)) (r - a + 1) (c - b + 1) y vy /\
    forall g, length g = length vy ->
      exists dk db dx dxc,
        conv_derivatives ROps p (K 0%R) (IOMatrix (x 0%R)) g (map (c_conj ROps) g) = Ret (Ok (dk, db, dx, dxc)) /\
        length dx = length vx /\ length dxc = length vx /\
        rate g vy = (rate dk vk + rate db vb + rate (vadd dx dxc) vx)%R.
Proof.
  intros p a b r c K vk vb x vx MK MX A B AD.
  destruct (conv_chain p a b r c K vk vb x vx MK MX A B AD) as (y & vy & E1 & E2 & E3 & E4).
  exists y, vy. repeat (split; [assumption|]). intros g Lg.
  destruct (E4 g (map (c_conj ROps) g)) as (dk & db & dx & dxc & F1 & F2 & F3 & F4 & F5 & F6); [auto | now rewrite map_length | now left|].
  exists dk, db, dx, dxc. auto.
Qed.
Print Assumptions C46_sum_is_the_gradient.

(** Witness: a layer with one 1 x 1 kernel of weight 1 and the part-wise ReLU,
    input 1 - i moving with velocity 1.  The output moves with velocity 1; for
    the gradient g = 1 of the output its rate is 2 but the propagated gradient
    gives 1. *)
Definition wit_l : conv ROps := mkConv ROps 1 (from_body [mat 1 1 (fun _ _ => mkC 1%R 0%R)] 1 1) [mkC 0%R 0%R] RITReLU.
Definition wit_x (t : R) : list (matrix RC) := [mat 1 1 (fun _ _ => mkC (1 + t)%R (-1)%R)].

Theorem C46_refuted : exists (y : R -> list (matrix RC)) vy g dk db dx dxc,
  conv_moves 1 1 (fun _ => wit_l) [mkC 0%R 0%R] [mkC 0%R 0%R] /\
  maps_move 1 1 1 wit_x [mkC 1%R 0%R] /\
  locally 0%R (fun t => conv_forward ROps P64 wit_l (IOMatrix (wit_x t)) = Ret (Ok (IOMatrix (y t)))) /\
  maps_move 1 1 1 y vy /\
  conv_derivatives ROps P64 wit_l (IOMatrix (wit_x 0%R)) g (map (c_conj ROps) g) = Ret (Ok (dk, db, dx, dxc)) /\
  rate g vy = 2%R /\ rate dx [mkC 1%R 0%R] = 1%R /\ dxc <> map (c_conj ROps) (vadd dx dxc).
Proof.
  assert (W : conv_wf ROps 1 1 wit_l).
  { unfold conv_wf, wf, filters, channels. cbn. repeat split; auto; intros; destruct H as [<- | []]; reflexivity. }
  assert (MK : conv_moves 1 1 (fun _ => wit_l) [mkC 0%R 0%R] [mkC 0%R 0%R]).
  { split; [auto|]. split; split; try reflexivity; intros [|k] Hk; cbn in Hk; try lia; cbn; apply cderiv_const. }
  assert (MX : maps_move 1 1 1 wit_x [mkC 1%R 0%R]).
  { split.
    - intros t. split; [reflexivity|]. intros m [<- | []]. split; [apply wf_mat | split; reflexivity].
    - split; [reflexivity|]. intros [|k] Hk; cbn in Hk; [|lia]. cbn. split; cbn; auto_derive; auto. }
  assert (Q : forall t, cpre ROps 1 1 wit_l (wit_x t) 0 0 0 = mkC (1 + t)%R (-1)%R).
  { intros t. unfold cpre, corr, sum_from, px, kval, entry. cbn. apply c_ext; cbn; ring. }
  assert (SM : smooth P64 RITReLU (mkC (1 + 0)%R (-1)%R)) by (cbn; split; lra).
  assert (R1 : d_relu ROps 1%R = 1%R) by (unfold d_relu; cbn [fsignneg ROps]; rewrite (proj2 (Rltb_ge 1 0)) by lra; reflexivity).
  assert (R2 : d_relu ROps (-1)%R = 0%R) by (unfold d_relu; cbn [fsignneg ROps]; rewrite (proj2 (Rltb_lt (-1) 0)) by lra; reflexivity).
  assert (Z0 : cpre ROps 1 1 wit_l (wit_x 0%R) 0 0 0 = mkC 1%R (-1)%R).
  { rewrite Q. apply c_ext; cbn [Cplx.re Cplx.im]; lra. }
  assert (D : d_activate ROps P64 RITReLU (mkC 1%R (-1)%R) = Ret (mkC (1/2)%R 0%R)).
  { cbn [d_activate]. unfold d_ritrelu. cbn [Cplx.re Cplx.im]. f_equal. rewrite R1, R2, half_R. apply c_ext; [|reflexivity].
    change ((1 + 0) * (1 / 2) = 1 / 2)%R. lra. }
  assert (DC : d_conj_activate ROps P64 RITReLU (mkC 1%R (-1)%R) = Ret (mkC (1/2)%R 0%R)).
  { cbn [d_conj_activate]. unfold d_conj_ritrelu. cbn [Cplx.re Cplx.im]. f_equal. rewrite R1, R2, half_R. apply c_ext; [|reflexivity].
    change ((1 - 0) * (1 / 2) = 1 / 2)%R. lra. }
  assert (AD : forall o i j, o < filters ROps wit_l -> i < 1 - 1 + 1 -> j < 1 - 1 + 1 ->
            act_diff P64 (k_func wit_l) (cpre ROps 1 1 wit_l (wit_x 0%R) o i j)).
  { intros o i j Ho Hi Hj. change (filters ROps wit_l) with 1 in Ho. assert (o = 0) by lia. assert (i = 0) by lia. assert (j = 0) by lia. subst.
    rewrite Q. apply C41_smooth. exact SM. }
  destruct (C46_sum_is_the_gradient P64 1 1 1 1 (fun _ => wit_l) _ _ wit_x _ MK MX (le_n 1) (le_n 1) AD) as (y & vy & E1 & E2 & E3).
  pose proof (E3 [mkC 1%R 0%R]) as E4.
  assert (Lvy : length vy = 1).
  { destruct E2 as (H1 & H2 & _). rewrite <- (H2 0%R). unfold map_values.
    specialize (H1 0%R) as (H3 & H4). change (filters ROps wit_l) with 1 in H3. destruct (y 0%R) as [|m [|]]; cbn in H3; try discriminate.
    destruct (H4 m) as (H5 & H6 & H7); [now left|]. cbn. rewrite app_nil_r. transitivity (length (body m)); [reflexivity|]. red in H5. rewrite H5, H6, H7. reflexivity. }
  destruct (E4 (eq_sym Lvy)) as (dk & db & dx & dxc & F1 & F2 & F3 & F4). clear E4 E3.
  destruct (C46_formula ROps P64 1 1 1 1 wit_l (wit_x 0%R) [mkC 1%R 0%R] (map (c_conj ROps) [mkC 1%R 0%R])
             (fun _ _ _ => mkC (1/2)%R 0%R) (fun _ _ _ => mkC (1/2)%R 0%R) W (proj1 MX 0%R) (le_n 1) (le_n 1) eq_refl eq_refl)
    as (dk' & db' & dx' & dxc' & G1 & G2 & G3 & G4).
  { intros o i j Ho Hi Hj. change (filters ROps wit_l) with 1 in Ho. assert (o = 0) by lia. assert (i = 0) by lia. assert (j = 0) by lia. subst.
    rewrite Z0. split; assumption. }
  assert (T : dk' = dk /\ db' = db /\ dx' = dx /\ dxc' = dxc) by (rewrite F1 in G1; repeat split; congruence).
  destruct T as (-> & -> & -> & ->). clear G1.
  destruct (G4 0 0 0) as (G5 & G6); [cbn; lia..|].
  change (length dx = 1) in G2. change (length dxc = 1) in G3.
  destruct dx as [|dx0 [|]]; try discriminate. destruct dxc as [|dxc0 [|]]; try discriminate.
  assert (X1 : dx0 = mkC (1/2)%R 0%R).
  { change dx0 with (at3 (c_default ROps) 1 1 [dx0] 0 0 0). rewrite G5.
    unfold sum_from, corr, framed, at3, kval, entry. cbn. apply c_ext; cbn; lra. }
  assert (X2 : dxc0 = mkC (1/2)%R 0%R).
  { change dxc0 with (at3 (c_default ROps) 1 1 [dxc0] 0 0 0). rewrite G6.
    unfold sum_from, corr, framed, at3, kval, entry. cbn. apply c_ext; cbn; lra. }
  subst dx0 dxc0.
  exists y, vy, [mkC 1%R 0%R], dk, db, [mkC (1/2)%R 0%R], [mkC (1/2)%R 0%R].
  split; [exact MK|]. split; [exact MX|]. split; [exact E1|]. split; [exact E2|]. split; [exact F1|]. split.
  { rewrite F4. change [mkC 0%R 0%R] with (repeat (0%RC : RC) 1). rewrite !rate_zero. cbn. lra. }
  split; [cbn; lra|]. cbn. intros H. apply (f_equal (fun l => Cplx.re (nth 0 l (0%RC : RC)))) in H. cbn in H. lra.
Qed.
Print Assumptions C46_refuted.

(** When the activation does not depend on the conjugate (its conjugate
    derivative vanishes at every pre-activation: identity and ZReLU), the
    propagated gradient alone is the true one, whatever conjugate gradient is
    fed in. *)
Theorem C46_exact_without_conjugate : forall p a b r c (K : R -> conv ROps) vk vb (x : R -> list (matrix RC)) vx,
  conv_moves a b K vk vb -> maps_move (channels ROps (K 0%R)) r c x vx -> a <= r -> b <= c ->
  (forall o i j, o < filters ROps (K 0%R) -> i < r - a + 1 -> j < c - b + 1 ->
     act_diff p (k_func (K 0%R)) (cpre ROps a b (K 0%R) (x 0%R) o i j) /\
     d_conj_activate ROps p (k_func (K 0%R)) (cpre ROps a b (K 0%R) (x 0%R) o i j) = Ret (mkC 0%R 0%R)) ->
  exists (y : R -> list (matrix RC)) (vy : list RC),
    locally 0%R (fun t => conv_forward ROps p (K t) (IOMatrix (x t)) = Ret (Ok (IOMatrix (y t)))) /\
    maps_move (filters ROps (K 0%R)) (r - a + 1) (c - b + 1) y vy /\
    forall g gc, length g = length vy -> length gc = length vy ->
      exists dk db dx dxc,
        conv_derivatives ROps p (K 0%R) (IOMatrix (x 0%R)) g gc = Ret (Ok (dk, db, dx, dxc)) /\
        rate g vy = (rate dk vk + rate db vb + rate dx vx)%R.
Proof.
  intros p a b r c K vk vb x vx MK MX A B AD.
  destruct (conv_chain p a b r c K vk vb x vx MK MX A B (fun o i j Ho Hi Hj => proj1 (AD o i j Ho Hi Hj))) as (y & vy & E1 & E2 & E3 & E4).
  exists y, vy. repeat (split; [assumption|]). intros g gc Lg Lgc.
  destruct (E4 g gc Lg Lgc) as (dk & db & dx & dxc & F1 & F2 & F3 & F4 & F5 & F6).
  { right. intros o i j Ho Hi Hj. now apply AD. }
  exists dk, db, dx, dxc. split; [assumption|]. rewrite F6. f_equal. f_equal.
  set (l := K 0%R) in *. set (q := cpre ROps a b l (x 0%R)) in *.
  set (d := fun o i j => match d_activate ROps p (k_func l) (q o i j) with Ret v => v | Panic => 0%RC end).
  assert (HD : forall o i j, o < filters ROps l -> i < r - a + 1 -> j < c - b + 1 ->
             d_activate ROps p (k_func l) (q o i j) = Ret (d o i j) /\ d_conj_activate ROps p (k_func l) (q o i j) = Ret (0%RC : RC)).
  { intros o i j Ho Hi Hj. destruct (AD o i j Ho Hi Hj) as ((d0 & dc0 & _ & D1 & _) & DC). split; [|exact DC].
    unfold d. now rewrite D1. }
  pose proof (proj1 MK 0%R) as (W & _). destruct MX as (MX & _).
  rewrite E3 in Lg, Lgc.
  destruct (C46_formula ROps p a b r c l (x 0%R) g gc d (fun _ _ _ => 0%RC) W (MX 0%R) A B Lg Lgc HD) as (dk' & db' & dx' & dxc' & G1 & G2 & G3 & G4).
  assert (T : dx' = dx /\ dxc' = dxc) by (rewrite F1 in G1; split; congruence). destruct T as (-> & ->). clear G1.
  assert (Z : dxc = tab3 (channels ROps l) r c (fun _ _ _ => 0%RC)).
  { rewrite (list_tab3 0%RC (channels ROps l) r c dxc G3). apply tab3_ext. intros ch i j Hc Hi Hj.
    destruct (G4 ch i j Hc Hi Hj) as (_ & ->). cbv zeta.
    apply (csum_zero (fun o => corr (cops ROps) a b _ _ i j)). intros o Ho. rewrite corr_dsum. apply dsum_zero. intros u v Hu Hv.
    assert (PZ : forall i j, (conj (0%RC : RC) * at3 (c_default ROps) (r - a + 1) (c - b + 1) gc o i j = 0)%RC) by (intros; rewrite conj_0; ring).
    unfold framed. destruct (_ && _)%bool; [rewrite PZ|]; ring. }
  rewrite (list_tab3 0%RC (channels ROps l) r c dx G2). rewrite (list_tab3 0%RC (channels ROps l) r c (vadd _ dxc)).
  - apply tab3_ext. intros ch i j Hc Hi Hj. rewrite (at3_vadd r c _ _ (channels ROps l)) by (rewrite ?tab3_length; auto).
    rewrite Z. rewrite !at3_tab3 by auto. ring.
  - unfold vadd. rewrite map_length, combine_length, tab3_length, G3. lia.
Qed.
Print Assumptions C46_exact_without_conjugate.
