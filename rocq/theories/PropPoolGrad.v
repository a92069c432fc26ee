(** * Mean pooling and the gradient (C66) *)
From Coq Require Import Reals Lra Psatz.
From Coquelicot Require Import Coquelicot.
From Verif Require Import Base BaseFacts Float Matrix Cplx Random Act Input Loss Dense Conv Layer Dataset Network RFloat SpecMatrix MatrixFacts CFacts Adjoint
  SpecCalculus CalcFacts SpecLoss LossFacts SpecLayer DenseFacts SpecConv ConvFacts ConvCalc PoolFacts PropMatrix PropPool SpecNet NetFacts PropAct PropDense PropConv SpecGrad PoolCalc
  PropGrad Examples PoolTrain.
Local Open Scope nat_scope.
Local Notation re := Cplx.re.
Local Notation im := Cplx.im.

(** ** C66 *)
(** What the gradient is.  The maps move, and so do their block means; a gradient
    [g] with respect to the means predicts the same change as [mean_grad] of it
    with respect to the pixels: 1/a^2 of the value of its block for every pixel. *)
Theorem C66_gradient : forall a (l : red ROps) n r c (x : R -> list (matrix RC)) vx,
  takes_means a l -> maps_move n r c x vx -> a <= r -> a <= c -> r mod a = 0 -> c mod a = 0 ->
  exists (y : R -> list (matrix RC)) vy,
    (forall t, red_forward ROps l (IOMatrix (x t)) = Ret (Ok (IOMatrix (y t)))) /\ maps_move n (r / a) (c / a) y vy /\
    forall g, rate g vy = rate (mean_grad a n r c g) vx.
Proof.
  intros a l n r c x vx T M AR AC MR MC. destruct (pool_chain a l n r c x vx T M AR AC MR MC) as (y & vy & E1 & E2 & _ & _ & E3).
  exists y, vy. auto.
Qed.
Print Assumptions C66_gradient.

(** The backward pass hands back this gradient, for all values, exactly if the
    blocks have side 1, 2 or 3 and the kernel is the one that spreads a value
    evenly over its own block.  No 3 x 3 kernel serves blocks of side 4 or more. *)
Theorem C66_exact_iff : forall a (l : red ROps) n r c x, takes_means a l -> kernel_3x3 (r_kernel l) -> 1 <= n -> maps_wf n r c x ->
  2 * a <= r -> 2 * a <= c -> r mod a = 0 -> c mod a = 0 ->
  (forall g gc, length g = n * (r / a * (c / a)) -> length gc = n * (r / a * (c / a)) ->
     red_derivatives ROps l (IOMatrix x) g gc = Ret (Ok ([], [], mean_grad a n r c g, mean_grad a n r c gc))) <->
  a <= 3 /\ forall u v, u < 3 -> v < 3 -> entry (c_default ROps) (r_kernel l) u v = mkC (mean_kernel a u v) 0%R.
Proof.
  intros a l n r c x T K N1 M HR HC MR MC. pose proof T as (A & B0 & B1 & _). pose proof K as (WK & K0 & K1). split.
  - intros H. apply (kernel_forced a (r_kernel l) n r c); auto. intros g Lg. specialize (H g g Lg Lg).
    rewrite (red_derivatives_ok ROps l a n r c x g g) in H by (auto; lia). congruence.
  - intros (A3 & HK) g gc Lg Lgc. apply pool_back; auto; try lia. split; [exact T|]. auto.
Qed.
Print Assumptions C66_exact_iff.

(** Such a kernel exists, so such a layer can be part of a network that C54 is
    about: here after a convolutional first layer. *)
Theorem C66_cnn_smooth : forall p (k : conv ROps) a b r c m (l : red ROps) fl (ls : list (dense ROps)) (x : list (matrix RC)),
  conv_wf ROps a b k -> maps_wf (channels ROps k) r c x -> a <= r -> b <= c ->
  mean_pool m l -> m <= r - a + 1 -> m <= c - b + 1 -> (r - a + 1) mod m = 0 -> (c - b + 1) mod m = 0 ->
  widths_fit ROps ls (filters ROps k * ((r - a + 1) / m * ((c - b + 1) / m))) ->
  (k_func k = ActNone \/ k_func k = RITTanh) -> (forall l, In l ls -> d_func l = ActNone \/ d_func l = RITTanh) ->
  smooth_path p true (LConv k :: LReduce l :: LFlatten fl :: map LDense ls) (IOMatrix x).
Proof.
  intros p k a b r c m l fl ls x W M A B MP P1 P2 P3 P4 WF AK AL. cbn [smooth_path].
  split.
  { exists a, b, r, c. split; [exact W|]. split; [exact M|]. split; [exact A|]. split; [exact B|].
    intros. apply C41_smooth. destruct AK as [-> | ->]; exact I. }
  split; [left; destruct ls; exact I|]. split; [now left|]. intros y E.
  set (f := fun o i j => match activate ROps p (k_func k) (cpre ROps a b k x o i j) with Ret v => v | Panic => c_default ROps end).
  assert (F : conv_forward ROps p k (IOMatrix x) = Ret (Ok (IOMatrix (map (fun o => mat (r - a + 1) (c - b + 1) (f o)) (seq 0 (filters ROps k)))))).
  { apply C44_forward; try assumption. intros o i j _ _ _. unfold f. destruct AK as [-> | ->]; reflexivity. }
  cbn [layer_forward] in E. pose proof (eq_trans (eq_sym E) F) as EE. injection EE as ->. clear E F.
  set (ms := map (fun o => mat (r - a + 1) (c - b + 1) (f o)) (seq 0 (filters ROps k))).
  assert (MM : maps_wf (filters ROps k) (r - a + 1) (c - b + 1) ms).
  { split; [unfold ms; now rewrite map_length, seq_length|]. intros q Hq. apply in_map_iff in Hq as (o & <- & _). split; [apply wf_mat | split; reflexivity]. }
  split; [exists m, (filters ROps k), (r - a + 1), (c - b + 1); destruct W as (_ & W1 & _); auto 10|].
  split; [left; destruct ls; exact I|]. split; [right; left; discriminate|]. intros y E.
  cbn [layer_forward] in E. pose proof (pool_forward m l _ _ _ ms (proj1 MP) MM P1 P2 P3 P4) as F.
  pose proof (eq_trans (eq_sym E) F) as EE. injection EE as ->. clear E F.
  split; [exact I|]. split; [left; destruct ls; exact I|]. split; [right; left; discriminate|]. intros y E.
  cbn [layer_forward flat_forward] in E. injection E as <-.
  eapply C54_dense_smooth; [exact WF | | exact AL].
  rewrite flat_map_concat_map, map_map. rewrite (concat_length_const ((r - a + 1) / m * ((c - b + 1) / m))).
  - unfold ms. now rewrite !map_length, seq_length.
  - apply Forall_forall. intros z Hz. apply in_map_iff in Hz as (o & <- & _). cbn [mat body]. apply concat_tab_length.
Qed.
Print Assumptions C66_cnn_smooth.

(** ** The example program *)
(** Its pooling layer takes means over 2 x 2 blocks. *)
Theorem C66_example_mean : forall n, takes_means 2 (red_init ROps n 2 2 (avg_block ROps) (spread_kernel ROps)) /\ kernel_3x3 (spread_kernel ROps).
Proof.
  intros n. split; [|repeat split]. split; [lia|]. split; [reflexivity|]. split; [reflexivity|]. intros b L. cbn [r_func red_init].
  apply avg_mean. intros ->. discriminate L.
Qed.
Print Assumptions C66_example_mean.

(** Its kernel interpolates: each pixel gets the mean of the values of the blocks
    number i/2 and (i+1)/2, j/2 and (j+1)/2, where blocks past the edge count as
    zero. *)
Theorem C66_example_backward : forall n r c x g gc, 1 <= n -> maps_wf n r c x -> 2 <= r -> 2 <= c -> r mod 2 = 0 -> c mod 2 = 0 ->
  length g = n * (r / 2 * (c / 2)) -> length gc = n * (r / 2 * (c / 2)) ->
  let at_block h ch p q := if (p <? r / 2) && (q <? c / 2) then at3 (c_default ROps) (r / 2) (c / 2) h ch p q else c_default ROps in
  let interp h ch i j := (mkC (/ 4)%R 0%R * (at_block h ch (i / 2) (j / 2) + at_block h ch ((i + 1) / 2) (j / 2) +
                          at_block h ch (i / 2) ((j + 1) / 2) + at_block h ch ((i + 1) / 2) ((j + 1) / 2)))%RC in
  red_derivatives ROps (red_init ROps n 2 2 (avg_block ROps) (spread_kernel ROps)) (IOMatrix x) g gc =
  Ret (Ok ([], [], tab3 n r c (interp g), tab3 n r c (interp gc))).
Proof.
  intros n r c x g gc N1 M HR HC MR MC Lg Lgc at_block interp.
  rewrite (red_derivatives_ok ROps _ 2 n r c x g gc); auto; try reflexivity.
  cbn [r_kernel red_init].
  assert (E : forall h, tab3 n r c (fun ch => ups ROps 2 r c (spread_kernel ROps) (at3 0%RC (r / 2) (c / 2) h ch)) = tab3 n r c (interp h)).
  { intros h. apply tab3_ext. intros ch i j _ _ _. rewrite ups_spread; auto.
    intros u v Hu Hv. assert (u = 0 \/ u = 1 \/ u = 2) as [-> | [-> | ->]] by lia; assert (v = 0 \/ v = 1 \/ v = 2) as [-> | [-> | ->]] by lia;
      apply c_ext; cbn; lra. }
  now rewrite !E.
Qed.
Print Assumptions C66_example_backward.

(** So it is not the gradient: the first pixel of every block gets four times its
    share. *)
Theorem C66_example_refuted : forall n r c x g gc dx dxc, 1 <= n -> maps_wf n r c x -> 2 <= r -> 2 <= c -> r mod 2 = 0 -> c mod 2 = 0 ->
  length g = n * (r / 2 * (c / 2)) -> length gc = n * (r / 2 * (c / 2)) ->
  red_derivatives ROps (red_init ROps n 2 2 (avg_block ROps) (spread_kernel ROps)) (IOMatrix x) g gc = Ret (Ok ([], [], dx, dxc)) ->
  forall ch p q, ch < n -> p < r / 2 -> q < c / 2 ->
    at3 (c_default ROps) r c dx ch (2 * p) (2 * q) = (mkC 4%R 0%R * at3 (c_default ROps) r c (mean_grad 2 n r c g) ch (2 * p) (2 * q))%RC.
Proof.
  intros n r c x g gc dx dxc N1 M HR HC MR MC Lg Lgc E ch p q Hc Hp Hq.
  rewrite (C66_example_backward n r c x g gc) in E by assumption.
  match type of E with Ret (Ok (_, _, ?d, _)) = _ => assert (ED : dx = d) by congruence end. rewrite ED. clear E ED.
  pose proof (Nat.div_mod r 2 ltac:(lia)). pose proof (Nat.div_mod c 2 ltac:(lia)).
  unfold mean_grad. rewrite !at3_tab3 by lia.
  assert (D : forall p, 2 * p / 2 = p /\ (2 * p + 1) / 2 = p).
  { clear. intros p. rewrite (Nat.mul_comm 2 p), Nat.div_mul, Nat.div_add_l, (Nat.div_small 1 2), Nat.add_0_r by lia. auto. }
  destruct (D p) as (-> & ->), (D q) as (-> & ->). rewrite (proj2 (Nat.ltb_lt p _) Hp), (proj2 (Nat.ltb_lt q _) Hq). cbn [andb].
  generalize (at3 (c_default ROps) (r / 2) (c / 2) g ch p q). intros [u v]. apply c_ext; cbn; field.
Qed.
Print Assumptions C66_example_refuted.

(** And training can go the wrong way.  One 1 x 1 kernel, this pooling layer,
    flatten and a dense layer with two outputs; one image with a single bright
    pixel.  Whatever the learning rate, a step makes the reported loss larger. *)
Theorem C66_training_refuted : exists k fl d (data : dataset RC RC),
  let n : network ROps := [LConv k; LReduce (red_init ROps 1 2 2 (avg_block ROps) (spread_kernel ROps)); LFlatten fl; LDense d] in
  forall t, (0 < t)%R -> exists n' v v',
    net_gradient_opt ROps P64 n data MeanSquare (mkC t 0%R) = Ret (n', Ok tt) /\
    net_loss ROps P64 n data MeanSquare = Ret (Ok v) /\ net_loss ROps P64 n' data MeanSquare = Ret (Ok v') /\ (v < v')%R.
Proof.
  exists (l_conv 0 0), (flat_init 1 2 1), (l_dense 1), bad_data. intros n t T.
  exists (bad_net (8 * t) (27 / 4 * t) (1 - t)). do 2 eexists. split; [apply bad_step|]. split; [apply (bad_loss 0 0 1)|]. split; [apply bad_loss|]. nra.
Qed.
Print Assumptions C66_training_refuted.

(** The same network with the even kernel meets the hypotheses of C54, so there
    a small enough step makes the loss smaller. *)
Definition even_kernel : matrix RC :=
  from_body [mkC (/ 4) 0; mkC (/ 4) 0; mkC 0 0; mkC (/ 4) 0; mkC (/ 4) 0; mkC 0 0; mkC 0 0; mkC 0 0; mkC 0 0]%R 3 3.
Example C66_ex : smooth_path P64 true [LConv (l_conv 0 0); LReduce (red_init ROps 1 2 2 (avg_block ROps) even_kernel); LFlatten (flat_init 1 2 1); LDense (l_dense 1)]
  (IOMatrix [bad_image]).
Proof.
  apply (C66_cnn_smooth P64 (l_conv 0 0) 1 1 2 4 2 _ (flat_init 1 2 1) [l_dense 1]).
  - unfold conv_wf, wf, filters, channels. cbn. repeat split; auto; intros; destruct H as [<- | []]; reflexivity.
  - split; [reflexivity|]; intros m [<- | []]; repeat split.
  - lia.
  - lia.
  - split; [apply (C66_example_mean 1)|]. split; [lia|]. split; [repeat split|]. intros u v Hu Hv.
    assert (u = 0 \/ u = 1 \/ u = 2) as [-> | [-> | ->]] by lia; assert (v = 0 \/ v = 1 \/ v = 2) as [-> | [-> | ->]] by lia; reflexivity.
  - cbn; lia.
  - cbn; lia.
  - reflexivity.
  - reflexivity.
  - cbn [widths_fit]. unfold dense_wf, wf, l_dense. cbn. repeat split; auto.
  - now left.
  - intros l [<- | []]. now left.
Qed.

(** Maps of side 4: the even kernel is exact, the example's is not. *)
Example C66_ex_iff : let x := [mat 4 4 (fun _ _ => mkC 1%R 0%R)] in
  (forall g gc, length g = 1 * (4 / 2 * (4 / 2)) -> length gc = 1 * (4 / 2 * (4 / 2)) ->
     red_derivatives ROps (red_init ROps 1 2 2 (avg_block ROps) even_kernel) (IOMatrix x) g gc = Ret (Ok ([], [], mean_grad 2 1 4 4 g, mean_grad 2 1 4 4 gc))) /\
  ~ (forall g gc, length g = 1 * (4 / 2 * (4 / 2)) -> length gc = 1 * (4 / 2 * (4 / 2)) ->
     red_derivatives ROps (red_init ROps 1 2 2 (avg_block ROps) (spread_kernel ROps)) (IOMatrix x) g gc = Ret (Ok ([], [], mean_grad 2 1 4 4 g, mean_grad 2 1 4 4 gc))).
Proof.
  intros x. assert (M : maps_wf 1 4 4 x) by (split; [reflexivity|]; intros m [<- | []]; split; [apply wf_mat | split; reflexivity]).
  split.
  - apply (C66_exact_iff 2 (red_init ROps 1 2 2 (avg_block ROps) even_kernel) 1 4 4 x); auto; try lia; try reflexivity.
    + apply (C66_example_mean 1).
    + repeat split.
    + split; [lia|]. intros u v Hu Hv.
      assert (u = 0 \/ u = 1 \/ u = 2) as [-> | [-> | ->]] by lia; assert (v = 0 \/ v = 1 \/ v = 2) as [-> | [-> | ->]] by lia; reflexivity.
  - intros H. apply (C66_exact_iff 2 (red_init ROps 1 2 2 (avg_block ROps) (spread_kernel ROps)) 1 4 4 x) in H; auto; try lia; try reflexivity.
    + destruct H as (_ & H). specialize (H 1 1 ltac:(lia) ltac:(lia)). apply (f_equal re) in H. cbn in H. lra.
    + apply (C66_example_mean 1).
    + repeat split.
Qed.
