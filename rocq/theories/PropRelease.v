(** * The release profile (C73)

    [U] is the number of [usize] values.  The functions ending in [_rel] are
    the release builds: subtraction (and the sizes computed by [pad]) wrap
    modulo [U] instead of panicking. *)
From Coq Require Import Reals.
From Verif Require Import Base BaseFacts Float Matrix Cplx Act Input Dense Conv Layer Network SpecMatrix MatrixFacts MatrixFacts2 SpecConv LayerFacts ConvFacts
  PropMatrix RFloat CFacts Release ReleaseFacts ExOps.

(** Whatever a debug build returns (a value or an error), a release build
    returns too, as long as the sizes involved fit in a word. *)
Theorem C73_agrees : forall U {T} (O : BasicOps T),
  (forall (m k : matrix T) r, convolution O m k = Ret r -> convolution_rel U O m k = Ret r) /\
  (forall cj (m k : matrix T) r, cconvolution O cj m k = Ret r -> cconvolution_rel U O cj m k = Ret r) /\
  (forall (m : matrix T) p q, sh0 m + 2 * p < U -> sh1 m + 2 * q < U -> pad_rel U O m p q = pad O m p q) /\
  (forall (m kernel : matrix T) a b r, sh0 m * a + 2 * sh0 kernel < U -> sh1 m * b + 2 * sh0 kernel < U ->
     fractional_upsampling O m a b kernel = Ret r -> fractional_upsampling_rel U O m a b kernel = Ret r).
Proof.
  intros U T O. split; [apply convolution_dev|]. split; [apply cconvolution_dev|]. split; [apply pad_dev|].
  intros m kernel a b r A B. apply upsampling_dev; lia.
Qed.
Print Assumptions C73_agrees.

Theorem C73_agrees_network : forall U Fl,
  (forall (l : red Fl) ms g gc r, (forall m, In m ms -> sh0 m + 2 * sh0 (r_kernel l) < U /\ sh1 m + 2 * sh0 (r_kernel l) < U) ->
     red_derivatives Fl l (IOMatrix ms) g gc = Ret r -> red_derivatives_rel U Fl l (IOMatrix ms) g gc = Ret r) /\
  (forall p (n : network Fl) x i r, net_intercept Fl p n x i = Ret r -> net_intercept_rel U Fl p n x i = Ret r).
Proof.
  intros U Fl. split; [|apply intercept_dev]. intros l ms g gc r S. apply red_derivatives_dev. intros ms' E m Hm.
  injection E as <-. specialize (S m Hm). lia.
Qed.
Print Assumptions C73_agrees_network.

(** Convolution with an empty kernel panics in a debug build.  In a release
    build it still does when the kernel has no columns; when it has columns but
    no rows, the answer is a matrix of zeros with one row more than the input. *)
Theorem C73_empty_kernel : forall U {T} (O : BasicOps T) (m k : matrix T),
  wf m -> wf k -> sh0 k = 0 \/ sh1 k = 0 -> sh0 k <= sh0 m -> sh1 k <= sh1 m -> sh0 m + 1 < U ->
  convolution O m k = Panic /\
  (sh1 k = 0 -> convolution_rel U O m k = Panic) /\
  (sh1 k <> 0 -> convolution_rel U O m k = Ret (Ok (mat (sh0 m + 1) (sh1 m - sh1 k + 1) (fun _ _ => dflt O)))).
Proof.
  intros U T O m k Hm Hk Z F0 F1 HU. split; [now apply C23_zero_dim|]. split.
  - intros K. now apply convolution_colless.
  - intros K. destruct Z as [Z|Z]; [|contradiction]. apply convolution_rowless; auto; lia.
Qed.
Print Assumptions C73_empty_kernel.

(** Fractional up-sampling with a kernel of one row: a debug build panics; a
    release build returns a smaller matrix which does not depend on the
    matrix being up-sampled. *)
Theorem C73_one_row_kernel : forall U {T} (O : BasicOps T) (m kernel : matrix T) a q,
  wf m -> wf kernel -> 1 <= a -> 1 <= sh0 m -> 1 <= sh1 m ->
  sh0 kernel = 1 -> sh1 kernel = q -> q mod 2 = 1 ->
  3 <= sh0 m * a < U -> q + 2 <= sh1 m * a < U ->
  fractional_upsampling O m a a kernel = Panic /\
  fractional_upsampling_rel U O m a a kernel =
  Ret (Ok (mat (sh0 m * a - 2) (sh1 m * a - 1 - q) (fun _ _ => corr O 1 q (fun _ _ => dflt O) (entry (dflt O) kernel) 0 0))).
Proof.
  intros U T O m kernel a q H Hk Ha H0 H1 K0 K1 Q (S0 & S0') (S1 & S1'). split; [|now apply upsampling_one].
  rewrite upsampling_shape; auto; [|lia|].
  - cbn zeta. rewrite K0, K1, Q. reflexivity.
  - unfold up_off. destruct (a mod 2 =? 0).
    + assert (a / 2 <= a) by (apply Nat.div_le_upper_bound; lia). lia.
    + assert ((a - 1) / 2 <= a - 1) by (apply Nat.div_le_upper_bound; lia). lia.
Qed.
Print Assumptions C73_one_row_kernel.

(** So the backward pass of a pooling layer whose kernel is 1 x 1 panics in a
    debug build, while a release build replaces every incoming gradient by the
    same constant list, of the wrong length; over the reals, by zeros. *)
Theorem C73_pooling_loses_gradient : forall U Fl (l : red Fl) a n r c x (g gc : list (cplx (F Fl))),
  r_b0 l = a -> r_b1 l = a -> wf (r_kernel l) -> sh0 (r_kernel l) = 1 -> sh1 (r_kernel l) = 1 ->
  1 <= a <= r -> a <= c -> r mod a = 0 -> c mod a = 0 -> 3 <= r < U -> 3 <= c < U -> 1 <= n -> maps_wf n r c x ->
  length g = n * (r / a * (c / a)) -> length gc = n * (r / a * (c / a)) ->
  red_derivatives Fl l (IOMatrix x) g gc = Panic /\
  exists v, red_derivatives_rel U Fl l (IOMatrix x) g gc = Ret (Ok ([], [], repeat v (n * ((r - 2) * (c - 2))), repeat v (n * ((r - 2) * (c - 2))))) /\
    (forall g' gc', length g' = n * (r / a * (c / a)) -> length gc' = n * (r / a * (c / a)) ->
       red_derivatives_rel U Fl l (IOMatrix x) g' gc' = red_derivatives_rel U Fl l (IOMatrix x) g gc).
Proof.
  intros U Fl l a n r c x g gc B0 B1 WK K0 K1 (A1 & AR) AC MR MC (R3 & RU) (C3 & CU) N1 M Lg Lgc. split.
  - assert (DR : r / a * a = r) by (pose proof (Nat.div_mod r a); lia).
    assert (DC : c / a * a = c) by (pose proof (Nat.div_mod c a); lia).
    assert (C1 : 1 <= c / a) by (apply Nat.div_le_lower_bound; lia).
    destruct M as (LX & Sh). unfold red_derivatives. rewrite LX, udiv_ok by lia. cbn [obind].
    destruct (chunks _ g) as [ca|]; [|reflexivity]. cbn [obind]. destruct (chunks _ gc) as [cb|]; [|reflexivity]. cbn [obind].
    destruct x as [|m x]; [cbn in LX; lia|]. cbn [foldM]. unfold red_step at 1.
    destruct (Sh m (or_introl eq_refl)) as (Wm & E0 & E1). rewrite E0, E1, B0, B1, !udiv_ok by lia. cbn [obind].
    destruct ca as [|h ca]; [reflexivity|]. unfold to_matrix at 1. destruct (length h =? r / a * (c / a)) eqn:EL; [|reflexivity].
    apply Nat.eqb_eq in EL. cbn [negb unwrap obind].
    rewrite (C26_one_kernel_panics (cops Fl)); auto. cbn [from_body sh1]. lia.
  - eexists. split; [apply (red_one U Fl l a n r c); auto|]. intros g' gc' L1 L2.
    rewrite !(red_one U Fl l a n r c) by auto. reflexivity.
Qed.
Print Assumptions C73_pooling_loses_gradient.

Theorem C73_pooling_zero : forall U (l : red ROps) a n r c x (g gc : list RC),
  r_b0 l = a -> r_b1 l = a -> wf (r_kernel l) -> sh0 (r_kernel l) = 1 -> sh1 (r_kernel l) = 1 ->
  1 <= a <= r -> a <= c -> r mod a = 0 -> c mod a = 0 -> 3 <= r < U -> 3 <= c < U -> 1 <= n -> maps_wf n r c x ->
  length g = n * (r / a * (c / a)) -> length gc = n * (r / a * (c / a)) ->
  let zeros := repeat (0%RC : RC) (n * ((r - 2) * (c - 2))) in
  red_derivatives_rel U ROps l (IOMatrix x) g gc = Ret (Ok ([], [], zeros, zeros)).
Proof.
  intros U l a n r c x g gc B0 B1 WK K0 K1 (A1 & AR) AC MR MC (R3 & RU) (C3 & CU) N1 M Lg Lgc zeros.
  rewrite (red_one U ROps l a n r c) by auto. cbn zeta.
  match goal with |- context [repeat ?v _] => replace v with (0%RC : RC); [reflexivity|] end.
  unfold corr, sum_from. cbn [seq fold_left cops dflt add mul add_assign].
  destruct (entry _ _ _ _) as [e f]. apply c_ext; cbn; ring.
Qed.
Print Assumptions C73_pooling_zero.

(** The other underflows panic in a release build as well: too large a kernel
    for the complex convolution, blocks more than twice as tall as they are
    (oddly) wide, and intercepting a network without layers. *)
Theorem C73_still_panics : forall U {T} (O : BasicOps T) Fl,
  (forall cj (m k : matrix T), wf m -> wf k -> 1 <= sh0 m -> 1 <= sh1 m -> 1 <= sh0 k < U -> 1 <= sh1 k < U ->
     sh0 m + 1 < sh0 k \/ sh1 m + 1 < sh1 k /\ sh0 k <= sh0 m ->
     cconvolution O cj m k = Panic /\ cconvolution_rel U O cj m k = Panic) /\
  (forall (m kernel : matrix T) a b, wf m -> 1 <= sh0 m -> 1 <= sh1 m -> b mod 2 = 1 -> 2 * b + 1 <= a < U ->
     fractional_upsampling O m a b kernel = Panic /\ fractional_upsampling_rel U O m a b kernel = Panic) /\
  (forall p x i, 1 <= i + 1 < U -> net_intercept Fl p [] x i = Panic /\ net_intercept_rel U Fl p [] x i = Panic).
Proof.
  intros U T O Fl. split; [|split].
  - intros cj m k Hm Hk M0 M1 (K0 & L0) (K1 & L1) H. split.
    + unfold cconvolution. rewrite (usub_ok (sh0 k)) by lia. cbn [obind]. destruct H as [H|(H & F)].
      * now rewrite usub_panic by lia.
      * rewrite usub_ok by lia. cbn [obind]. rewrite (usub_ok (sh1 k)) by lia. cbn [obind]. now rewrite usub_panic by lia.
    + apply cconvolution_large; auto; lia.
  - intros m kernel a b Hm M0 M1 Hb (Hab & HU). split; [now apply C26_tall_block_panics|now apply upsampling_tall].
  - intros p x i Hi. split; [reflexivity|]. unfold net_intercept_rel. cbn [length]. rewrite wsub_wrap by lia.
    replace (U + 0 - 1 <? i) with false by (symmetry; apply Nat.ltb_ge; lia). reflexivity.
Qed.
Print Assumptions C73_still_panics.

(** A 2 x 2 matrix up-sampled by 2 with the 1 x 1 kernel (5): a debug build
    panics, a 64-bit release build answers a 2 x 2 matrix of zeros. *)
Example C73_ex :
  fractional_upsampling Zops (mkM [1; 2; 3; 4]%Z 2 2 2 2) 2 2 (mkM [5]%Z 1 1 1 1) = Panic /\
  fractional_upsampling_rel (2 ^ 64) Zops (mkM [1; 2; 3; 4]%Z 2 2 2 2) 2 2 (mkM [5]%Z 1 1 1 1) = Ret (Ok (mkM [0; 0; 0; 0]%Z 2 2 2 2)) /\
  convolution_rel (2 ^ 64) Zops (mkM [1; 2; 3; 4]%Z 2 2 2 2) (mkM [] 0 2 0 2) = Ret (Ok (mkM [0; 0; 0]%Z 3 1 3 1)).
Proof.
  assert (U : 10 < 2 ^ 64) by (apply Nat.lt_le_trans with (2 ^ 4); [cbn; lia|apply Nat.pow_le_mono_r; lia]).
  split; [reflexivity|]. split.
  - destruct (C73_one_row_kernel (2 ^ 64) Zops (mkM [1; 2; 3; 4]%Z 2 2 2 2) (mkM [5]%Z 1 1 1 1) 2 1) as (_ & ->); try reflexivity; cbn [sh0 sh1]; lia.
  - destruct (C73_empty_kernel (2 ^ 64) Zops (mkM [1; 2; 3; 4]%Z 2 2 2 2) (mkM [] 0 2 0 2)) as (_ & _ & ->); try reflexivity; cbn [sh0 sh1]; lia.
Qed.
