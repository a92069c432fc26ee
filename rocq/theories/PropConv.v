(** * Properties of convolutional layers (C43 - C46) *)
From Verif Require Import Base BaseFacts Float Matrix Cplx Random Act Input Dense Conv Layer SpecMatrix MatrixFacts
  SpecLayer SpecConv DenseFacts LayerFacts ConvFacts ExOps.
Local Notation P32 := Float.P32.
Local Notation P64 := Float.P64.

(** ** C43 *)
Theorem C43_init : forall Fl p pr n f a b func m seed seed' l,
  conv_init Fl p pr (ShMatrix n) f a b func m seed = Ret (seed', Ok l) ->
  wf (k_kernels l) /\ filters Fl l = f /\ channels Fl l = n /\
  (forall k, In k (body (k_kernels l)) -> wf k /\ sh0 k = a /\ sh1 k = b) /\
  k_biases l = repeat (c_default Fl) f /\ k_func l = func /\
  conv_input_shape Fl l = ShMatrix n /\ conv_output_shape Fl l = ShMatrix f /\
  conv_params_len Fl l = (f * n * (a * b), f) /\
  draws (init_gen Fl p pr m) seed (concat (map body (body (k_kernels l)))) seed'.
Proof.
  intros Fl p pr n f a b func m seed seed' l H. cbn [conv_init] in H.
  apply obind_inv in H as [[s ks] [E H]].
  assert (E1 : s = seed') by congruence.
  assert (E2 : mkConv Fl n (from_body (concat ks) f n) (repeat (c_default Fl) f) func = l) by congruence.
  subst s l. clear H. apply gen_n_nested in E as (D & L & Fa).
  apply kernel_draws in D as (D & Sh). unfold filters, channels. cbn [k_kernels k_biases k_func from_body sh0 sh1 body].
  assert (Len : length (concat ks) = f * n) by (rewrite (concat_length_const n) by auto; now rewrite L).
  repeat (split; [solve [auto | exact Len | intros k Hk; apply Sh, Hk]|]).
  split; [|exact D]. unfold conv_params_len. cbn [k_kernels k_biases body from_body]. rewrite repeat_length. f_equal.
  rewrite kernel_count by (apply Forall_forall; intros k Hk; apply Sh, Hk).
  rewrite (concat_length_const (a * b)).
  - now rewrite map_length, Len.
  - apply Forall_forall. intros x Hx. apply in_map_iff in Hx as (k & <- & Hk). destruct (Sh k Hk) as (W & E0 & E1). now rewrite W, E0, E1.
Qed.
Print Assumptions C43_init.

(** In particular a layer with filters, channels and non-empty kernels is one
    the later theorems apply to. *)
Theorem C43_well_formed : forall Fl p pr n f a b func m seed seed' l,
  conv_init Fl p pr (ShMatrix n) f a b func m seed = Ret (seed', Ok l) ->
  1 <= n -> 1 <= f -> 1 <= a -> 1 <= b -> conv_wf Fl a b l.
Proof.
  intros Fl p pr n f a b func m seed seed' l H N1 F1 A1 B1.
  destruct (C43_init _ _ _ _ _ _ _ _ _ _ _ _ H) as (W & E0 & E1 & K & B & _ & I & _).
  unfold conv_wf. rewrite E0, E1, B, repeat_length. unfold conv_input_shape in I. repeat split; auto; try (apply K; auto). congruence.
Qed.
Print Assumptions C43_well_formed.

Theorem C43_total : forall Fl p pr n f a b func m seed, seed_ok pr seed ->
  exists seed' l, conv_init Fl p pr (ShMatrix n) f a b func m seed = Ret (seed', Ok l) /\ seed_ok pr seed'.
Proof.
  intros Fl p pr n f a b func m seed H. cbn [conv_init].
  match goal with |- context [gen_n (gen_n ?K n) f seed] => set (kernel := K) end.
  destruct (gen_n_total (seed_ok pr) (gen_n kernel n) f seed) as (s & rows & E & Hs); [|exact H|].
  - intros s Hs. apply gen_n_total; [|exact Hs]. clear s Hs. intros s Hs. unfold kernel.
    destruct (gen_n_total (seed_ok pr) (gen_n (init_gen Fl p pr m) b) a s) as (s' & rows & E & Hs'); [|exact Hs|].
    + intros s0 Hs0. apply gen_n_total; [|exact Hs0]. intros s1 Hs1. now apply init_gen_ok.
    + rewrite E. cbn [obind]. eauto.
  - rewrite E. cbn [obind]. eauto.
Qed.
Print Assumptions C43_total.

Theorem C43_rejects : forall Fl p pr n f a b func m seed,
  conv_init Fl p pr (ShScalar n) f a b func m seed = Ret (seed, Err InvalidInputShape).
Proof. reflexivity. Qed.
Print Assumptions C43_rejects.

Example C43_ex : exists seed' l, conv_init ZFl P32 Release (ShMatrix 2) 3 2 2 ActNone (Uniform 4) 12345%N = Ret (seed', Ok l) /\ conv_wf ZFl 2 2 l.
Proof.
  destruct (C43_total ZFl P32 Release 2 3 2 2 ActNone (Uniform 4) 12345%N) as (s & l & E & _); [right; reflexivity|].
  exists s, l. split; [exact E|]. eapply C43_well_formed; [exact E | lia..].
Qed.

(** ** C44 *)
Theorem C44_forward : forall Fl p a b r c (l : conv Fl) x (y : nat -> nat -> nat -> cplx (F Fl)),
  conv_wf Fl a b l -> maps_wf (channels Fl l) r c x -> a <= r -> b <= c ->
  (forall o i j, o < filters Fl l -> i < r - a + 1 -> j < c - b + 1 ->
     activate Fl p (k_func l) (cpre Fl a b l x o i j) = Ret (y o i j)) ->
  conv_forward Fl p l (IOMatrix x) =
  Ret (Ok (IOMatrix (map (fun o => mat (r - a + 1) (c - b + 1) (y o)) (seq 0 (filters Fl l))))).
Proof. intros Fl p a b r c l x y W M A B Hy. apply conv_forward_ok; [exact (conj W (conj M (conj A B))) | exact Hy]. Qed.
Print Assumptions C44_forward.

Theorem C44_panic : forall Fl p a b r c (l : conv Fl) x o i j,
  conv_wf Fl a b l -> maps_wf (channels Fl l) r c x -> a <= r -> b <= c ->
  o < filters Fl l -> i < r - a + 1 -> j < c - b + 1 ->
  activate Fl p (k_func l) (cpre Fl a b l x o i j) = Panic ->
  conv_forward Fl p l (IOMatrix x) = Panic.
Proof. intros Fl p a b r c l x o i j W M A B. apply conv_forward_panic. exact (conj W (conj M (conj A B))). Qed.
Print Assumptions C44_panic.

(** A wrong number of maps is reported (once the first map is large enough);
    no map at all, or a first map smaller than the kernels, panics. *)
Theorem C44_rejects : forall Fl p a b (l : conv Fl), conv_wf Fl a b l ->
  (forall v, conv_forward Fl p l (IOScalar v) = Ret (Err InvalidInput)) /\
  (forall m ms, length (m :: ms) <> channels Fl l -> a <= sh0 m + 1 -> b <= sh1 m + 1 ->
     conv_forward Fl p l (IOMatrix (m :: ms)) = Ret (Err InvalidInput)) /\
  (forall m ms, sh0 m + 1 < a \/ sh1 m + 1 < b -> conv_forward Fl p l (IOMatrix (m :: ms)) = Panic) /\
  conv_forward Fl p l (IOMatrix []) = Panic.
Proof.
  intros Fl p a b l W. split; [reflexivity|]. pose proof W as (Wk & F1 & C1 & A1 & B1 & _).
  assert (E : elm (k_kernels l) 0 0 = Ret (Ok (entry m_new (k_kernels l) 0 0))) by (apply elm_ok; auto; unfold filters, channels in *; lia).
  destruct (kernel_nth Fl a b l 0 0 W F1 C1) as (_ & K0 & K1).
  assert (S : forall x, conv_out_shape Fl l x = (m <- index x 0 ;; o0 <- usub (sh0 m) (a - 1) ;; o1 <- usub (sh1 m) (b - 1) ;; Ret (o0, o1))).
  { intros x. unfold conv_out_shape. rewrite E. cbn [obind unwrap]. rewrite K0, K1. destruct (index x 0); cbn [obind]; [|reflexivity].
    rewrite (usub_ok a 1) by lia. cbn [obind]. destruct (usub _ _); cbn [obind]; [|reflexivity]. now rewrite (usub_ok b 1) by lia. }
  repeat split; unfold conv_forward; rewrite ?S.
  - intros m ms L A B. rewrite S. cbn [index nth_error unwrap_opt obind]. rewrite !usub_ok by lia. cbn [obind].
    replace (sh1 (k_kernels l) =? length (m :: ms)) with false; [reflexivity|]. symmetry. apply Nat.eqb_neq. unfold channels in L. auto.
  - intros m ms H. rewrite S. cbn [index nth_error unwrap_opt obind]. destruct (Nat.lt_ge_cases (sh0 m) (a - 1)) as [K|K].
    + rewrite usub_panic by lia. reflexivity.
    + rewrite usub_ok by lia. cbn [obind]. rewrite usub_panic by lia. reflexivity.
  - reflexivity.
Qed.
Print Assumptions C44_rejects.

(** Two filters of two 1 x 2 kernels on two 2 x 2 maps. *)
Definition ex_conv : conv ZFl := mkConv ZFl 2
  (from_body [from_body [mkC 1 0; mkC 0 1] 1 2; from_body [mkC 2 0; mkC 0 0] 1 2;
              from_body [mkC 0 0; mkC 1 0] 1 2; from_body [mkC 0 1; mkC 0 1] 1 2] 2 2)%Z [mkC 1 0; mkC 0 (-1)]%Z ActNone.
Definition ex_maps : list (matrix (cplx Z)) :=
  [from_body [mkC 1 0; mkC 2 0; mkC 3 0; mkC 4 0] 2 2; from_body [mkC 0 1; mkC 0 0; mkC 1 0; mkC 1 0] 2 2]%Z.
Example C44_ex : conv_wf ZFl 1 2 ex_conv /\ maps_wf 2 2 2 ex_maps /\
  conv_forward ZFl P32 ex_conv (IOMatrix ex_maps) =
  Ret (Ok (IOMatrix [from_body [mkC 2 4; mkC 6 4] 2 1; from_body [mkC 1 (-1); mkC 4 1] 2 1]%Z)).
Proof.
  split; [|split].
  - unfold conv_wf. cbn. repeat split; try lia; repeat (destruct H as [<- | H]; [reflexivity|]); destruct H.
  - split; [reflexivity|]. cbn. intros m H. repeat (destruct H as [<- | H]; [repeat split|]); destruct H.
  - reflexivity.
Qed.
Example C44_ex_rejects : conv_forward ZFl P32 ex_conv (IOMatrix (firstn 1 ex_maps)) = Ret (Err InvalidInput) /\
  conv_forward ZFl P32 ex_conv (IOMatrix []) = Panic.
Proof. split; reflexivity. Qed.
