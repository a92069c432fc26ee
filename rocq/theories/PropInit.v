(** * Property C70: initial weights in IEEE arithmetic *)
From Coq Require Import ZArith NArith Reals Lra.
From Flocq Require Import Core BinarySingleNaN.
From Verif Require Import Base BaseFacts Float Matrix Cplx Random Act Input Dense Conv Layer RFloat BFloat CFacts SpecMatrix SpecLayer SpecRound SpecInit InitFloat
  PropRandom PropDense PropConv.
Local Notation re := Cplx.re. Local Notation im := Cplx.im.
Local Notation P32 := Float.P32. Local Notation P64 := Float.P64.
Local Open Scope R_scope.

(** One weight.  [s1] is the generator's state after the first draw. *)
Theorem C70_f32 : forall L, sane L -> forall pr m seed s1 u s' z, sized m ->
  lcgf (B32Ops L) pr seed = Ret (s1, u) -> init_gen (B32Ops L) P32 pr m seed = Ret (s', z) ->
  let far := (if gaussian m then 8 else 1) * ((1 + uu 24) ^ 3 * amplitude m) in
  (cfinite z <-> ~ (gaussian m = true /\ s1 = 0%N)) /\
  (cfinite z -> Rabs (B2R (re z : b32)) <= far /\ Rabs (B2R (im z : b32)) <= far).
Proof. intros L H. apply (weight_all 24 128 prec24 emax128 P32 L); auto using pi32; try lia; reflexivity. Qed.
Print Assumptions C70_f32.

Theorem C70_f64 : forall L, sane L -> forall pr m seed s1 u s' z, sized m ->
  lcgf (B64Ops L) pr seed = Ret (s1, u) -> init_gen (B64Ops L) P64 pr m seed = Ret (s', z) ->
  let far := (if gaussian m then 8 else 1) * ((1 + uu 53) ^ 3 * amplitude m) in
  (cfinite z <-> ~ (gaussian m = true /\ s1 = 0%N)) /\
  (cfinite z -> Rabs (B2R (re z : b64)) <= far /\ Rabs (B2R (im z : b64)) <= far).
Proof. intros L H. apply (weight_all 53 1024 prec53 emax1024 P64 L); auto using pi64; try lia; reflexivity. Qed.
Print Assumptions C70_f64.

(** A whole layer: with a normal method weight number i is drawn from the
    states 3 i + 1, 3 i + 2 and 3 i + 3 after the seed. *)
Theorem C70_dense : forall L32 L64, sane L32 -> sane L64 -> forall pr n u f m seed, sized m -> (seed < P)%N ->
  let unlucky := gaussian m = true /\ exists i, (i < u * n)%nat /\ Nat.iter (3 * i + 1) next seed = 0%N in
  (forall s' l, dense_init (B32Ops L32) P32 pr (ShScalar n) u f m seed = Ret (s', Ok l) ->
     (Forall cfinite (body (d_weights l)) /\ Forall cfinite (d_biases l) <-> ~ unlucky)) /\
  (forall s' l, dense_init (B64Ops L64) P64 pr (ShScalar n) u f m seed = Ret (s', Ok l) ->
     (Forall cfinite (body (d_weights l)) /\ Forall cfinite (d_biases l) <-> ~ unlucky)).
Proof.
  intros L32 L64 H32 H64 pr n u f m seed Hm Hs unlucky.
  assert (K : forall A B : Prop, (A <-> (gaussian m = true -> forall i, (i < u * n)%nat -> Nat.iter (3 * i + 1) next seed <> 0%N)) -> B -> (A /\ B <-> ~ unlucky)).
  { intros A B HA HB. unfold unlucky. rewrite HA. split.
    - intros (H & _) (G & i & Hi & E). exact (H G i Hi E).
    - intros H. split; [|exact HB]. intros G i Hi E. apply H. eauto. }
  split; intros s' l E; destruct (C39_init _ _ _ _ _ _ _ _ _ _ E) as (W & W0 & W1 & Bi & _ & _ & _ & _ & D); apply K.
  - replace (u * n)%nat with (length (body (d_weights l))) by (rewrite W, W0, W1; reflexivity).
    apply (layer_weights 24 128 prec24 emax128 P32 L32 pr m seed _ s'); auto. exact (C70_f32 L32 H32).
  - rewrite Bi. apply zeros_finite.
  - replace (u * n)%nat with (length (body (d_weights l))) by (rewrite W, W0, W1; reflexivity).
    apply (layer_weights 53 1024 prec53 emax1024 P64 L64 pr m seed _ s'); auto. exact (C70_f64 L64 H64).
  - rewrite Bi. apply zeros_finite.
Qed.
Print Assumptions C70_dense.

Theorem C70_conv : forall L32 L64, sane L32 -> sane L64 -> forall pr n f a b func m seed, sized m -> (seed < P)%N ->
  let unlucky := gaussian m = true /\ exists i, (i < f * n * (a * b))%nat /\ Nat.iter (3 * i + 1) next seed = 0%N in
  (forall s' l, conv_init (B32Ops L32) P32 pr (ShMatrix n) f a b func m seed = Ret (s', Ok l) ->
     (Forall (fun k => Forall cfinite (body k)) (body (k_kernels l)) /\ Forall cfinite (k_biases l) <-> ~ unlucky)) /\
  (forall s' l, conv_init (B64Ops L64) P64 pr (ShMatrix n) f a b func m seed = Ret (s', Ok l) ->
     (Forall (fun k => Forall cfinite (body k)) (body (k_kernels l)) /\ Forall cfinite (k_biases l) <-> ~ unlucky)).
Proof.
  intros L32 L64 H32 H64 pr n f a b func m seed Hm Hs unlucky.
  assert (K : forall A B : Prop, (A <-> (gaussian m = true -> forall i, (i < f * n * (a * b))%nat -> Nat.iter (3 * i + 1) next seed <> 0%N)) -> B -> (A /\ B <-> ~ unlucky)).
  { intros A B HA HB. unfold unlucky. rewrite HA. split.
    - intros (H & _) (G & i & Hi & E). exact (H G i Hi E).
    - intros H. split; [|exact HB]. intros G i Hi E. apply H. eauto. }
  assert (FC : forall T (Q : T -> Prop) (ms : list (matrix T)), Forall (fun k => Forall Q (body k)) ms <-> Forall Q (concat (map body ms))).
  { intros T Q ms. induction ms as [|k ms IH]; cbn [map concat]; [split; constructor|]. now rewrite Forall_cons_iff, Forall_app, IH. }
  assert (LN : forall T (ks : matrix (matrix T)), wf ks -> sh0 ks = f -> sh1 ks = n -> (forall k, In k (body ks) -> wf k /\ sh0 k = a /\ sh1 k = b) ->
     length (concat (map body (body ks))) = (f * n * (a * b))%nat).
  { intros T ks W W0 W1 Sh. rewrite (concat_length_const (a * b)).
    - now rewrite map_length, W, W0, W1.
    - apply Forall_forall. intros x Hx. apply in_map_iff in Hx as (k & <- & Hk). destruct (Sh k Hk) as (Wk & E0 & E1). now rewrite Wk, E0, E1. }
  split; intros s' l E; destruct (C43_init _ _ _ _ _ _ _ _ _ _ _ _ E) as (W & W0 & W1 & Sh & Bi & _ & _ & _ & _ & D); rewrite FC; apply K.
  - rewrite <- (LN _ _ W W0 W1 Sh). apply (layer_weights 24 128 prec24 emax128 P32 L32 pr m seed _ s'); auto. exact (C70_f32 L32 H32).
  - rewrite Bi. apply zeros_finite.
  - rewrite <- (LN _ _ W W0 W1 Sh). apply (layer_weights 53 1024 prec53 emax1024 P64 L64 pr m seed _ s'); auto. exact (C70_f64 L64 H64).
  - rewrite Bi. apply zeros_finite.
Qed.
Print Assumptions C70_conv.

(** Platforms that qualify exist, for instance those rounding the true sine,
    cosine and logarithm to nearest. *)
Theorem C70_platform : (exists L : libm b32, sane L) /\ (exists L : libm b64, sane L).
Proof.
  split; [exists (libm_ieee 24 128 prec24 emax128) | exists (libm_ieee 53 1024 prec53 emax1024)]; apply ieee_sane; lia.
Qed.
Print Assumptions C70_platform.

(** A normal layer of two weights whose second weight meets the zero draw. *)
Example C70_ex : sized (HeInit 2) /\ (818318196 < P)%N /\ Nat.iter (3 * 1 + 1) next 818318196%N = 0%N.
Proof. repeat split; try lia. Qed.
