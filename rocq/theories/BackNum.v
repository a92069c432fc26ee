(** * Concrete cases for the rounding of a training step *)
From Coq Require Import ZArith Reals Lra Psatz.
From Flocq Require Import Core BinarySingleNaN.
From Verif Require Import Base BaseFacts Float Matrix Cplx Act Input Loss Dense Conv Layer Dataset Network RFloat BFloat CFacts SpecMatrix
  SpecLayer SpecConv SpecNet SpecRound SpecBack SpecStill RoundFacts RoundBack PropDense PropTrain.
Local Open Scope nat_scope.
Local Notation re := Cplx.re. Local Notation im := Cplx.im.

Section Num.
Context (L : libm (binary_float 24 128)) (p : Float.prec).
Local Notation Fl := (B32Ops L).
Local Notation B := (binary_float 24 128).
Local Notation z := (c_default Fl).
Local Notation one := (c_unit Fl).

(** Two layers of one rectified unit each, of weight 1. *)
Definition unit_layer : dense Fl := mkDense Fl (from_body [one] 1 1) [z] RITReLU.
Definition act (v : cplx B) : cplx B := ritrelu Fl (pre Fl unit_layer [v] 0).
Definition a0 : cplx B := one.
Definition a1 := act a0.
Definition a2 := act a1.

Lemma wf_unit : dense_wf Fl unit_layer.
Proof. repeat split. discriminate. Qed.
Lemma fwd_unit : forall v, layer_forward Fl p (LDense unit_layer) (IOScalar [v]) = Ret (Ok (IOScalar [act v])).
Proof. intros v. cbn [layer_forward]. apply (proj2 (C40_forward Fl p unit_layer [v] wf_unit eq_refl [act v])). split; [reflexivity|]. intros [|i] I; [reflexivity | cbn in I; lia]. Qed.

Ltac val := match goal with |- B2R ?x = _ => let s := eval vm_compute in (B2SF x) in rewrite (sf_eq _ _ x s ltac:(vm_compute; reflexivity)); unfold SF2R, F2R; cbn; lra end.
Lemma v0 : cval a0 = mkC 1%R 0%R. Proof. unfold cval. f_equal; val. Qed.
Lemma v1 : cval a1 = mkC 1%R 0%R. Proof. unfold cval. f_equal; val. Qed.
Lemma v2 : cval a2 = mkC 1%R 0%R. Proof. unfold cval. f_equal; val. Qed.
Lemma vw : cval (weight Fl unit_layer 0 0) = mkC 1%R 0%R. Proof. exact v0. Qed.
Lemma fin : cfinite a0 /\ cfinite a1 /\ cfinite a2.
Proof. repeat split; vm_compute; reflexivity. Qed.

Lemma room_small : forall k M c, k <= 60 -> (re M + re c <= 1000)%R -> (im M + im c <= 1000)%R -> room 24 128 k M c.
Proof.
  intros k M c K R1 R2. assert (U : (1 <= (1 + uu 24) ^ k <= 1152921504606846976)%R).
  { split; [apply pw1|]. eapply Rle_trans; [apply (pw_mono 24 k 60 K)|]. replace 1152921504606846976%R with (2 ^ 60)%R by lra. apply pow_incr. unfold uu. cbn. lra. }
  assert (O : (1152921504606846976 * 1000 < omega 128)%R) by (unfold omega; cbn; lra).
  assert (X : forall v, (v <= 1000 -> (1 + uu 24) ^ k * v < omega 128)%R).
  { intros v V. apply Rle_lt_trans with ((1 + uu 24) ^ k * 1000)%R; [apply Rmult_le_compat_l; lra|]. apply Rle_lt_trans with (1152921504606846976 * 1000)%R; [apply Rmult_le_compat_r; lra | exact O]. }
  split; apply X; assumption.
Qed.

Lemma csum1 : forall f, csum f 1 = f 0.
Proof. intros f. unfold csum, sum_from. cbn [seq fold_left]. ring. Qed.

Lemma example : let ls := [unit_layer; unit_layer] in let x := [a0] in let acts := [[a0]; [a1]; [a2]] in let t := [z] in
  ls <> [] /\ widths_fit Fl ls (length x) /\ Forall (fun l : dense Fl => gated (d_func l) /\ Forall cfinite (body (d_weights l))) ls /\
  trace Fl p (map (fun l => LDense l) ls) (IOScalar x) (map (fun v => IOScalar v) acts) /\ Forall (Forall cfinite) acts /\ Forall cfinite (t : list (cplx B)) /\
  length t = out_width Fl ls (length x) /\
  let top := flow_top 24 128 prec24 emax128 L t (last acts []) in let ps := combine acts ls in let d k := flow_at 24 128 prec24 emax128 L (skipn (S k) ps) top in
  (forall k, k < length t -> room 24 128 1 (nth k (mag (snd top)) 0%RC) 0%RC) /\
  (forall k v l, nth_error ps k = Some (v, l) -> layer_room 24 128 prec24 emax128 L l v (snd (d k))) /\
  nth 0 (fst (d 0)) 0%RC = mkC 1%R 0%R.
Proof.
  cbv zeta. destruct fin as (F0 & F1 & F2). split; [discriminate|]. split; [repeat split; discriminate|].
  assert (G : gated (d_func unit_layer) /\ Forall cfinite (body (d_weights unit_layer))) by (split; [right; left; reflexivity | constructor; [exact F0 | constructor]]).
  split; [repeat constructor; apply G|]. split; [repeat (eapply trace_cons; [apply fwd_unit|]); constructor|]. split; [repeat (constructor; [constructor; [assumption|constructor]|]); constructor|].
  split; [constructor; [split; reflexivity | constructor]|]. split; [reflexivity|].
  pose proof v0 as V0. pose proof v1 as V1. pose proof v2 as V2. assert (VW : cval (weight (BOps 24 128 prec24 emax128 L) unit_layer 0 0) = mkC 1%R 0%R) by exact vw.
  assert (VZ : cval (z : cplx B) = mkC 0%R 0%R) by reflexivity.
  assert (EP : (0 < eta 24 128 <= 1)%R) by (unfold eta; cbn; lra).
  assert (TOP : flow_top 24 128 prec24 emax128 L [z] [a2] = ([mkC (1 - 0) (- (0 - 0))], mkBudget 1 [cabs (mkC (1 - 0) (0 - 0))] [0%RC])%R).
  { unfold flow_top. cbn [length seq map nth]. rewrite V2, VZ. reflexivity. }
  cbn [last]. rewrite TOP. cbn [fst snd mag length]. split; [|split].
  - intros [|k] K; [|lia]. apply room_small; [lia| |]; cbn; unfold Rabs; destruct (Rcase_abs _); lra.
  - assert (RM : forall (v : cplx B) k M c, cval v = mkC 1%R 0%R -> k <= 20 -> (0 <= re M <= 10 -> 0 <= im M <= 10 -> 0 <= re c <= 10 -> 0 <= im c <= 10 ->
      layer_room 24 128 prec24 emax128 L unit_layer [v] (mkBudget k [M] [c]))%R).
    { intros v k [Mr Mi] [cr ci] EV K M1 M2 C1 C2. cbn in M1, M2, C1, C2. unfold layer_room. cbn [order mag slack]. change (units (BOps 24 128 prec24 emax128 L) unit_layer) with 1. change (inputs (BOps 24 128 prec24 emax128 L) unit_layer) with 1.
      split; [|split]; [intros [|i] I; [|lia] | intros [|i] [|j] I J; try lia | intros [|j] J; [|lia]]; rewrite ?csum1; cbn [nth]; rewrite ?EV, ?VW;
        (apply room_small; [lia| |]); cbn; rewrite ?Rabs_R1, ?Rabs_R0; lra. }
    intros [|[|k]] v l E; cbn [combine nth_error] in E; [| |destruct k; discriminate]; injection E as <- <-.
    + cbn [skipn combine SpecBack.flow_at fold_right flow_back fst snd order mag slack]. change (units (BOps 24 128 prec24 emax128 L) unit_layer) with 1. change (inputs (BOps 24 128 prec24 emax128 L) unit_layer) with 1.
      cbn [seq map Nat.add]. rewrite !csum1. cbn [nth]. rewrite VW. apply RM; [exact V0 | lia | | | |]; cbn; rewrite ?Rabs_R1, ?Rabs_R0; unfold Rabs; repeat (destruct (Rcase_abs _)); lra.
    + cbn [skipn combine SpecBack.flow_at fold_right fst snd]. apply RM; [exact V1 | lia | | | |]; cbn; unfold Rabs; repeat (destruct (Rcase_abs _)); lra.
  - cbn [skipn combine SpecBack.flow_at fold_right flow_back fst snd order mag slack]. change (units (BOps 24 128 prec24 emax128 L) unit_layer) with 1. change (inputs (BOps 24 128 prec24 emax128 L) unit_layer) with 1.
    cbn [seq map nth]. rewrite csum1. cbn [nth]. rewrite VW. cbn [d_func unit_layer gate].
    repeat match goal with |- context [fsignneg ?F ?e] => replace (fsignneg F e) with false by (vm_compute; reflexivity) end. apply c_ext; cbn; ring.
Qed.

(** ** A batch and a step *)
Definition four : B := Bofz 24 128 prec24 emax128 4.
Definition below (x : B) : bool := is_finite x && Bleb (Babs x) four.
Lemma below_ok : forall x, below x = true -> is_finite x = true /\ (Rabs (B2R x) <= 4)%R.
Proof.
  intros x H. apply andb_prop in H as (F & H). split; [exact F|]. assert (V : B2R four = 4%R) by val.
  assert (FA : is_finite (Babs x) = true) by (rewrite is_finite_Babs; exact F). assert (F4 : is_finite four = true) by (vm_compute; reflexivity). rewrite (Bleb_correct _ _ _ _ FA F4) in H. rewrite B2R_Babs, V in H.
  destruct (Rle_bool_spec (Rabs (B2R x)) 4) as [K|K]; [exact K | discriminate].
Qed.
Definition small (g : cplx B) : bool := below (re g) && below (im g).
Lemma small_ok : forall g, small g = true -> cfinite g /\ (Rabs (re (cval g)) <= 4)%R /\ (Rabs (im (cval g)) <= 4)%R.
Proof. intros g H. apply andb_prop in H as (H1 & H2). destruct (below_ok _ H1), (below_ok _ H2). repeat split; assumption. Qed.
Lemma all_small : forall gs : list (cplx B), forallb small gs = true -> Forall cfinite gs /\ forall i, (Rabs (re (cval (nth i gs z))) <= 4 /\ Rabs (im (cval (nth i gs z))) <= 4)%R.
Proof.
  intros gs H. assert (A : forall g, In g gs -> small g = true) by (apply forallb_forall, H). split.
  - apply Forall_forall. intros g I. apply small_ok, A, I.
  - intros i. destruct (nth_in_or_default i gs z) as [I | ->]; [apply (small_ok _ (A _ I))|]. change (cval (z : cplx B)) with (mkC 0%R 0%R : RC). cbn. rewrite Rabs_R0. lra.
Qed.
Lemma grad_checked : forall n data f, match net_gradient Fl p n data f with Ret (W, G) => forallb small (grad_values (Fl := Fl) W G) | Panic => false end = true ->
  exists W G, net_gradient Fl p n data f = Ret (W, G) /\ Forall cfinite (grad_values (Fl := Fl) W G) /\
    forall i, (Rabs (re (cval (nth i (grad_values (Fl := Fl) W G) z : cplx B))) <= 4 /\ Rabs (im (cval (nth i (grad_values (Fl := Fl) W G) z : cplx B))) <= 4)%R.
Proof. intros n data f H. destruct (net_gradient Fl p n data f) as [(W, G)|]; [|discriminate]. exists W, G. split; [reflexivity|]. apply all_small, H. Qed.
Lemma div_checked : forall a b, match c_div Fl a b with Ret s => below (re s) && match im s with B754_zero _ => true | _ => false end | Panic => false end = true ->
  exists s t, c_div Fl a b = Ret s /\ is_finite (re s : B) = true /\ (im s : B) = B754_zero t /\ (Rabs (B2R (re s : B)) <= 4)%R.
Proof.
  intros a b H. destruct (c_div Fl a b) as [s|]; [|discriminate]. apply andb_prop in H as (H1 & H2). apply below_ok in H1 as (F & V). exists s.
  destruct (im s : B) as [t|t| |]; try discriminate. exists t. auto.
Qed.

Definition unit_net : network Fl := [LDense unit_layer; LDense unit_layer].
Definition pt0 : IOType (cplx B) * IOType (cplx B) := (IOScalar [one], IOScalar [z]).
Definition pt1 : IOType (cplx B) * IOType (cplx B) := (IOScalar [one], IOScalar [c_add Fl one one]).

Lemma example_batch : let pts := [pt0; pt1] in exists W G : nat -> list (list (cplx B)),
  (forall k it, nth_error pts k = Some it -> net_gradient Fl p unit_net (batch [it]) MeanSquare = Ret (W k, G k) /\ Forall cfinite (grad_values (Fl := Fl) (W k) (G k))) /\
  (let m := length pts in let g k i := cval (nth i (grad_values (Fl := Fl) (W k) (G k)) z : cplx B) in
   forall i, room 24 128 m (csum (fun k => cabs (g k i)) m) 0%RC).
Proof.
  cbv zeta. destruct (grad_checked unit_net (batch [pt0]) MeanSquare ltac:(vm_compute; reflexivity)) as (W0 & G0 & E0 & F0 & B0).
  destruct (grad_checked unit_net (batch [pt1]) MeanSquare ltac:(vm_compute; reflexivity)) as (W1 & G1 & E1 & F1 & B1).
  exists (fun k => match k with 0 => W0 | _ => W1 end), (fun k => match k with 0 => G0 | _ => G1 end). split.
  - intros [|[|k]] it E; cbn [nth_error] in E; [injection E as <-; auto | injection E as <-; auto | destruct k; discriminate].
  - intros i. specialize (B0 i). specialize (B1 i). cbn [length]. unfold csum, sum_from. cbn [seq fold_left]. destruct B0 as (A1 & A2), B1 as (A3 & A4).
    apply room_small; [lia| |]; cbn in *; lra.
Qed.

Lemma full_unit : Forall (layer_full Fl) unit_net.
Proof. repeat constructor; discriminate. Qed.

Lemma size_room : forall (r : R) (v g : RC), (Rabs r <= 4 -> Rabs (re v) <= 4 /\ Rabs (im v) <= 4 -> Rabs (re g) <= 4 /\ Rabs (im g) <= 4 ->
  room 24 128 3 (cabs v + amul (mkC r 0%R) (cabs g))%RC (tiny 24 128 1))%R.
Proof.
  intros r [v1 v2] [g1 g2] VS (A1 & A2) (A3 & A4). cbn in A1, A2, A3, A4. pose proof (Rabs_pos r). pose proof (Rabs_pos g1). pose proof (Rabs_pos g2).
  assert (EP : (0 < eta 24 128 <= 1)%R) by (unfold eta; cbn; lra). apply room_small; [lia| |]; cbn; rewrite Rabs_R0; nra.
Qed.

Lemma example_update : exists W G s t, let data := batch [pt0] in Forall (layer_full Fl) unit_net /\ 2 <= length unit_net /\
  net_gradient Fl p unit_net data MeanSquare = Ret (W, G) /\ c_div Fl one (c_of_nat Fl (length (ds_inputs data))) = Ret s /\ is_finite (re s : B) = true /\ (im s : B) = B754_zero t /\
  Forall cfinite (net_values Fl unit_net : list (cplx B)) /\ Forall cfinite (grad_values (Fl := Fl) W G) /\
  let v i := cval (nth i (net_values Fl unit_net) z : cplx B) in let g i := cval (nth i (grad_values (Fl := Fl) W G) z : cplx B) in
  forall i, i < length (net_values Fl unit_net) -> room 24 128 3 (cabs (v i) + amul (cval (s : cplx B)) (cabs (g i)))%RC (tiny 24 128 1).
Proof.
  destruct (grad_checked unit_net (batch [pt0]) MeanSquare ltac:(vm_compute; reflexivity)) as (W & G & E & FG & BG).
  destruct (div_checked one (c_of_nat Fl 1) ltac:(vm_compute; reflexivity)) as (s & t & ES & FS & IS & VS).
  destruct (all_small (net_values Fl unit_net) ltac:(vm_compute; reflexivity)) as (FV & BV).
  exists W, G, s, t. cbv zeta. split; [exact full_unit|]. split; [cbn; lia|]. split; [exact E|]. split; [exact ES|]. split; [exact FS|]. split; [exact IS|]. split; [exact FV|]. split; [exact FG|].
  intros i _. specialize (BG i). specialize (BV i).
  assert (CS : cval (s : cplx B) = mkC (B2R (re s : B)) 0%R) by exact (f_equal (fun b : B => mkC (B2R (re s : B)) (B2R b)) IS). rewrite CS. clear CS.
  exact (size_room _ _ _ VS BV BG).
Qed.
End Num.
