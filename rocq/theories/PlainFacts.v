(** * Facts about networks without activations *)
From Coq Require Import Reals Lra Psatz.
From Verif Require Import Base BaseFacts Float Matrix Cplx Random Act Input Loss Dense Conv Layer Dataset Network Examples RFloat CFacts
  SpecMatrix MatrixFacts MatrixFacts2 SpecLayer SpecConv SpecNet SpecGeom SpecGrad DenseFacts LayerFacts ConvFacts PoolFacts NetFacts TrainFacts TrainDense
  GeomFacts SpecRound RoundNet PropMatrix PropDense PropConv PropPool SpecLoss LossFacts LipFacts SpecDead PropTrain SpecPlain.
Local Open Scope nat_scope.

Section Plain.
Context (p : prec) (s : RC).

Lemma mix_maps : forall n r c x y w, mixes (Maps n r c) s (IOMatrix x) (IOMatrix y) (IOMatrix w) -> forall o i j, o < n -> i < r -> j < c ->
  px 0%RC w o i j = (s * px 0 x o i j + (1 - s) * px 0 y o i j)%RC.
Proof.
  intros n r c x y w (GX & GY & GW & H) o i j Ho Hi Hj. cbn [has_geom vals] in *.
  specialize (H _ (index3_lt n r c o i j Ho Hi Hj)). rewrite (maps_at 0%RC n r c x), (maps_at 0%RC n r c y), (maps_at 0%RC n r c w) in H by auto. exact H.
Qed.

Lemma maps_mix : forall n r c (f g h : nat -> nat -> nat -> RC), (forall o i j, o < n -> i < r -> j < c -> h o i j = (s * f o i j + (1 - s) * g o i j)%RC) ->
  mixes (Maps n r c) s (IOMatrix (map (fun o => mat r c (f o)) (seq 0 n))) (IOMatrix (map (fun o => mat r c (g o)) (seq 0 n))) (IOMatrix (map (fun o => mat r c (h o)) (seq 0 n))).
Proof.
  intros n r c f g h H. pose proof (maps_tab ROps n r c f) as F. pose proof (maps_tab ROps n r c g) as G. pose proof (maps_tab ROps n r c h) as K.
  split; [exact F|]. split; [exact G|]. split; [exact K|]. intros k Hk. cbn [gsize vals] in *.
  destruct (index3 n r c k Hk) as (o & i & j & Ho & Hi & Hj & ->).
  rewrite (maps_at 0%RC n r c _ o i j F), (maps_at 0%RC n r c _ o i j G), (maps_at 0%RC n r c _ o i j K) by auto. rewrite !px_tab by auto. now apply H.
Qed.

(** A sum with constant factors mixes. *)
Lemma csum_mix : forall (f a b c : nat -> RC) n, (forall i, i < n -> c i = (s * a i + (1 - s) * b i)%RC) ->
  csum (fun i => f i * c i)%RC n = (s * csum (fun i => f i * a i) n + (1 - s) * csum (fun i => f i * b i) n)%RC.
Proof.
  intros f a b c n H. rewrite <- !csum_mul_l, <- csum_add. apply csum_ext. intros i Hi. rewrite H by exact Hi. ring.
Qed.
Lemma csum_mix0 : forall (a b c : nat -> RC) n, (forall i, i < n -> c i = (s * a i + (1 - s) * b i)%RC) -> csum c n = (s * csum a n + (1 - s) * csum b n)%RC.
Proof. intros a b c n H. rewrite <- !csum_mul_l, <- csum_add. apply csum_ext. exact H. Qed.

Lemma layer_mix : forall l g g' x y w, fits ROps l g g' -> plain l -> mixes g s x y w ->
  exists u v z, layer_forward ROps p l x = Ret (Ok u) /\ layer_forward ROps p l y = Ret (Ok v) /\ layer_forward ROps p l w = Ret (Ok z) /\ mixes g' s u v z.
Proof.
  intros l g g' x y w HF PL MX. pose proof MX as (GX & GY & GW & H).
  destruct HF as [l W NM | l a b r c W NM A Q | l n r c N (A1 & A2) (B1 & B2) MA MB HF | l n r c];
    destruct x as [x|x]; try contradiction; destruct y as [y|y]; try contradiction; destruct w as [w|w]; try contradiction; cbn [plain layer_forward] in *.
  - assert (G : forall v : list RC, length v = inputs ROps l -> dense_forward ROps p l (IOScalar v) = Ret (Ok (IOScalar (map (pre ROps l v) (seq 0 (units ROps l)))))).
    { intros v LV. apply C40_forward; [exact W | exact LV|]. rewrite map_length, seq_length. split; [reflexivity|]. intros i Hi. rewrite PL. cbn [activate]. now rewrite nth_map_seq. }
    do 3 eexists. split; [apply G, GX|]. split; [apply G, GY|]. split; [apply G, GW|].
    do 3 (split; [cbn [has_geom]; now rewrite map_length, seq_length|]). intros k Hk. cbn [gsize vals has_geom] in *. rewrite !nth_map_seq by exact Hk.
    assert (P : forall v, pre ROps l v k = (csum (fun i => weight ROps l k i * nth i v 0) (inputs ROps l) + nth k (d_biases l) 0)%RC) by reflexivity. rewrite !P.
    rewrite (csum_mix (fun i => weight ROps l k i) (fun i => nth i x 0%RC) (fun i => nth i y 0%RC) (fun i => nth i w 0%RC)) by exact H. ring.
  - pose proof (mix_maps _ _ _ _ _ _ MX) as M.
    assert (G : forall v, maps_wf (channels ROps l) r c v -> conv_forward ROps p l (IOMatrix v) =
       Ret (Ok (IOMatrix (map (fun o => mat (r - a + 1) (c - b + 1) (cpre ROps a b l v o)) (seq 0 (filters ROps l)))))).
    { intros v MV. apply (C44_forward ROps p a b r c l v (cpre ROps a b l v)); auto. intros o i j Ho Hi Hj. rewrite PL. reflexivity. }
    do 3 eexists. split; [apply G, GX|]. split; [apply G, GY|]. split; [apply G, GW|]. apply maps_mix. intros o i j Ho Hi Hj.
    assert (P : forall v, cpre ROps a b l v o i j = (csum (fun ch => csum (fun u => csum (fun q => px 0 v ch (i + u) (j + q) * kval ROps l o ch u q) b) a) (channels ROps l) + nth o (k_biases l) 0)%RC) by reflexivity.
    rewrite !P. rewrite (csum_mix0 (fun ch => csum (fun u => csum (fun q => px 0 x ch (i + u) (j + q) * kval ROps l o ch u q) b) a)%RC
                                   (fun ch => csum (fun u => csum (fun q => px 0 y ch (i + u) (j + q) * kval ROps l o ch u q) b) a)%RC); [ring|].
    intros ch Hch. apply csum_mix0. intros u Hu. apply csum_mix0. intros q Hq. rewrite M by lia. ring.
  - pose proof (mix_maps _ _ _ _ _ _ MX) as M. destruct PL as (f & PF). set (a := r_b0 l) in *. set (b := r_b1 l) in *.
    assert (RA : r / a * a = r) by (pose proof (Nat.div_mod r a ltac:(lia)); lia). assert (CB : c / b * b = c) by (pose proof (Nat.div_mod c b ltac:(lia)); lia).
    pose (val := fun (v : list (matrix RC)) o i j => csum (fun k => f k * nth k (block a b (px 0%RC v o) i j) 0)%RC (a * b)).
    assert (LN : forall {T} (f : nat -> nat -> T) i j, length (block a b f i j) = a * b) by (intros; unfold block; apply concat_tab_length).
    assert (G : forall v, maps_wf n r c v -> red_forward ROps l (IOMatrix v) = Ret (Ok (IOMatrix (map (fun o => mat (r / a) (c / b) (val v o)) (seq 0 n))))).
    { intros v (LV & WV). unfold red_forward. fold a b. pose proof (list_eq_map_nth m_new v) as EV. rewrite LV in EV. rewrite EV at 1. rewrite mapM_map. clear EV.
      rewrite (mapM_ret _ (fun o => mat (r / a) (c / b) (val v o))); [reflexivity|].
      intros o Ho. apply in_seq in Ho. destruct (WV (nth o v m_new)) as (W & E0 & E1); [apply nth_In; lia|].
      rewrite (C25_blocks 0%RC) by (rewrite ?E0, ?E1; auto). rewrite E0, E1.
      rewrite (mapM_ret _ (tab_row (val v o) (c / b))); [reflexivity|]. intros i Hi. apply in_seq in Hi.
      rewrite (mapM_ret _ (val v o i)); [reflexivity|]. intros j Hj. apply in_seq in Hj. rewrite PF by apply LN. rewrite LN. reflexivity. }
    do 3 eexists. split; [apply G, GX|]. split; [apply G, GY|]. split; [apply G, GW|]. apply maps_mix. intros o i j Ho Hi Hj. unfold val. apply csum_mix. intros k Hk.
    rewrite !block_nth by auto. assert (k / b < a) by (apply Nat.div_lt_upper_bound; lia). pose proof (Nat.mod_upper_bound k b ltac:(lia)). apply M; nia.
  - exists (IOScalar (flat_map body x)), (IOScalar (flat_map body y)), (IOScalar (flat_map body w)). do 3 (split; [reflexivity|]). unfold mixes. cbn [has_geom gsize vals] in *. rewrite !flat_map_concat_map.
    change (concat (map body x)) with (map_values x). change (concat (map body y)) with (map_values y). change (concat (map body w)) with (map_values w).
    split; [exact (map_values_length ROps n r c x GX)|]. split; [exact (map_values_length ROps n r c y GY)|]. split; [exact (map_values_length ROps n r c w GW)|]. exact H.
Qed.

Lemma net_mix : forall n g g' x y w, fit_all ROps n g g' -> Forall plain n -> n <> [] -> mixes g s x y w ->
  exists u v z, net_forward ROps p n x = Ret (Ok u) /\ net_forward ROps p n y = Ret (Ok v) /\ net_forward ROps p n w = Ret (Ok z) /\ mixes g' s u v z.
Proof.
  intros n g g' x y w HF PL NE MX. rewrite !forward_fold by exact NE.
  assert (Q : exists u v z, foldM (fun acc l => fwd ROps p l acc) n x = Ret u /\ foldM (fun acc l => fwd ROps p l acc) n y = Ret v /\ foldM (fun acc l => fwd ROps p l acc) n w = Ret z /\ mixes g' s u v z).
  { clear NE. revert x y w MX PL. induction HF as [g | l n g g1 g2 Hl HF IH]; intros x y w MX PL; [exists x, y, w; auto|]. inversion PL; subst.
    destruct (layer_mix l g g1 x y w Hl ltac:(assumption) MX) as (u & v & z & E1 & E2 & E3 & MX1). cbn [foldM]. rewrite (fwd_ok ROps p _ _ _ E1), (fwd_ok ROps p _ _ _ E2), (fwd_ok ROps p _ _ _ E3). cbn [obind]. eauto. }
  destruct Q as (u & v & z & -> & -> & -> & M). exists u, v, z. auto.
Qed.
End Plain.

(** ** One dense layer *)
(** A value of a geometry from its numbers. *)
Definition of_vals (g : geometry) (v : list RC) : IOType RC :=
  match g with
  | Vec n => IOScalar v
  | Maps n r c => IOMatrix (map (fun o => mat r c (fun i j => nth ((o * r + i) * c + j) v 0%RC)) (seq 0 n))
  end.
Lemma of_vals_ok : forall g (v : list RC), length v = gsize g -> has_geom g (of_vals g v) /\ forall k, k < gsize g -> nth k (vals (of_vals g v)) 0%RC = nth k v 0%RC.
Proof.
  intros [n|n r c] v L; cbn [of_vals has_geom gsize vals] in *; [auto|]. pose proof (maps_tab ROps n r c (fun o i j => nth ((o * r + i) * c + j) v 0%RC)) as M. split; [exact M|].
  intros k Hk. destruct (index3 n r c k Hk) as (o & i & j & Ho & Hi & Hj & ->). rewrite (maps_at 0%RC n r c _ o i j M) by auto. now rewrite px_tab.
Qed.

Section One.
Context (p : prec) (n : network ROps) (g g' : geometry) (HF : fit_all ROps n g g') (PL : Forall plain n) (NE : n <> []).

(** Number [k] of the output for an input given by its numbers. *)
Definition out (k : nat) (f : nat -> RC) : RC :=
  match net_forward ROps p n (of_vals g (map f (seq 0 (gsize g)))) with Ret (Ok y) => nth k (vals y) 0%RC | _ => 0%RC end.

Lemma out_mix : forall k s f h w, k < gsize g' -> (forall i, i < gsize g -> w i = (s * f i + (1 - s) * h i)%RC) -> out k w = (s * out k f + (1 - s) * out k h)%RC.
Proof.
  intros k s f h w Hk H. assert (LL : forall q : nat -> RC, length (map q (seq 0 (gsize g))) = gsize g) by (intros; now rewrite map_length, seq_length).
  destruct (net_mix p s n g g' (of_vals g (map f (seq 0 (gsize g)))) (of_vals g (map h (seq 0 (gsize g)))) (of_vals g (map w (seq 0 (gsize g)))) HF PL NE) as (u & v & z & E1 & E2 & E3 & (_ & _ & _ & M)).
  { split; [apply of_vals_ok, LL|]. split; [apply of_vals_ok, LL|]. split; [apply of_vals_ok, LL|]. intros i Hi. rewrite !(proj2 (of_vals_ok g _ (LL _))) by exact Hi. rewrite !nth_map_seq by exact Hi. auto. }
  unfold out. rewrite E1, E2, E3. apply M. exact Hk.
Qed.

Lemma two_inv : forall a b : RC, (mkC (1 / 2)%R 0%R * a = mkC (1 / 2)%R 0%R * b)%RC -> a = b.
Proof. intros [a1 a2] [b1 b2] E. apply (f_equal re) in E as E1. apply (f_equal im) in E as E2. cbn in E1, E2. apply c_ext; cbn; lra. Qed.

Lemma out_ext : forall k f h, k < gsize g' -> (forall i, i < gsize g -> f i = h i) -> out k f = out k h.
Proof. intros k f h Hk H. rewrite (out_mix k 1%RC h h f Hk); [ring|]. intros i Hi. rewrite H by exact Hi. ring. Qed.

(** Linear after the constant part is taken off. *)
Lemma out_scale : forall k s f, k < gsize g' -> (out k (fun i => s * f i) - out k (fun _ => 0) = s * (out k f - out k (fun _ => 0)))%RC.
Proof. intros k s f Hk. rewrite (out_mix k s f (fun _ => 0%RC) (fun i => s * f i)%RC Hk); [ring|]. intros i Hi. ring. Qed.
Lemma out_plus : forall k f h, k < gsize g' -> (out k (fun i => f i + h i) = out k f + out k h - out k (fun _ => 0))%RC.
Proof.
  intros k f h Hk. apply two_inv. set (t := mkC (1 / 2)%R 0%R : RC). assert (T : (t + t = 1)%RC) by (unfold t; apply c_ext; cbn; lra).
  pose proof (out_scale k t (fun i => f i + h i)%RC Hk) as E2. pose proof (out_mix k t f h (fun i => t * (f i + h i))%RC Hk) as E1.
  cbv beta in E2. rewrite E1 in E2; [|intros i Hi; replace (1 - t)%RC with t by (transitivity ((t + t) - t)%RC; [ring | now rewrite T]); ring].
  replace (1 - t)%RC with t in E2 by (transitivity ((t + t) - t)%RC; [ring | now rewrite T]). set (c := out k (fun _ => 0%RC)) in *. set (o1 := out k f) in *. set (o2 := out k h) in *. set (o3 := out k (fun i => (f i + h i)%RC)) in *.
  transitivity ((t * o3 - t * c) + t * c)%RC; [ring|]. transitivity ((t * o1 + t * o2 - c) + t * c)%RC; [rewrite E2; ring|].
  transitivity (t * (o1 + o2) - (t + t) * c + t * c)%RC; [rewrite T; ring | ring].
Qed.

Definition unit_at (j i : nat) : RC := if i =? j then 1%RC else 0%RC.
Lemma out_affine : forall k f, k < gsize g' -> out k f = (csum (fun j => (out k (unit_at j) - out k (fun _ => 0)) * f j) (gsize g) + out k (fun _ => 0))%RC.
Proof.
  intros k f Hk. assert (G : forall m, out k (fun i => if i <? m then f i else 0%RC) = (csum (fun j => (out k (unit_at j) - out k (fun _ => 0)) * f j) m + out k (fun _ => 0))%RC).
  { induction m as [|m IH].
    - rewrite csum_0. transitivity (out k (fun _ => 0%RC)); [apply out_ext; auto | ring].
    - rewrite csum_S. rewrite (out_ext k _ (fun i => (if i <? m then f i else 0) + f m * unit_at m i)%RC Hk).
      + rewrite out_plus, IH by exact Hk. pose proof (out_scale k (f m) (unit_at m) Hk) as E.
        transitivity (csum (fun j => (out k (unit_at j) - out k (fun _ => 0)) * f j) m + (out k (fun i => f m * unit_at m i) - out k (fun _ => 0)) + out k (fun _ => 0))%RC; [ring|]. rewrite E. ring.
      + intros i Hi. unfold unit_at. destruct (Nat.ltb_spec i (S m)), (Nat.ltb_spec i m), (Nat.eqb_spec i m); try lia; subst; ring. }
  rewrite <- G. apply out_ext; [exact Hk|]. intros i Hi. destruct (Nat.ltb_spec i (gsize g)); [reflexivity | lia].
Qed.

Lemma one_layer : gsize g <> 0 -> exists l : dense ROps, dense_wf ROps l /\ inputs ROps l = gsize g /\ units ROps l = gsize g' /\ d_func l = ActNone /\
  forall x, has_geom g x -> exists y, net_forward ROps p n x = Ret (Ok y) /\ has_geom g' y /\ net_forward ROps p [LDense l] (IOScalar (vals x)) = Ret (Ok (IOScalar (vals y))).
Proof.
  intros NZ. pose (A := fun k j => (out k (unit_at j) - out k (fun _ => 0))%RC).
  pose (l := mkDense ROps (mat (gsize g') (gsize g) A) (map (fun k => out k (fun _ => 0%RC)) (seq 0 (gsize g'))) ActNone).
  assert (W : dense_wf ROps l) by (split; [apply wf_mat|]; split; [cbn; now rewrite map_length, seq_length | exact NZ]).
  exists l. split; [exact W|]. do 3 (split; [reflexivity|]). intros x GX.
  assert (LX : length (vals x) = gsize g) by (destruct g, x; try contradiction; [exact GX | exact (map_values_length ROps _ _ _ _ GX)]).
  destruct (forward_total ROps p n g g' x NE HF GX) as (y & E & GY). exists y. split; [exact E|]. split; [exact GY|].
  assert (LY : length (vals y) = gsize g') by (destruct g', y; try contradiction; [exact GY | exact (map_values_length ROps _ _ _ _ GY)]).
  rewrite forward_fold by discriminate. cbn [foldM]. 
  assert (D : dense_forward ROps p l (IOScalar (vals x)) = Ret (Ok (IOScalar (vals y)))).
  { apply C40_forward; [exact W | exact LX|]. split; [exact LY|]. intros k Hk. cbn [d_func l activate]. f_equal. change (units ROps l) with (gsize g') in Hk.
    change (nth k (vals y) (c_default ROps)) with (nth k (vals y) 0%RC).
    assert (EY : nth k (vals y) 0%RC = out k (fun i => nth i (vals x) 0%RC)).
    { pose proof (net_mix p 1%RC n g g' x x (of_vals g (map (fun i => nth i (vals x) 0%RC) (seq 0 (gsize g)))) HF PL NE) as Q. destruct Q as (u & v & z & E1 & E2 & E3 & (_ & _ & _ & M)).
      { assert (LL : length (map (fun i => nth i (vals x) 0%RC) (seq 0 (gsize g))) = gsize g) by (now rewrite map_length, seq_length).
        split; [exact GX|]. split; [exact GX|]. split; [apply of_vals_ok, LL|]. intros i Hi. rewrite (proj2 (of_vals_ok g _ LL)), nth_map_seq by exact Hi. ring. }
      unfold out. rewrite E3. rewrite M by exact Hk. assert (u = y) by congruence. subst u. assert (v = y) by congruence. subst v. ring. }
    rewrite EY, out_affine by exact Hk.
    change (pre ROps l (vals x) k) with (csum (fun j => weight ROps l k j * nth j (vals x) 0)%RC (gsize g) + nth k (d_biases l) 0)%RC. f_equal.
    - apply csum_ext. intros j Hj. f_equal. unfold weight. cbn [d_weights l]. now rewrite entry_mat.
    - cbn [d_biases l]. now rewrite nth_map_seq. }
  rewrite (fwd_ok ROps p (LDense l) _ _ D). reflexivity.
Qed.
End One.

Lemma fold_left_map' : forall {A B C} (f : A -> C -> A) (g : B -> C) l a, fold_left f (map g l) a = fold_left (fun acc i => f acc (g i)) l a.
Proof. intros A B C f g l. induction l as [|x l IH]; intros a; [reflexivity | apply IH]. Qed.

(** Pooling by means is plain. *)
Lemma mean_plain : forall (l : red ROps), r_b0 l * r_b1 l <> 0 -> r_func l = avg_block ROps -> plain (LReduce l).
Proof.
  intros l NZ E. exists (fun _ => mkC (/ INR (r_b0 l * r_b1 l))%R 0%R). intros b L. rewrite E. unfold avg_block.
  assert (F : fold_left (fun acc e => c_add ROps acc e) b (c_default ROps) = csum (fun k => nth k b 0%RC) (length b)).
  { unfold csum, sum_from. rewrite (list_eq_map_nth 0%RC b) at 1. rewrite fold_left_map'. reflexivity. }
  rewrite F, csum_mul_l, <- L. unfold c_new. rewrite fofnat_R. assert (NI : INR (length b) <> 0%R) by (apply not_0_INR; lia). set (t := csum _ _).
  unfold c_div, fsq. cbn [re im]. change (fzero ROps) with 0%R. change (feqb ROps) with Reqb. cbn [fadd fsub fmul fdiv ROps].
  destruct (Reqb _ 0) eqn:Q; [apply Reqb_eq in Q; exfalso; nra|]. f_equal. destruct t as [t1 t2]. apply c_ext; cbn; field; exact NI.
Qed.

(** ** The exclusive or *)
Lemma no_xor : forall p n, fit_all ROps n (Vec 2) (Vec 1) -> Forall plain n -> ~ computes_xor p n.
Proof.
  intros p n HF PL X. assert (NE : n <> []) by (intros ->; inversion HF).
  pose (h := mkC (1 / 2)%R 0%R : RC).
  destruct (net_mix p h n (Vec 2) (Vec 1) (IOScalar [bit false; bit false]) (IOScalar [bit true; bit true]) (IOScalar [h; h]) HF PL NE) as (u & v & z & E1 & E2 & E3 & (_ & _ & _ & M1)).
  { do 3 (split; [reflexivity|]). intros [|[|k]] Hk; [| |cbn in Hk; lia]; unfold h; apply c_ext; cbn; lra. }
  destruct (net_mix p h n (Vec 2) (Vec 1) (IOScalar [bit false; bit true]) (IOScalar [bit true; bit false]) (IOScalar [h; h]) HF PL NE) as (u' & v' & z' & F1 & F2 & F3 & (_ & _ & _ & M2)).
  { do 3 (split; [reflexivity|]). intros [|[|k]] Hk; [| |cbn in Hk; lia]; unfold h; apply c_ext; cbn; lra. }
  rewrite X in E1, E2, F1, F2. injection E1 as <-. injection E2 as <-. injection F1 as <-. injection F2 as <-. assert (z' = z) by congruence. subst z'.
  specialize (M1 0 (le_n _)). specialize (M2 0 (le_n _)). rewrite M1 in M2. apply (f_equal re) in M2. unfold h in M2. cbn in M2. lra.
Qed.

Lemma plain_arch : forall l l', arch_of ROps l' = arch_of ROps l -> plain l -> plain l'.
Proof.
  intros [l|l|l|l] [l'|l'|l'|l'] E H; cbn [arch_of plain] in *; auto; try discriminate; [congruence | congruence|]. assert (l' = l) as -> by congruence. exact H.
Qed.
Lemma plain_all_arch : forall n, Forall plain n -> forall n', map (arch_of ROps) n' = map (arch_of ROps) n -> Forall plain n'.
Proof.
  intros n H. induction H as [|l n Hl H IH]; intros [|l' n'] E; try discriminate; [constructor|]. cbn [map] in E. constructor; [apply (plain_arch l); [congruence | exact Hl] | apply IH; congruence].
Qed.
Lemma trained_no_xor : forall p n n', fit_all ROps n (Vec 2) (Vec 1) -> Forall plain n -> trained ROps p n n' -> ~ computes_xor p n'.
Proof.
  intros p n n' HF PL HT. destruct (C52_history ROps p n n' HT) as (A & _). apply no_xor; [exact (fit_all_arch ROps n _ _ HF n' A) | exact (plain_all_arch n PL n' A)].
Qed.

(** ** With a rectifier in between *)
Definition xor_net : network ROps :=
  [LDense (mkDense ROps (from_body [1; 1; 1; 1]%RC 2 2) [0; mkC (-1)%R 0%R]%RC RITReLU); LDense (mkDense ROps (from_body [1; mkC (-2)%R 0%R]%RC 1 2) [0%RC] ActNone)].
Lemma xor_net_ok : forall p, computes_xor p xor_net.
Proof.
  intros p a b. unfold xor_net. rewrite forward_fold by discriminate. cbn [foldM].
  pose (z := map (fun i => nth i [bit a + bit b; if a && b then 1 else 0]%RC 0%RC) (seq 0 2)).
  assert (E1 : dense_forward ROps p (mkDense ROps (from_body [1; 1; 1; 1]%RC 2 2) [0; mkC (-1)%R 0%R]%RC RITReLU) (IOScalar [bit a; bit b]) = Ret (Ok (IOScalar z))).
  { apply C40_forward; [repeat split; discriminate | reflexivity|]. split; [reflexivity|]. cbn [activate d_func]. intros [|[|k]] Hk; [| |cbn in Hk; lia]; f_equal; unfold ritrelu, relu; cbn [fsignneg ROps]; apply c_ext; cbn [re im];
    destruct (Rltb _ _) eqn:Q; (apply Rltb_lt in Q || apply Rltb_ge in Q); revert Q; destruct a, b; cbn; lra. }
  rewrite (fwd_ok ROps p (LDense _) _ _ E1). cbn [obind].
  assert (E2 : dense_forward ROps p (mkDense ROps (from_body [1; mkC (-2)%R 0%R]%RC 1 2) [0%RC] ActNone) (IOScalar z) = Ret (Ok (IOScalar [bit (xorb a b)]))).
  { apply C40_forward; [repeat split; discriminate | reflexivity|]. split; [reflexivity|]. intros [|k] Hk; [|cbn in Hk; lia]. cbn [activate d_func]. f_equal. destruct a, b; apply c_ext; cbn; lra. }
  rewrite (fwd_ok ROps p (LDense _) _ _ E2). reflexivity.
Qed.
