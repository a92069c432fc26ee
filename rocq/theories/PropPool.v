(** * Properties of reduce and flatten layers (C47, C48) *)
From Verif Require Import Base BaseFacts Float Matrix Cplx Random Act Input Dense Conv Layer Dataset Network SpecMatrix MatrixFacts MatrixFacts2
  SpecLayer SpecConv DenseFacts LayerFacts ConvFacts PoolFacts PropMatrix ExOps.
Local Notation P32 := Float.P32.
Local Notation P64 := Float.P64.

(** ** C47 *)
(** Every map, whatever its own size, is replaced by the table of its reduced
    blocks; the number and order of the maps is kept. *)
Theorem C47_forward : forall Fl (l : red Fl) (g : list (cplx (F Fl)) -> cplx (F Fl)) x,
  (forall b, length b = r_b0 l * r_b1 l -> r_func l b = Ret (g b)) -> 1 <= r_b0 l -> 1 <= r_b1 l ->
  (forall m, In m x -> wf m /\ sh0 m mod r_b0 l = 0 /\ sh1 m mod r_b1 l = 0 /\ r_b0 l <= sh0 m /\ r_b1 l <= sh1 m) ->
  red_forward Fl l (IOMatrix x) =
  Ret (Ok (IOMatrix (map (fun m => mat (sh0 m / r_b0 l) (sh1 m / r_b1 l)
     (fun i j => g (block (r_b0 l) (r_b1 l) (entry (c_default Fl) m) i j))) x))).
Proof.
  intros Fl l g x G A B H. unfold red_forward.
  rewrite (mapM_ret _ (fun m => mat (sh0 m / r_b0 l) (sh1 m / r_b1 l) (fun i j => g (block (r_b0 l) (r_b1 l) (entry (c_default Fl) m) i j)))); [reflexivity|].
  intros m Hm. destruct (H m Hm) as (W & M0 & M1 & L0 & L1).
  rewrite (C25_blocks (c_default Fl)) by auto.
  rewrite (mapM_ret _ (tab_row (fun i j => g (block (r_b0 l) (r_b1 l) (entry (c_default Fl) m) i j)) (sh1 m / r_b1 l))); [reflexivity|].
  intros i _. rewrite (mapM_ret _ (fun j => g (block (r_b0 l) (r_b1 l) (entry (c_default Fl) m) i j))); [reflexivity|]. intros; apply G.
  unfold block. apply concat_tab_length.
Qed.
Print Assumptions C47_forward.

(** A reduce layer declares the same number of maps at both ends, has no
    parameters, and an update leaves it as it is. *)
Theorem C47_shapes : forall Fl n b0 b1 f k dw db,
  let l := red_init Fl n b0 b1 f k in
  layer_input_shape Fl (LReduce l) = ShMatrix n /\ layer_output_shape Fl (LReduce l) = ShMatrix n /\
  layer_params_len Fl (LReduce l) = (0, 0) /\ layer_is_empty Fl (LReduce l) = false /\
  layer_adjust Fl (LReduce l) dw db = Ret (Ok (LReduce l)) /\
  (forall x y, length x = n -> red_forward Fl l (IOMatrix x) = Ret (Ok y) -> exists ms, y = IOMatrix ms /\ length ms = n).
Proof.
  intros. repeat (split; [reflexivity|]). intros x y L E. unfold red_forward in E. apply obind_inv in E as (out & EO & E).
  injection E as <-. exists out. split; [reflexivity|]. apply mapM_length in EO. congruence.
Qed.
Print Assumptions C47_shapes.

Theorem C47_rejects : forall Fl (l : red Fl),
  (forall v, red_forward Fl l (IOScalar v) = Ret (Err InvalidInput)) /\
  (forall v g gc, red_derivatives Fl l (IOScalar v) g gc = Ret (Err G_InconsistentShape)) /\
  (forall x m, 1 <= r_b0 l -> 1 <= r_b1 l -> In m x ->
     sh0 m mod r_b0 l <> 0 \/ sh1 m mod r_b1 l <> 0 \/ sh0 m < r_b0 l \/ sh1 m < r_b1 l ->
     red_forward Fl l (IOMatrix x) = Panic).
Proof.
  intros Fl l. repeat split. intros x m A B Hm H. unfold red_forward. rewrite (mapM_panic _ x m); auto.
  destruct (C25_errors m (r_b0 l) (r_b1 l) (r_func l)) as (_ & E). rewrite E by auto. reflexivity.
Qed.
Print Assumptions C47_rejects.

(** Backward: one up-sampled map of the input's size per input map, for both
    gradients, and no parameter gradient.  Each value sits alone in the middle
    (rounded up and left) of its block and is then spread by the 3 x 3 kernel. *)
Theorem C47_backward : forall Fl (l : red Fl) a n r c x (g gc : list (cplx (F Fl))),
  r_b0 l = a -> r_b1 l = a -> wf (r_kernel l) -> sh0 (r_kernel l) = 3 -> sh1 (r_kernel l) = 3 ->
  1 <= a -> a <= r -> a <= c -> r mod a = 0 -> c mod a = 0 -> 1 <= n -> maps_wf n r c x ->
  length g = n * (r / a * (c / a)) -> length gc = n * (r / a * (c / a)) ->
  let z := c_default Fl in
  exists dx dxc, red_derivatives Fl l (IOMatrix x) g gc = Ret (Ok ([], [], dx, dxc)) /\
    length dx = length (map_values x) /\ length dxc = length (map_values x) /\
    forall ch i j, ch < n -> i < r -> j < c ->
      let up h := corr (cops Fl) 3 3
        (framed z r c 1 1 (stuffed z a a ((a - 1) / 2) ((a - 1) / 2) (at3 z (r / a) (c / a) h ch))) (entry z (r_kernel l)) i j in
      at3 z r c dx ch i j = up g /\ at3 z r c dxc ch i j = up gc.
Proof.
  intros Fl l a n r c x g gc B0 B1 WK K0 K1 A1 AR AC MR MC N1 M Lg Lgc z.
  do 2 eexists. split; [apply (red_derivatives_ok Fl l a n r c); auto|].
  rewrite !tab3_length. unfold map_values. rewrite (concat_length_const (r * c)).
  2: { apply Forall_forall. intros q Hq. apply in_map_iff in Hq as (m & <- & Hm). destruct M as (_ & M). destruct (M m Hm) as (W & E0 & E1). rewrite <- E0, <- E1. exact W. }
  rewrite map_length. destruct M as (-> & _). repeat (split; [reflexivity|]).
  intros ch i j Hc Hi Hj. rewrite !at3_tab3 by auto. split; reflexivity.
Qed.
Print Assumptions C47_backward.

(** What was cut into blocks is put back together: forward then backward keeps
    every size. *)
Example C47_ex :
  let l := mkRed ZFl 1 2 2 (fun b => Ret (fold_left (c_add ZFl) b (mkC 0 0)%Z))
             (from_body (repeat (mkC 1 0)%Z 9) 3 3) in
  let x := [from_body (map (fun k => mkC (Z.of_nat k) 0)%Z (seq 0 8)) 2 4] in
  red_forward ZFl l (IOMatrix x) = Ret (Ok (IOMatrix [from_body [mkC 10 0; mkC 18 0]%Z 1 2])) /\
  red_derivatives ZFl l (IOMatrix x) [mkC 1 0; mkC 0 5]%Z [mkC 0 0; mkC 1 0]%Z =
  Ret (Ok ([], [], [mkC 1 0; mkC 1 5; mkC 0 5; mkC 0 5; mkC 1 0; mkC 1 5; mkC 0 5; mkC 0 5]%Z,
                   [mkC 0 0; mkC 1 0; mkC 1 0; mkC 1 0; mkC 0 0; mkC 1 0; mkC 1 0; mkC 1 0]%Z)).
Proof. split; reflexivity. Qed.

(** ** C48 *)
Theorem C48_forward : forall Fl (l : flat) n r c (x : list (matrix (cplx (F Fl)))), maps_wf n r c x ->
  exists v, flat_forward Fl l (IOMatrix x) = Ret (Ok (IOScalar v)) /\ length v = n * (r * c) /\
    forall ch i j, ch < n -> i < r -> j < c -> at3 (c_default Fl) r c v ch i j = px (c_default Fl) x ch i j.
Proof.
  intros Fl l n r c x M. exists (flat_map body x). split; [reflexivity|].
  assert (E : flat_map body x = tab3 n r c (px (c_default Fl) x)).
  { unfold tab3. rewrite flat_map_concat_map. f_equal. pose proof M as (L & _).
    rewrite (list_eq_map_nth m_new x) at 1. rewrite map_map, L. apply map_seq_ext. intros o Ho.
    destruct (maps_nth Fl n r c x o M Ho) as (W & E0 & E1).
    rewrite (wf_body (c_default Fl) _ W), E0, E1. reflexivity. }
  rewrite E, tab3_length. split; [reflexivity|]. intros ch i j Hc Hi Hj. now apply at3_tab3.
Qed.
Print Assumptions C48_forward.

(** The declared output shape is met by maps of the declared size; vectors are
    refused. *)
Theorem C48_shapes : forall Fl (l : flat),
  (forall x, maps_wf (f_n l) (f_r l) (f_c l) x -> exists v,
     flat_forward Fl l (IOMatrix x) = Ret (Ok (IOScalar v)) /\ flat_output_shape l = ShScalar (length v)) /\
  (forall v, flat_forward Fl l (IOScalar v) = Ret (Err InvalidInput)).
Proof.
  intros Fl l. split; [|reflexivity]. intros x M. destruct (C48_forward Fl l _ _ _ x M) as (v & E & L & _).
  exists v. split; [exact E|]. unfold flat_output_shape. f_equal. lia.
Qed.
Print Assumptions C48_shapes.

(** During training a flatten layer hands the gradients on unchanged, adds
    nothing to any parameter gradient, and is left as it is by the update. *)
Theorem C48_training : forall Fl p n st prev (l : flat),
  back_step Fl p n st (prev, LFlatten l) =
    Ret (mkB Fl (b_w Fl st) (b_b Fl st) (b_dlda Fl st) (b_dldac Fl st) (S (b_l Fl st))) /\
  forall scale g, update_layer Fl scale (g, LFlatten l) = Ret (LFlatten l).
Proof. intros. split; [reflexivity|]. now intros scale [dw db]. Qed.
Print Assumptions C48_training.

Example C48_ex : flat_forward ZFl (mkFlat 1 2 2) (IOMatrix [from_body [mkC 1 0; mkC 2 0]%Z 1 2; from_body [mkC 3 0; mkC 4 0]%Z 1 2])
  = Ret (Ok (IOScalar [mkC 1 0; mkC 2 0; mkC 3 0; mkC 4 0]%Z)).
Proof. reflexivity. Qed.
