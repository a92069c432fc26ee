(** * Lemmas about windows of feature maps *)
From Verif Require Import Base BaseFacts Float Matrix Cplx Act Input Dense Conv Layer Network SpecMatrix MatrixFacts MatrixFacts2 SpecLayer SpecConv LayerFacts ConvFacts
  PropMatrix PropConv SpecNet NetFacts SpecCrop.

Section Crop.
Context (Fl : FloatOps) (p : prec).
Local Notation C := (cplx (F Fl)).
Local Notation z := (c_default Fl).

Lemma px_mats : forall n r c (f : nat -> nat -> nat -> C) o i j, o < n -> i < r -> j < c ->
  px z (map (fun o => mat r c (f o)) (seq 0 n)) o i j = f o i j.
Proof.
  intros n r c f o i j Ho Hi Hj. unfold px. rewrite (nth_indep _ m_new (mat r c (f 0))) by (rewrite map_length, seq_length; lia).
  rewrite (map_nth (fun o => mat r c (f o))), seq_nth by lia. now apply entry_mat.
Qed.

Lemma maps_wf_mats : forall n r c (f : nat -> nat -> nat -> C), maps_wf n r c (map (fun o => mat r c (f o)) (seq 0 n)).
Proof.
  intros n r c f. split; [now rewrite map_length, seq_length|]. intros m Hm. apply in_map_iff in Hm as (o & <- & _).
  split; [apply wf_mat | split; reflexivity].
Qed.

Lemma conv_inv : forall a b r c (l : conv Fl) x y, conv_wf Fl a b l -> maps_wf (channels Fl l) r c x -> a <= r -> b <= c ->
  conv_forward Fl p l (IOMatrix x) = Ret (Ok y) -> exists f,
    (forall o i j, o < filters Fl l -> i < r - a + 1 -> j < c - b + 1 -> activate Fl p (k_func l) (cpre Fl a b l x o i j) = Ret (f o i j)) /\
    y = IOMatrix (map (fun o => mat (r - a + 1) (c - b + 1) (f o)) (seq 0 (filters Fl l))).
Proof.
  intros a b r c l x y W M A B E.
  exists (fun o i j => match activate Fl p (k_func l) (cpre Fl a b l x o i j) with Ret v => v | Panic => z end).
  assert (H : forall o i j, o < filters Fl l -> i < r - a + 1 -> j < c - b + 1 ->
     activate Fl p (k_func l) (cpre Fl a b l x o i j) = Ret (match activate Fl p (k_func l) (cpre Fl a b l x o i j) with Ret v => v | Panic => z end)).
  { intros o i j Ho Hi Hj. destruct (activate _ _ _ _) eqn:EA; [reflexivity|].
    rewrite (C44_panic Fl p a b r c l x o i j) in E by auto. discriminate. }
  split; [exact H|]. rewrite (C44_forward Fl p a b r c l x _ W M A B H) in E. now injection E.
Qed.

Lemma cpre_window : forall a b (l : conv Fl) s0 s1 r' c' x' x, conv_wf Fl a b l -> window z s0 s1 r' c' x' x -> length x' = channels Fl l -> a <= r' -> b <= c' ->
  forall o i j, i < r' - a + 1 -> j < c' - b + 1 -> cpre Fl a b l x' o i j = cpre Fl a b l x o (s0 + i) (s1 + j).
Proof.
  intros a b l s0 s1 r' c' x' x W (n & r & c & N1 & M & (L' & M') & R & S & E) LX A B o i j Hi Hj.
  unfold cpre. f_equal. apply sum_from_ext. intros ch Hch. unfold corr. apply sum_from_ext. intros u Hu. apply sum_from_ext. intros v Hv.
  f_equal. rewrite E by lia. f_equal; lia.
Qed.

Lemma conv_window : forall a b (l : conv Fl) s0 s1 r' c' x' x y, conv_wf Fl a b l -> window z s0 s1 r' c' x' x -> a <= r' -> b <= c' ->
  layer_forward Fl p (LConv l) (IOMatrix x) = Ret (Ok y) ->
  exists ms ms', y = IOMatrix ms /\ layer_forward Fl p (LConv l) (IOMatrix x') = Ret (Ok (IOMatrix ms')) /\
    window z s0 s1 (r' - a + 1) (c' - b + 1) ms' ms.
Proof.
  intros a b l s0 s1 r' c' x' x y W Wi A B E. cbn [layer_forward] in *.
  pose proof Wi as (n & r & c & N1 & M & M' & R & S & P).
  assert (n = channels Fl l) as ->.
  { destruct M as (L & M). destruct x as [|m x]; [cbn in L; lia|].
    destruct (Nat.eq_dec (length (m :: x)) (channels Fl l)) as [D|D]; [congruence|].
    destruct (M m (or_introl eq_refl)) as (_ & M0 & M1).
    destruct (C44_rejects Fl p a b l W) as (_ & RJ & _). rewrite RJ in E by (auto; lia). discriminate. }
  destruct (conv_inv a b r c l x y W M ltac:(lia) ltac:(lia) E) as (f & F & ->).
  assert (F' : forall o i j, o < filters Fl l -> i < r' - a + 1 -> j < c' - b + 1 ->
     activate Fl p (k_func l) (cpre Fl a b l x' o i j) = Ret (f o (s0 + i) (s1 + j))).
  { intros o i j Ho Hi Hj. rewrite (cpre_window a b l s0 s1 r' c' x' x) by (auto; apply M'). apply F; lia. }
  do 2 eexists. split; [reflexivity|]. split; [apply (C44_forward Fl p a b r' c' l x' (fun o i j => f o (s0 + i) (s1 + j))); auto|].
  exists (filters Fl l), (r - a + 1), (c - b + 1). split; [apply W|]. split; [apply maps_wf_mats|]. split; [apply (maps_wf_mats (filters Fl l) (r' - a + 1) (c' - b + 1) (fun o i j => f o (s0 + i) (s1 + j)))|].
  split; [lia|]. split; [lia|]. intros ch i j Hc Hi Hj. rewrite (px_mats _ _ _ f) by lia.
  now rewrite (px_mats _ _ _ (fun o i j => f o (s0 + i) (s1 + j))) by lia.
Qed.

(** Reduce layers. *)
Lemma block_inv : forall (m : matrix C) a b f y, wf m -> 1 <= a -> 1 <= b ->
  block_reduce m a b f = Ret (Ok y) ->
  sh0 m mod a = 0 /\ sh1 m mod b = 0 /\ a <= sh0 m /\ b <= sh1 m /\ wf y /\ sh0 y = sh0 m / a /\ sh1 y = sh1 m / b /\
  forall i j, i < sh0 m / a -> j < sh1 m / b -> f (block a b (entry z m) i j) = Ret (entry z y i j).
Proof.
  intros m a b f y W A B E.
  assert (G : sh0 m mod a = 0 /\ sh1 m mod b = 0 /\ a <= sh0 m /\ b <= sh1 m).
  { destruct (C25_errors m a b f) as (_ & ER).
    destruct (Nat.eq_dec (sh0 m mod a) 0); [|rewrite ER in E by auto; discriminate].
    destruct (Nat.eq_dec (sh1 m mod b) 0); [|rewrite ER in E by auto; discriminate].
    destruct (Nat.le_gt_cases a (sh0 m)); [|rewrite ER in E by auto; discriminate].
    destruct (Nat.le_gt_cases b (sh1 m)); [|rewrite ER in E by auto; discriminate]. auto. }
  destruct G as (G1 & G2 & G3 & G4). rewrite (C25_blocks z m a b f) in E by auto.
  apply obind_inv in E as (rows & ER & E). injection E as <-.
  assert (RT : rows = tab_rows (sh0 m / a) (sh1 m / b) (fun i j => match f (block a b (entry z m) i j) with Ret v => v | Panic => z end) /\
     forall i j, i < sh0 m / a -> j < sh1 m / b -> exists v, f (block a b (entry z m) i j) = Ret v).
  { assert (H : forall i j, i < sh0 m / a -> j < sh1 m / b -> exists v, f (block a b (entry z m) i j) = Ret v).
    { intros i j Hi Hj. destruct (f _) eqn:EF; [eauto|]. exfalso.
      rewrite (mapM_panic _ _ i) in ER; [discriminate| apply in_seq; lia |].
      rewrite (mapM_panic _ _ j); [reflexivity | apply in_seq; lia | exact EF]. }
    split; [|exact H]. rewrite (mapM_ret _ (tab_row (fun i j => match f (block a b (entry z m) i j) with Ret v => v | Panic => z end) (sh1 m / b))) in ER; [now injection ER|].
    intros i Hi. apply in_seq in Hi. rewrite (mapM_ret _ (fun j => match f (block a b (entry z m) i j) with Ret v => v | Panic => z end)); [reflexivity|].
    intros j Hj. apply in_seq in Hj. destruct (H i j) as (v & ->); [lia|lia|reflexivity]. }
  destruct RT as (-> & H).
  change (from_body (concat ?t) ?a ?b) with (mat a b (fun i j => match f (block a b (entry z m) i j) with Ret v => v | Panic => z end)) || idtac.
  repeat (split; [assumption|]).
  set (g := fun i j => match f (block a b (entry z m) i j) with Ret v => v | Panic => z end).
  change (from_body _ _ _) with (mat (sh0 m / a) (sh1 m / b) g).
  split; [apply wf_mat|]. split; [reflexivity|]. split; [reflexivity|]. intros i j Hi Hj. rewrite entry_mat by auto. unfold g.
  destruct (H i j Hi Hj) as (v & ->). reflexivity.
Qed.

Lemma block_window : forall (m m' : matrix C) a b f y s0 s1, wf m -> wf m' -> 1 <= a -> 1 <= b ->
  s0 * a + sh0 m' <= sh0 m -> s1 * b + sh1 m' <= sh1 m -> a <= sh0 m' -> b <= sh1 m' -> sh0 m' mod a = 0 -> sh1 m' mod b = 0 ->
  (forall i j, i < sh0 m' -> j < sh1 m' -> entry z m' i j = entry z m (s0 * a + i) (s1 * b + j)) ->
  block_reduce m a b f = Ret (Ok y) ->
  exists y', block_reduce m' a b f = Ret (Ok y') /\ wf y' /\ sh0 y' = sh0 m' / a /\ sh1 y' = sh1 m' / b /\
    forall i j, i < sh0 m' / a -> j < sh1 m' / b -> entry z y' i j = entry z y (s0 + i) (s1 + j).
Proof.
  intros m m' a b f y s0 s1 W W' A B R S A' B' D0 D1 H E.
  destruct (block_inv m a b f y W A B E) as (_ & _ & _ & _ & _ & _ & _ & V).
  exists (mat (sh0 m' / a) (sh1 m' / b) (fun i j => entry z y (s0 + i) (s1 + j))).
  assert (Q : forall q s n k, 1 <= q -> s * q + n <= k -> s + n / q <= k / q).
  { intros q s n k Hq L. rewrite <- (Nat.div_add_l s q n) by lia. apply Nat.div_le_mono; lia. }
  pose proof (Q a s0 _ _ A R). pose proof (Q b s1 _ _ B S).
  assert (BL : forall i j, i < sh0 m' / a -> j < sh1 m' / b -> block a b (entry z m') i j = block a b (entry z m) (s0 + i) (s1 + j)).
  { intros i j Hi Hj. unfold block. f_equal. apply tab_rows_ext. intros u v Hu Hv.
    assert (LI : i * a + u < sh0 m') by (assert (Datatypes.S i * a <= sh0 m') by (pose proof (Nat.mul_div_le (sh0 m') a); nia); cbn [Nat.mul] in *; lia).
    assert (LJ : j * b + v < sh1 m') by (assert (Datatypes.S j * b <= sh1 m') by (pose proof (Nat.mul_div_le (sh1 m') b); nia); cbn [Nat.mul] in *; lia).
    rewrite H by auto. f_equal; lia. }
  split; [|split; [apply wf_mat|split; [reflexivity|split; [reflexivity|intros i j Hi Hj; now rewrite (entry_mat z) by auto]]]].
  rewrite (C25_blocks z) by auto.
  rewrite (mapM_ret _ (tab_row (fun i j => entry z y (s0 + i) (s1 + j)) (sh1 m' / b))); [reflexivity|].
  intros i Hi. apply in_seq in Hi. rewrite (mapM_ret _ (fun j => entry z y (s0 + i) (s1 + j))); [reflexivity|].
  intros j Hj. apply in_seq in Hj. rewrite BL by lia. apply V; lia.
Qed.

Lemma red_window : forall (l : red Fl) s0 s1 r' c' x' x y, window z (s0 * r_b0 l) (s1 * r_b1 l) r' c' x' x ->
  1 <= r_b0 l <= r' -> 1 <= r_b1 l <= c' -> r' mod r_b0 l = 0 -> c' mod r_b1 l = 0 ->
  layer_forward Fl p (LReduce l) (IOMatrix x) = Ret (Ok y) ->
  exists ms ms', y = IOMatrix ms /\ layer_forward Fl p (LReduce l) (IOMatrix x') = Ret (Ok (IOMatrix ms')) /\
    window z s0 s1 (r' / r_b0 l) (c' / r_b1 l) ms' ms.
Proof.
  intros l s0 s1 r' c' x' x y (n & r & c & N1 & (L & M) & (L' & M') & R & S & P) (A1 & A2) (B1 & B2) D0 D1 E.
  cbn [layer_forward] in *. unfold red_forward in *. apply obind_inv in E as (out & EO & E). injection E as <-.
  exists out.
  assert (V : forall k, k < n -> block_reduce (nth k x m_new) (r_b0 l) (r_b1 l) (r_func l) = Ret (Ok (nth k out m_new))).
  { intros k Hk. assert (NE : nth_error x k = Some (nth k x m_new)) by (apply nth_error_nth'; lia).
    destruct (mapM_nth_inv _ _ _ _ _ EO NE) as (b & Nb & Eb). apply obind_inv in Eb as (rb & Eb & Eb').
    apply obind_inv in Eb' as (rb' & Eu & Eb'). destruct rb as [v|e]; [|discriminate]. cbn [unwrap] in Eu. injection Eu as ->. injection Eb' as ->.
    rewrite Eb. do 2 f_equal. symmetry. now apply nth_error_nth. }
  assert (IN : forall k, k < n -> In (nth k x m_new) x /\ In (nth k x' m_new) x') by (intros k Hk; split; apply nth_In; lia).
  assert (X : forall k, k < n -> exists y', block_reduce (nth k x' m_new) (r_b0 l) (r_b1 l) (r_func l) = Ret (Ok y') /\ wf y' /\ sh0 y' = r' / r_b0 l /\ sh1 y' = c' / r_b1 l /\
     forall i j, i < r' / r_b0 l -> j < c' / r_b1 l -> entry z y' i j = entry z (nth k out m_new) (s0 + i) (s1 + j)).
  { intros k Hk. destruct (IN k Hk) as (I1 & I2). destruct (M _ I1) as (W & E0 & E1). destruct (M' _ I2) as (W' & E0' & E1').
    destruct (block_window (nth k x m_new) (nth k x' m_new) (r_b0 l) (r_b1 l) (r_func l) (nth k out m_new) s0 s1) as (y' & Ey & Wy & Y0 & Y1 & Yv);
      rewrite ?E0, ?E1, ?E0', ?E1'; auto.
    - intros i j Hi Hj. now apply P.
    - rewrite E0', E1' in *. exists y'. repeat split; auto. }
  assert (G : exists ms', mapM (fun f => r0 <-! block_reduce f (r_b0 l) (r_b1 l) (r_func l);; Ret r0) x' = Ret ms' /\ length ms' = n /\
     forall k, k < n -> block_reduce (nth k x' m_new) (r_b0 l) (r_b1 l) (r_func l) = Ret (Ok (nth k ms' m_new))).
  { assert (X' : forall k, k < n -> exists y', block_reduce (nth k x' m_new) (r_b0 l) (r_b1 l) (r_func l) = Ret (Ok y')).
    { intros k Hk. destruct (X k Hk) as (y' & Ey & _). eauto. }
    clear - X' L'. rename X' into X. revert n L' X. induction x' as [|m x' IH]; intros n L' X.
    - exists []. cbn in L'. split; [reflexivity|]. split; [cbn; lia|]. intros; lia.
    - destruct n as [|n]; [cbn in L'; lia|]. destruct (X 0 ltac:(lia)) as (y0 & E0). cbn [nth] in E0.
      destruct (IH n ltac:(cbn in L'; lia)) as (ms & E & LM & V). { intros k Hk. apply (X (Datatypes.S k)). lia. }
      exists (y0 :: ms). cbn [mapM]. rewrite E0. cbn [obind unwrap]. rewrite E. cbn [obind]. split; [reflexivity|]. split; [cbn; lia|].
      intros [|k] Hk; cbn [nth]; [exact E0|apply V; lia]. }
  destruct G as (ms' & EM & LM & V'). exists ms'. split; [reflexivity|]. rewrite EM. cbn [obind]. split; [reflexivity|].
  exists n, (r / r_b0 l), (c / r_b1 l). split; [exact N1|].
  assert (LO : length out = n) by (apply mapM_length in EO; lia).
  split.
  { split; [exact LO|]. intros m Hm. apply (In_nth _ _ m_new) in Hm as (k & Hk & <-). destruct (IN k ltac:(lia)) as (I1 & _).
    destruct (M _ I1) as (W & E0 & E1). destruct (block_inv _ _ _ _ _ W A1 B1 (V k ltac:(lia))) as (_ & _ & _ & _ & Wy & Y0 & Y1 & _).
    rewrite Y0, Y1, E0, E1. auto. }
  assert (Y : forall k, k < n -> wf (nth k ms' m_new) /\ sh0 (nth k ms' m_new) = r' / r_b0 l /\ sh1 (nth k ms' m_new) = c' / r_b1 l /\
     forall i j, i < r' / r_b0 l -> j < c' / r_b1 l -> entry z (nth k ms' m_new) i j = entry z (nth k out m_new) (s0 + i) (s1 + j)).
  { intros k Hk. destruct (X k Hk) as (y' & Ey & H). rewrite (V' k Hk) in Ey. injection Ey as ->. exact H. }
  split. { split; [exact LM|]. intros m Hm. apply (In_nth _ _ m_new) in Hm as (k & Hk & <-). destruct (Y k ltac:(lia)) as (Y1 & Y2 & Y3 & _). auto. }
  assert (Q : forall q s n k, 1 <= q -> s * q + n <= k -> s + n / q <= k / q).
  { intros q s n0 k Hq Lq. rewrite <- (Nat.div_add_l s q n0) by lia. apply Nat.div_le_mono; lia. }
  split; [now apply Q|]. split; [now apply Q|]. intros ch i j Hc Hi Hj. unfold px. now apply Y.
Qed.

(** The whole stack. *)
Lemma stack_window : forall (ls : network Fl) s0 s1 r' c' r1 c1 x' x y, spatial Fl ls r' c' r1 c1 ->
  window z (s0 * stride0 Fl ls) (s1 * stride1 Fl ls) r' c' x' x ->
  foldM (fun acc l => fwd Fl p l acc) ls (IOMatrix x) = Ret y ->
  exists ms ms', y = IOMatrix ms /\ foldM (fun acc l => fwd Fl p l acc) ls (IOMatrix x') = Ret (IOMatrix ms') /\ window z s0 s1 r1 c1 ms' ms.
Proof.
  induction ls as [|l ls IH]; intros s0 s1 r' c' r1 c1 x' x y SP W E.
  - cbn in SP, W, E. destruct SP as (-> & ->). rewrite !Nat.mul_1_r in W. injection E as <-. exists x, x'. auto.
  - cbn [foldM] in E |- *. apply obind_inv in E as (v & EV & E). unfold fwd in EV. apply obind_inv in EV as (rv & EV & EV').
    apply obind_inv in EV' as (v' & EU & EV'). destruct rv as [v0|e]; [|discriminate]. cbn [unwrap] in EU. injection EU as ->. injection EV' as ->.
    assert (ST : exists ms ms' r2 c2, v = IOMatrix ms /\ layer_forward Fl p l (IOMatrix x') = Ret (Ok (IOMatrix ms')) /\
       window z (s0 * stride0 Fl ls) (s1 * stride1 Fl ls) r2 c2 ms' ms /\ spatial Fl ls r2 c2 r1 c1).
    { destruct l as [l|l|l|l]; cbn [spatial stride0 stride1] in *; try contradiction.
      - destruct SP as (a & b & WF & A & B & SP).
        destruct (conv_window a b l _ _ r' c' x' x v WF W A B EV) as (ms & ms' & E1 & E2 & E3). exists ms, ms', (r' - a + 1), (c' - b + 1). auto.
      - destruct SP as (A & B & D0 & D1 & SP).
        destruct (red_window l (s0 * stride0 Fl ls) (s1 * stride1 Fl ls) r' c' x' x v) as (ms & ms' & E1 & E2 & E3); auto.
        { now replace (s0 * stride0 Fl ls * r_b0 l) with (s0 * (r_b0 l * stride0 Fl ls)) by lia; replace (s1 * stride1 Fl ls * r_b1 l) with (s1 * (r_b1 l * stride1 Fl ls)) by lia. }
        exists ms, ms', (r' / r_b0 l), (c' / r_b1 l). auto. }
    destruct ST as (ms & ms' & r2 & c2 & -> & E2 & W2 & SP2). unfold fwd at 1. rewrite E2. cbn [obind unwrap]. eapply IH; eauto.
Qed.

Lemma forward_fold : forall (ls : network Fl) x, ls <> [] ->
  net_forward Fl p ls x = (y <- foldM (fun acc l => fwd Fl p l acc) ls x ;; Ret (Ok y)).
Proof.
  intros [|l ls] x NE; [congruence|]. cbn [net_forward foldM]. destruct (fwd Fl p l x) as [v|]; [|reflexivity]. cbn [obind].
  destruct ls; [reflexivity|]. reflexivity.
Qed.
End Crop.
