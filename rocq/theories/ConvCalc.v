(** * Tangents of convolutional layers *)
From Coq Require Import Reals Lra Psatz.
From Coquelicot Require Import Coquelicot.
From Verif Require Import Base BaseFacts Float Matrix Cplx Random Act Input Dense Conv RFloat SpecMatrix MatrixFacts CFacts Adjoint
  SpecCalculus CalcFacts SpecLoss LossFacts SpecLayer SpecConv DenseFacts LayerFacts LayerCalc ConvFacts.
Local Open Scope R_scope.
Local Notation re := Cplx.re.
Local Notation im := Cplx.im.
Local Notation CO := (cops ROps).

(** ** Sums over three indices *)
Definition csum3 (n r c : nat) (f : nat -> nat -> nat -> RC) : RC := csum (fun o => dsum r c (f o)) n.

Lemma csum3_ext : forall n r c f g, (forall o i j, (o < n)%nat -> (i < r)%nat -> (j < c)%nat -> f o i j = g o i j) ->
  csum3 n r c f = csum3 n r c g.
Proof. intros n r c f g H. apply csum_ext. intros o Ho. apply dsum_ext. auto. Qed.

Lemma csum3_add : forall n r c f g, csum3 n r c (fun o i j => (f o i j + g o i j)%RC) = (csum3 n r c f + csum3 n r c g)%RC.
Proof. intros. unfold csum3. rewrite <- csum_add. apply csum_ext. intros o _. apply dsum_add. Qed.

Lemma csum_3 : forall (f : nat -> RC) n r c,
  csum f (n * (r * c)) = csum3 n r c (fun o i j => f ((o * r + i) * c + j)%nat).
Proof.
  intros f n r c. rewrite Nat.mul_assoc. rewrite csum_flat. rewrite csum_flat. reflexivity.
Qed.

Lemma rate_3 : forall g v n r c, length v = (n * (r * c))%nat ->
  rate g v = 2 * re (csum3 n r c (fun o i j => (at3 0 r c g o i j * at3 0 r c v o i j)%RC)).
Proof. intros g v n r c L. rewrite rate_csum, L, csum_3. reflexivity. Qed.

Lemma re_csum3 : forall n r c f g, (forall o i j, (o < n)%nat -> (i < r)%nat -> (j < c)%nat -> re (f o i j) = re (g o i j)) ->
  re (csum3 n r c f) = re (csum3 n r c g).
Proof.
  intros n r c f g H. unfold csum3, dsum. rewrite !re_csum. apply rsum_ext. intros o Ho. rewrite !re_csum. apply rsum_ext. intros i Hi.
  rewrite !re_csum. apply rsum_ext. auto.
Qed.

(** ** Correlations *)
Lemma corr_add_kernel : forall a b f g h i j,
  corr CO a b f (fun u v => (g u v + h u v)%RC) i j = (corr CO a b f g i j + corr CO a b f h i j)%RC.
Proof. intros. rewrite !corr_dsum, <- dsum_add. apply dsum_ext. intros. ring. Qed.

Lemma corr_add_image : forall a b f g h i j,
  corr CO a b (fun u v => (g u v + h u v)%RC) f i j = (corr CO a b g f i j + corr CO a b h f i j)%RC.
Proof. intros. rewrite !corr_dsum, <- dsum_add. apply dsum_ext. intros. ring. Qed.

Lemma corr_ext : forall a b f f' k k' i j,
  (forall u v, (u < a)%nat -> (v < b)%nat -> f (i + u)%nat (j + v)%nat = f' (i + u)%nat (j + v)%nat /\ k u v = k' u v) ->
  corr CO a b f k i j = corr CO a b f' k' i j.
Proof. intros a b f f' k k' i j H. rewrite !corr_dsum. apply dsum_ext. intros u v Hu Hv. destruct (H u v Hu Hv) as [-> ->]. reflexivity. Qed.

Lemma framed_add : forall r c p q f g i j,
  framed 0%RC r c p q (fun u v => (f u v + g u v)%RC) i j = (framed 0%RC r c p q f i j + framed 0%RC r c p q g i j)%RC.
Proof. intros. unfold framed. destruct (_ && _)%bool; [reflexivity | ring]. Qed.

Lemma cderiv_corr : forall a b (f k : R -> nat -> nat -> RC) (f' k' : nat -> nat -> RC) i j,
  (forall u v, (u < a)%nat -> (v < b)%nat -> cderiv (fun t => f t (i + u)%nat (j + v)%nat) (f' (i + u)%nat (j + v)%nat)) ->
  (forall u v, (u < a)%nat -> (v < b)%nat -> cderiv (fun t => k t u v) (k' u v)) ->
  cderiv (fun t => corr CO a b (f t) (k t) i j) (corr CO a b f' (k 0%R) i j + corr CO a b (f 0%R) k' i j)%RC.
Proof.
  intros a b f k f' k' i j Hf Hk. rewrite !corr_dsum, <- dsum_add. unfold dsum.
  apply (cderiv_ext (fun t => csum (fun u => csum (fun v => (f t (i + u)%nat (j + v)%nat * k t u v)%RC) b) a)); [reflexivity|].
  apply (cderiv_csum (fun u t => csum (fun v => (f t (i + u)%nat (j + v)%nat * k t u v)%RC) b)). intros u Hu.
  apply (cderiv_csum (fun v t => (f t (i + u)%nat (j + v)%nat * k t u v)%RC)). intros v Hv.
  apply (cderiv_mul (fun t => f t (i + u)%nat (j + v)%nat) (fun t => k t u v)); auto.
Qed.

(** ** Flattened values *)
Lemma map_values_tab3 : forall n r c (x : list (matrix RC)), maps_wf n r c x -> map_values x = tab3 n r c (px 0%RC x).
Proof.
  intros n r c x [L H]. unfold map_values, tab3. rewrite (list_eq_map_nth m_new x) at 1. rewrite L, map_map. f_equal.
  apply map_seq_ext. intros ch Hc. destruct (H (nth ch x m_new)) as (W & E0 & E1); [apply nth_In; lia|].
  rewrite (wf_body 0%RC) by exact W. rewrite E0, E1. reflexivity.
Qed.

Lemma kernel_values_tab3 : forall a b (l : conv ROps), conv_wf ROps a b l ->
  kernel_values l = tab3 (filters ROps l * channels ROps l) a b
    (fun k => kval ROps l (k / channels ROps l) (k mod channels ROps l)).
Proof.
  intros a b l (W & _ & C1 & _ & _ & _ & _ & H). unfold kernel_values, tab3. f_equal.
  set (ks := body (k_kernels l)) in *. rewrite (list_eq_map_nth m_new ks) at 1.
  replace (length ks) with (filters ROps l * channels ROps l)%nat by (symmetry; exact W).
  rewrite map_map. apply map_seq_ext. intros k Hk.
  destruct (H (nth k ks m_new)) as (Wk & E0 & E1); [apply nth_In; replace (length ks) with (filters ROps l * channels ROps l)%nat by (symmetry; exact W); exact Hk|].
  rewrite (wf_body 0%RC) by exact Wk. rewrite E0, E1. f_equal. apply tab_rows_ext. intros u v _ _. unfold kval, entry. fold ks.
  fold (channels ROps l).
  replace (k / channels ROps l * channels ROps l + k mod channels ROps l)%nat with k; [reflexivity|].
  rewrite (Nat.div_mod k (channels ROps l)) at 1 by lia. lia.
Qed.

Lemma kval_at3 : forall a b (l : conv ROps) o ch u v, conv_wf ROps a b l ->
  (o < filters ROps l)%nat -> (ch < channels ROps l)%nat -> (u < a)%nat -> (v < b)%nat ->
  at3 0%RC a b (kernel_values l) (o * channels ROps l + ch) u v = kval ROps l o ch u v.
Proof.
  intros a b l o ch u v W Ho Hc Hu Hv. rewrite (kernel_values_tab3 a b) by auto. rewrite at3_tab3; [|nia|auto|auto].
  rewrite Nat.div_add_l, Nat.div_small, (Nat.add_comm (o * _)), Nat.mod_add, Nat.mod_small by lia. f_equal. lia.
Qed.

Lemma px_at3 : forall n r c (x : list (matrix RC)) ch i j, maps_wf n r c x -> (ch < n)%nat -> (i < r)%nat -> (j < c)%nat ->
  at3 0%RC r c (map_values x) ch i j = px 0%RC x ch i j.
Proof. intros n r c x ch i j M Hc Hi Hj. rewrite (map_values_tab3 n r c) by auto. now apply at3_tab3. Qed.

Lemma vderiv_at3 : forall n r c (q : R -> list RC) v, vderiv q v -> length v = (n * (r * c))%nat ->
  forall o i j, (o < n)%nat -> (i < r)%nat -> (j < c)%nat -> cderiv (fun t => at3 0%RC r c (q t) o i j) (at3 0%RC r c v o i j).
Proof.
  intros n r c q v [_ D] L o i j Ho Hi Hj. unfold at3. apply D. rewrite L.
  assert ((o * r + i) < n * r)%nat by nia. nia.
Qed.

Lemma at3_idx_lt : forall n r c o i j, (o < n)%nat -> (i < r)%nat -> (j < c)%nat -> ((o * r + i) * c + j < n * (r * c))%nat.
Proof. intros. assert ((o * r + i) < n * r)%nat by nia. nia. Qed.

Lemma at3_vadd : forall r c (a b : list RC) n o i j, length a = (n * (r * c))%nat -> length b = (n * (r * c))%nat ->
  (o < n)%nat -> (i < r)%nat -> (j < c)%nat ->
  at3 0%RC r c (vadd a b) o i j = (at3 0%RC r c a o i j + at3 0%RC r c b o i j)%RC.
Proof.
  intros r c a b n o i j La Lb Ho Hi Hj. pose proof (at3_idx_lt n r c o i j Ho Hi Hj) as K.
  unfold at3, vadd. set (k := ((o * r + i) * c + j)%nat) in *. clearbody k.
  rewrite nth_indep with (d' := (fun ab => c_add ROps (fst ab) (snd ab)) (0%RC, 0%RC)).
  - rewrite (map_nth (fun ab : RC * RC => c_add ROps (fst ab) (snd ab))). rewrite combine_nth by congruence. reflexivity.
  - rewrite map_length, combine_length, La, Lb. lia.
Qed.

(** Sum of all values of a table, starting from the first. *)
Lemma sum_all_csum : forall n f, (1 <= n)%nat -> sum_all ROps n f = csum f n.
Proof.
  intros n f H. destruct n as [|n]; [lia|]. unfold sum_all. replace (S n - 1)%nat with n by lia.
  rewrite csum_S_first. clear H. induction n as [|n IH]; [rewrite csum_0; unfold sum_from; cbn [seq fold_left]; ring|].
  rewrite csum_S. unfold sum_from in *. rewrite seq_S, fold_left_app, IH. cbn [fold_left Nat.add].
  ring.
Qed.

Lemma tab_csum : forall r c (f : nat -> nat -> RC), csum (fun q => f (q / c) (q mod c))%nat (r * c) = dsum r c f.
Proof.
  intros r c f. rewrite csum_flat. apply csum_ext. intros i Hi. apply csum_ext. intros j Hj.
  rewrite Nat.div_add_l, Nat.div_small, (Nat.add_comm (i * c)), Nat.mod_add, Nat.mod_small by lia. f_equal. lia.
Qed.

Lemma dsum_csum_swap : forall r c n (f : nat -> nat -> nat -> RC),
  csum (fun o => dsum r c (fun i j => f o i j)) n = dsum r c (fun i j => csum (fun o => f o i j) n).
Proof.
  intros. unfold dsum. rewrite csum_swap. apply csum_ext. intros i _. apply csum_swap.
Qed.

Lemma nth_concat_const : forall {A} (d : A) k (ls : list (list A)) o i, Forall (fun l => length l = k) ls -> (i < k)%nat ->
  nth (o * k + i) (concat ls) d = nth i (nth o ls []) d.
Proof.
  intros A d k ls o i H Hi. revert o. induction H as [|l ls L H IH]; intros o.
  - cbn [concat]. destruct o; cbn [nth]; destruct i; try reflexivity; now destruct (_ + _)%nat.
  - destruct o as [|o]; cbn [concat nth].
    + rewrite app_nth1 by (cbn; lia). reflexivity.
    + rewrite app_nth2 by (cbn [Nat.mul]; lia). rewrite <- IH. f_equal. rewrite L. cbn [Nat.mul]. lia.
Qed.

(** ** The layer *)
Section Layer.
Context (p : prec) (a b r c : nat) (K : R -> conv ROps) (vk vb : list RC) (x : R -> list (matrix RC)) (vx : list RC).
Let f := filters ROps (K 0%R).
Let n := channels ROps (K 0%R).
Let ro := (r - a + 1)%nat.
Let co := (c - b + 1)%nat.
Hypothesis MK : conv_moves a b K vk vb.
Hypothesis MX : maps_move n r c x vx.
Hypothesis Ha : (a <= r)%nat.
Hypothesis Hb : (b <= c)%nat.

(** Velocities of kernel values, input values and pre-activations. *)
Let kd o ch u v := at3 0%RC a b vk (o * n + ch) u v.
Let xd ch i j := at3 0%RC r c vx ch i j.
Let qd o i j := (csum (fun ch => corr CO a b (xd ch) (kval ROps (K 0%R) o ch) i j + corr CO a b (px 0 (x 0%R) ch) (kd o ch) i j)%RC n + nth o vb 0)%RC.

Lemma conv_wf0 : conv_wf ROps a b (K 0%R).
Proof. destruct MK as (A & _). apply A. Qed.
Lemma a1 : (1 <= a)%nat. Proof. destruct conv_wf0 as (_ & _ & _ & A1 & _). exact A1. Qed.
Lemma b1 : (1 <= b)%nat. Proof. destruct conv_wf0 as (_ & _ & _ & _ & B1 & _). exact B1. Qed.
Lemma f1 : (1 <= f)%nat. Proof. destruct conv_wf0 as (_ & F1 & _). exact F1. Qed.
Lemma n1 : (1 <= n)%nat. Proof. destruct conv_wf0 as (_ & _ & C1 & _). exact C1. Qed.

Lemma vk_len : length vk = (f * n * (a * b))%nat.
Proof.
  destruct MK as (_ & [L _] & _). rewrite <- (L 0). rewrite (kernel_values_tab3 a b) by apply conv_wf0. rewrite tab3_length. reflexivity.
Qed.
Lemma vb_len : length vb = f.
Proof. destruct MK as (_ & _ & [L _]). rewrite <- (L 0). destruct conv_wf0 as (_ & _ & _ & _ & _ & B & _). exact B. Qed.
Lemma vx_len : length vx = (n * (r * c))%nat.
Proof. destruct MX as (M & [L _]). rewrite <- (L 0). rewrite (map_values_tab3 n r c) by apply M. apply tab3_length. Qed.

Lemma geom_t : forall t, geom ROps a b r c (K t) (x t).
Proof.
  intros t. destruct MK as (A & _). destruct MX as (M & _). destruct (A t) as (W & _ & C & _).
  split; [exact W|]. split; [rewrite C; apply M|]. auto.
Qed.

Lemma cpre_curve : forall o i j, (o < f)%nat -> (i < ro)%nat -> (j < co)%nat ->
  cderiv (fun t => cpre ROps a b (K t) (x t) o i j) (qd o i j).
Proof.
  intros o i j Ho Hi Hj. destruct MK as (A & DK & [_ DB]). destruct MX as (M & DX).
  apply (cderiv_ext (fun t => (csum (fun ch => corr CO a b (at3 0%RC r c (map_values (x t)) ch) (at3 0%RC a b (kernel_values (K t)) (o * n + ch)) i j) n
      + nth o (k_biases (K t)) 0)%RC)).
  - intros t. unfold cpre. destruct (A t) as (W & F & C & _). rewrite C. fold n. f_equal. apply csum_ext. intros ch Hc.
    apply corr_ext. intros u v Hu Hv. split.
    + apply (px_at3 n r c); auto; subst ro co; lia.
    + fold n in C. fold f in F. rewrite <- C. apply (kval_at3 a b); auto; rewrite ?F, ?C; auto.
  - apply cderiv_add; [|apply DB; rewrite vb_len; exact Ho].
    apply (cderiv_csum (fun ch t => corr CO a b (at3 0%RC r c (map_values (x t)) ch) (at3 0%RC a b (kernel_values (K t)) (o * n + ch)) i j)).
    intros ch Hc.
    eapply cderiv_cast.
    + apply (cderiv_corr a b (fun t => at3 0%RC r c (map_values (x t)) ch) (fun t => at3 0%RC a b (kernel_values (K t)) (o * n + ch)) (xd ch) (kd o ch)).
      * intros u v Hu Hv. apply (vderiv_at3 n r c _ _ DX vx_len); auto; subst ro co; lia.
      * intros u v Hu Hv. apply (vderiv_at3 (f * n) a b _ _ DK vk_len); auto. nia.
    + f_equal; apply corr_ext; intros u v Hu Hv; split; auto.
      * apply (kval_at3 a b); auto. apply conv_wf0.
      * apply (px_at3 n r c); auto; subst ro co; lia.
Qed.

Lemma conv_chain :
  (forall o i j, (o < f)%nat -> (i < ro)%nat -> (j < co)%nat -> act_diff p (k_func (K 0%R)) (cpre ROps a b (K 0%R) (x 0%R) o i j)) ->
  exists (y : R -> list (matrix RC)) (vy : list RC),
    locally 0 (fun t => conv_forward ROps p (K t) (IOMatrix (x t)) = Ret (Ok (IOMatrix (y t)))) /\
    maps_move f ro co y vy /\ length vy = (f * (ro * co))%nat /\
    forall g gc, length g = length vy -> length gc = length vy ->
      (gc = map (c_conj ROps) g \/
       forall o i j, (o < f)%nat -> (i < ro)%nat -> (j < co)%nat ->
         d_conj_activate ROps p (k_func (K 0%R)) (cpre ROps a b (K 0%R) (x 0%R) o i j) = Ret 0%RC) ->
      exists dk db dx dxc,
        conv_derivatives ROps p (K 0%R) (IOMatrix (x 0%R)) g gc = Ret (Ok (dk, db, dx, dxc)) /\
        length dk = length vk /\ length db = length vb /\ length dx = length vx /\ length dxc = length vx /\
        rate g vy = rate dk vk + rate db vb + rate (vadd dx dxc) vx.
Proof.
  intros AD.
  pose proof a1 as A1. pose proof b1 as B1. pose proof f1 as F1. pose proof n1 as N1.
  assert (RO1 : (1 <= ro)%nat) by (subst ro; lia). assert (CO1 : (1 <= co)%nat) by (subst co; lia).
  set (q := fun o i j t => cpre ROps a b (K t) (x t) o i j).
  assert (CH : forall k, (k < f * (ro * co))%nat -> exists o i j, (o < f)%nat /\ (i < ro)%nat /\ (j < co)%nat /\ k = ((o * ro + i) * co + j)%nat).
  { intros k Hk. exists (k / co / ro)%nat, ((k / co) mod ro)%nat, (k mod co)%nat.
    assert (k / co < f * ro)%nat by (apply Nat.div_lt_upper_bound; nia).
    repeat split; [apply Nat.div_lt_upper_bound; nia | apply Nat.mod_upper_bound; lia | apply Nat.mod_upper_bound; lia |].
    rewrite (Nat.mul_comm (k / co / ro)), <- Nat.div_mod by lia. rewrite (Nat.mul_comm (k / co)), <- Nat.div_mod by lia. reflexivity. }
  set (ix := fun k => (k / co / ro, (k / co) mod ro, k mod co)%nat).
  assert (IX : forall o i j, (i < ro)%nat -> (j < co)%nat -> ix ((o * ro + i) * co + j)%nat = (o, i, j)).
  { intros o i j Hi Hj. unfold ix. rewrite (Nat.div_add_l _ co j), (Nat.div_small j co), Nat.add_0_r by lia.
    rewrite (Nat.div_add_l o ro i), (Nat.div_small i ro), Nat.add_0_r by lia.
    rewrite (Nat.add_comm (o * ro) i), Nat.mod_add, (Nat.mod_small i ro) by lia.
    rewrite (Nat.add_comm _ j), Nat.mod_add, (Nat.mod_small j co) by lia. reflexivity. }
  set (Q := fun k => let '(o, i, j) := ix k in q o i j). set (Qd := fun k => let '(o, i, j) := ix k in qd o i j).
  destruct (choose_seq (0%RC, 0%RC) (fun k d => wirtinger_at (activate ROps p (k_func (K 0%R))) (Q k 0%R) (fst d) (snd d) /\
      d_activate ROps p (k_func (K 0%R)) (Q k 0%R) = Ret (fst d) /\ d_conj_activate ROps p (k_func (K 0%R)) (Q k 0%R) = Ret (snd d)) (f * (ro * co))) as [dd Hd].
  { intros k Hk. destruct (CH k Hk) as (o & i & j & Ho & Hi & Hj & ->). unfold Q. rewrite IX by auto.
    destruct (AD o i j Ho Hi Hj) as (d & dc & H). exists (d, dc). exact H. }
  destruct (choose_seq (fun _ => 0%RC) (fun k al => locally 0 (fun t => activate ROps p (k_func (K 0%R)) (Q k t) = Ret (al t)) /\
      cderiv al (fst (dd k) * Qd k + snd (dd k) * conj (Qd k))%RC) (f * (ro * co))) as [al Hal].
  { intros k Hk. apply act_curve; [|apply Hd, Hk]. destruct (CH k Hk) as (o & i & j & Ho & Hi & Hj & ->). unfold Q, Qd. rewrite IX by auto.
    apply cpre_curve; auto. }
  set (idx := fun o i j => ((o * ro + i) * co + j)%nat).
  set (d := fun o i j => fst (dd (idx o i j))). set (dc := fun o i j => snd (dd (idx o i j))).
  assert (HI : forall o i j, (o < f)%nat -> (i < ro)%nat -> (j < co)%nat -> (idx o i j < f * (ro * co))%nat) by (intros; now apply at3_idx_lt).
  assert (HD : forall o i j, (o < f)%nat -> (i < ro)%nat -> (j < co)%nat ->
     d_activate ROps p (k_func (K 0%R)) (cpre ROps a b (K 0%R) (x 0%R) o i j) = Ret (d o i j) /\
     d_conj_activate ROps p (k_func (K 0%R)) (cpre ROps a b (K 0%R) (x 0%R) o i j) = Ret (dc o i j)).
  { intros o i j Ho Hi Hj. destruct (Hd (idx o i j) (HI _ _ _ Ho Hi Hj)) as (_ & E). unfold Q, idx in E. rewrite IX in E by auto. exact E. }
  set (vel := fun o i j => (d o i j * qd o i j + dc o i j * conj (qd o i j))%RC).
  exists (fun t => map (fun o => mat ro co (fun i j => al (idx o i j) t)) (seq 0 f)), (tab3 f ro co vel).
  split; [|split; [|split]].
  - generalize (locally_forall (fun k t => activate ROps p (k_func (K 0%R)) (Q k t) = Ret (al k t)) (f * (ro * co)) (fun k Hk => proj1 (Hal k Hk))).
    apply filter_imp. intros t H. destruct MK as (A & _). destruct (A t) as (W & Ft & Ct & Fu).
    rewrite (conv_forward_ok ROps p a b r c (K t) (x t) (fun o i j => al (idx o i j) t)).
    + rewrite Ft. reflexivity.
    + apply geom_t.
    + intros o i j Ho Hi Hj. rewrite Ft in Ho. rewrite Fu. specialize (H (idx o i j) (HI _ _ _ Ho Hi Hj)).
      unfold Q, idx in H. rewrite IX in H by auto. exact H.
  - split.
    + intros t. split; [now rewrite map_length, seq_length|]. intros m Hm. apply in_map_iff in Hm as (o & <- & _).
      split; [apply wf_mat | split; reflexivity].
    + assert (EV : forall t, map_values (map (fun o => mat ro co (fun i j => al (idx o i j) t)) (seq 0 f)) = tab3 f ro co (fun o i j => al (idx o i j) t)).
      { intros t. unfold map_values. rewrite map_map. reflexivity. }
      split; [intros t; now rewrite EV, !tab3_length|]. rewrite tab3_length. intros k Hk.
      destruct (CH k Hk) as (o & i & j & Ho & Hi & Hj & ->). change (nth ((o * ro + i) * co + j) (tab3 f ro co vel) 0%RC) with (at3 0%RC ro co (tab3 f ro co vel) o i j).
      rewrite at3_tab3 by auto.
      apply (cderiv_ext (al (idx o i j))).
      * intros t. rewrite EV. symmetry. apply (at3_tab3 0%RC f ro co (fun o i j => al (idx o i j) t)); auto.
      * destruct (Hal (idx o i j) (HI _ _ _ Ho Hi Hj)) as (_ & E). unfold Qd, idx in E. rewrite IX in E by auto. exact E.
  - apply tab3_length.
  - intros g gc Lg Lgc HG. rewrite tab3_length in Lg, Lgc.
    pose proof (conv_derivatives_ok ROps p a b r c (K 0%R) (x 0%R) g gc d dc (geom_t 0%R) Lg Lgc HD) as E.
    cbv zeta in E. fold ro co f n in E.
    set (da := fun o i j => (d o i j * at3 0%RC ro co g o i j)%RC) in E.
    set (db := fun o i j => (conj (dc o i j) * at3 0%RC ro co gc o i j)%RC) in E.
    set (delta := fun o i j => (da o i j + db o i j)%RC).
    do 4 eexists. split; [exact E|]. clear E.
    assert (LK : forall h : nat -> nat -> nat -> nat -> RC, length (concat (map (fun o => tab3 n a b (h o)) (seq 0 f))) = (f * n * (a * b))%nat).
    { intros h. rewrite (concat_length_const (n * (a * b))); [rewrite map_length, seq_length; lia|].
      apply Forall_forall. intros l Hl. apply in_map_iff in Hl as (o & <- & _). apply tab3_length. }
    split; [rewrite LK, vk_len; reflexivity|].
    split; [rewrite map_length, seq_length, vb_len; reflexivity|].
    split; [rewrite tab3_length, vx_len; reflexivity|].
    split; [rewrite tab3_length, vx_len; reflexivity|].
    rewrite (rate_3 g _ f ro co) by apply tab3_length.
    rewrite (re_csum3 f ro co _ (fun o i j => (delta o i j * qd o i j)%RC)).
    2: { intros o i j Ho Hi Hj. rewrite at3_tab3 by auto. unfold vel, delta, da, db. apply act_pair.
         destruct HG as [-> | HG].
         - left. unfold at3. rewrite <- (map_nth conj g 0%RC _). apply nth_indep. rewrite map_length, Lg. now apply at3_idx_lt.
         - right. specialize (HG o i j Ho Hi Hj). destruct (HD o i j Ho Hi Hj) as (_ & E2). congruence. }
    rewrite (rate_3 _ vk (f * n) a b) by apply vk_len. rewrite (rate_3 _ vx n r c) by apply vx_len.
    rewrite rate_csum, vb_len.
    match goal with |- 2 * ?A = 2 * ?B + 2 * ?C + 2 * ?D => assert (H : A = B + C + D); [|rewrite H; ring] end.
    match goal with |- re ?A = re ?B + re ?C + re ?D => assert (H : A = (B + C + D)%RC); [|rewrite H; reflexivity] end.
    (* kernel gradients *)
    set (B1' := csum3 (f * n) a b _).
    assert (EB : B1' = csum (fun o => csum (fun ch => tri ro co a b (px 0%RC (x 0%R) ch) (kd o ch) (delta o)) n) f).
    { unfold B1', csum3. rewrite csum_flat. apply csum_ext. intros o Ho. apply csum_ext. intros ch Hc.
      rewrite <- tri_kernel. apply dsum_ext. intros u v Hu Hv. fold (kd o ch u v).
      replace (at3 0%RC a b (concat _) (o * n + ch) u v) with (corr CO ro co (px 0%RC (x 0%R) ch) (delta o) u v); [ring|].
      unfold delta. rewrite corr_add_kernel.
      symmetry. unfold at3.
      replace (((o * n + ch) * a + u) * b + v)%nat with (o * (n * (a * b)) + ((ch * a + u) * b + v))%nat by ring.
      rewrite (nth_concat_const 0%RC (n * (a * b)) _ o ((ch * a + u) * b + v)).
      - rewrite nth_map_seq by auto. apply (at3_tab3 0%RC n a b); auto.
      - apply Forall_forall. intros l Hl. apply in_map_iff in Hl as (o' & <- & _). apply tab3_length.
      - now apply at3_idx_lt. }
    rewrite EB. clear EB B1'.
    (* bias gradients *)
    rewrite (csum_ext (fun k => (nth k (map _ (seq 0 f)) 0 * nth k vb 0)%RC) (fun o => (dsum ro co (delta o) * nth o vb 0)%RC)).
    2: { intros o Ho. rewrite nth_map_seq by auto. rewrite sum_all_csum by nia.
         rewrite (tab_csum ro co (fun i j => (da o i j + db o i j)%RC)). reflexivity. }
    (* input gradients *)
    set (D1 := csum3 n r c _).
    assert (ED : D1 = csum (fun o => csum (fun ch => tri ro co a b (xd ch) (kval ROps (K 0%R) o ch) (delta o)) n) f).
    { unfold D1, csum3. rewrite csum_swap. apply csum_ext. intros ch Hc.
      rewrite (csum_ext _ (fun o => dsum r c (fun i j => (xd ch i j *
         corr CO a b (framed 0%RC ro co (a - 1)%nat (b - 1)%nat (delta o)) (flipk ROps a b (kval ROps (K 0%R) o ch)) i j)%RC))).
      2: { intros o Ho. rewrite <- tri_input by auto. replace (ro + a - 1)%nat with r by (subst ro; lia). replace (co + b - 1)%nat with c by (subst co; lia).
           reflexivity. }
      unfold dsum at 1. rewrite dsum_csum_swap. apply dsum_ext. intros i j Hi Hj. fold (xd ch i j).
      rewrite (at3_vadd r c _ _ n) by (auto; apply tab3_length). rewrite !at3_tab3 by auto. rewrite <- csum_add.
      rewrite csum_mul_l.
      rewrite (csum_ext _ (fun o => corr CO a b (framed 0%RC ro co (a - 1)%nat (b - 1)%nat (delta o)) (flipk ROps a b (kval ROps (K 0%R) o ch)) i j)); [ring|].
      intros o Ho. unfold delta.
      rewrite <- corr_add_image. apply corr_ext. intros u v Hu Hv. split; [symmetry; apply framed_add | reflexivity]. }
    rewrite ED. clear ED D1.
    (* assemble *)
    rewrite <- !csum_add. unfold csum3. apply csum_ext. intros o Ho. unfold qd.
    rewrite (dsum_ext _ _ _ (fun i j => (csum (fun ch => (delta o i j * (corr CO a b (xd ch) (kval ROps (K 0%R) o ch) i j + corr CO a b (px 0 (x 0%R) ch) (kd o ch) i j))%RC) n + delta o i j * nth o vb 0)%RC)).
    2: { intros i j _ _. rewrite csum_mul_l. ring. }
    rewrite dsum_add, dsum_mul_r, <- dsum_csum_swap.
    rewrite (csum_ext _ (fun ch => (tri ro co a b (px 0%RC (x 0%R) ch) (kd o ch) (delta o) + tri ro co a b (xd ch) (kval ROps (K 0%R) o ch) (delta o))%RC)).
    2: { intros ch Hc. rewrite <- !tri_out, <- dsum_add. apply dsum_ext. intros i j _ _. ring. }
    rewrite csum_add. ring.
Qed.
End Layer.
