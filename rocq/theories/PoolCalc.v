(** * Mean pooling and its gradient *)
From Coq Require Import Reals Lra Psatz.
From Coquelicot Require Import Coquelicot.
From Verif Require Import Base BaseFacts Float Matrix Cplx Random Act Input Loss Dense Conv Layer Dataset Network RFloat SpecMatrix MatrixFacts MatrixFacts2 CFacts Adjoint
  SpecCalculus CalcFacts SpecLoss LossFacts SpecLayer DenseFacts LayerCalc LayerFacts SpecConv ConvFacts ConvCalc PoolFacts PropMatrix PropPool SpecNet SpecGrad.
Local Open Scope nat_scope.
Local Notation re := Cplx.re.
Local Notation im := Cplx.im.

Local Notation third a := (mkC (/ INR (a * a))%R 0%R : RC).

(** ** Where the up-sampled values come from *)
(** Row [i] of the result reads the row of block [p] through row [u] of the kernel. *)
Lemma hit_div : forall a al x p, al < a -> x = a * p + al -> x mod a = al /\ x / a = p.
Proof.
  intros a al x p H ->. split.
  - rewrite Nat.add_comm, Nat.mul_comm, Nat.mod_add by lia. now apply Nat.mod_small.
  - rewrite Nat.add_comm, Nat.mul_comm, Nat.div_add by lia. rewrite Nat.div_small by exact H. lia.
Qed.

Definition al (a : nat) : nat := (a - 1) / 2.
Lemma al_lt : forall a, 1 <= a -> al a < a.
Proof. intros a H. unfold al. apply Nat.div_lt_upper_bound; lia. Qed.

(** What the framed, stuffed table holds. *)
Lemma frame_stuff : forall a r c (f : nat -> nat -> RC) x y, 1 <= a ->
  (exists p q, x = a * p + al a + 1 /\ y = a * q + al a + 1 /\ x < 1 + r /\ y < 1 + c /\
     framed 0%RC r c 1 1 (stuffed 0%RC a a (al a) (al a) f) x y = f p q) \/
  ((forall p q, x = a * p + al a + 1 -> y = a * q + al a + 1 -> x < 1 + r -> y < 1 + c -> False) /\
   framed 0%RC r c 1 1 (stuffed 0%RC a a (al a) (al a) f) x y = 0%RC).
Proof.
  intros a r c f x y A. pose proof (al_lt a A) as AL. unfold framed.
  destruct ((1 <=? x) && (x <? 1 + r) && (1 <=? y) && (y <? 1 + c))%bool eqn:E.
  - apply andb_true_iff in E as (E & E4). apply andb_true_iff in E as (E & E3). apply andb_true_iff in E as (E1 & E2).
    apply Nat.leb_le in E1, E3. apply Nat.ltb_lt in E2, E4. unfold stuffed.
    destruct ((x - 1) mod a =? al a) eqn:M1; [destruct ((y - 1) mod a =? al a) eqn:M2|]; cbn [andb].
    + apply Nat.eqb_eq in M1, M2. left. exists ((x - 1) / a), ((y - 1) / a).
      pose proof (Nat.div_mod (x - 1) a ltac:(lia)). pose proof (Nat.div_mod (y - 1) a ltac:(lia)). repeat split; lia.
    + apply Nat.eqb_neq in M2. right. split; [|reflexivity]. intros p q Hx Hy _ _. apply M2. apply (hit_div a (al a) (y - 1) q AL). lia.
    + apply Nat.eqb_neq in M1. right. split; [|reflexivity]. intros p q Hx Hy _ _. apply M1. apply (hit_div a (al a) (x - 1) p AL). lia.
  - right. split; [|reflexivity]. intros p q Hx Hy L1 L2. revert E. 
    rewrite (proj2 (Nat.leb_le 1 x)), (proj2 (Nat.leb_le 1 y)), (proj2 (Nat.ltb_lt x _)), (proj2 (Nat.ltb_lt y _)) by lia. discriminate.
Qed.

Lemma aq_inj : forall a p q, 1 <= a -> a * p = a * q -> p = q.
Proof. intros a p q A H. apply Nat.mul_cancel_l in H; lia. Qed.

(** Impulse response: block (p, q) holds 1, all others 0. *)
Lemma ups_impulse : forall a r c (kern : matrix RC) (f : nat -> nat -> RC) p q i j u v, 1 <= a -> a * p + al a < r -> a * q + al a < c ->
  (forall p' q', a * p' + al a < r -> a * q' + al a < c -> f p' q' = if (p' =? p) && (q' =? q) then 1%RC else 0%RC) ->
  u < 3 -> v < 3 -> i + u = a * p + al a + 1 -> j + v = a * q + al a + 1 ->
  ups ROps a r c kern f i j = entry 0%RC kern u v.
Proof.
  intros a r c kern f p q i j u v A Hp Hq Hf Hu Hv Eu Ev.
  unfold ups. rewrite corr_dsum. fold (al a). unfold dsum.
  rewrite (csum_delta _ 3 u Hu).
  2: { intros u' Hu' NE. apply csum_zero. intros v' Hv'.
       destruct (frame_stuff a r c f (i + u') (j + v') A) as [(p' & q' & X & Y & X' & Y' & E)|(_ & E)]; change (c_default ROps) with (0%RC : RC); rewrite E; [|ring].
       rewrite Hf by lia. destruct (Nat.eqb_spec p' p) as [->|N]; [exfalso; lia|]. cbn [andb]. ring. }
  rewrite (csum_delta _ 3 v Hv).
  2: { intros v' Hv' NE.
       destruct (frame_stuff a r c f (i + u) (j + v') A) as [(p' & q' & X & Y & X' & Y' & E)|(_ & E)]; change (c_default ROps) with (0%RC : RC); rewrite E; [|ring].
       rewrite Hf by lia. destruct (Nat.eqb_spec q' q) as [->|N]; [exfalso; lia|]. rewrite andb_false_r. ring. }
  destruct (frame_stuff a r c f (i + u) (j + v) A) as [(p' & q' & X & Y & X' & Y' & E)|(N & _)]; [|exfalso; apply (N p q); lia].
  change (c_default ROps) with (0%RC : RC). rewrite E, Hf by lia.
  rewrite (aq_inj a p' p A) by lia. rewrite (aq_inj a q' q A) by lia. rewrite !Nat.eqb_refl. cbn [andb]. ring.
Qed.

(** A pixel whose row no kernel row reaches gets nothing. *)
Lemma ups_unreached : forall a r c (kern : matrix RC) f i j, 1 <= a ->
  (forall u p, u < 3 -> i + u = a * p + al a + 1 -> False) -> ups ROps a r c kern f i j = 0%RC.
Proof.
  intros a r c kern f i j A H. unfold ups. rewrite corr_dsum. fold (al a). apply dsum_zero. intros u v Hu Hv.
  destruct (frame_stuff a r c f (i + u) (j + v) A) as [(p' & q' & X & _)|(_ & E)]; [exact (False_ind _ (H u p' Hu X))|].
  change (c_default ROps) with (0%RC : RC). rewrite E. ring.
Qed.

(** The right kernel hands every pixel its share. *)
Definition rk (a u : nat) : bool := (al a + 2 <=? u + a) && (u <=? al a + 1).

Lemma mean_kernel_rk : forall a u v, 1 <= a <= 3 -> u < 3 -> v < 3 -> mean_kernel a u v = if rk a u && rk a v then (/ INR (a * a))%R else 0%R.
Proof.
  intros a u v A Hu Hv.
  assert (a = 1 \/ a = 2 \/ a = 3) as [-> | [-> | ->]] by lia;
  assert (u = 0 \/ u = 1 \/ u = 2) as [-> | [-> | ->]] by lia;
  assert (v = 0 \/ v = 1 \/ v = 2) as [-> | [-> | ->]] by lia; cbn; lra.
Qed.

(** In one dimension: among the rows of the kernel that count, exactly one reads
    a block row, and it is the block of the pixel. *)
Lemma share_1d : forall a r i, 1 <= a <= 3 -> r mod a = 0 -> i < r -> exists u0, u0 < 3 /\ rk a u0 = true /\
  i + u0 = a * (i / a) + al a + 1 /\ i + u0 < 1 + r /\
  forall u p, u < 3 -> rk a u = true -> i + u = a * p + al a + 1 -> u = u0.
Proof.
  intros a r i A M Hi. pose proof (Nat.div_mod i a ltac:(lia)) as D. pose proof (Nat.mod_upper_bound i a ltac:(lia)) as U.
  pose proof (Nat.div_mod r a ltac:(lia)) as Dr. rewrite M in Dr.
  assert (Q : i / a < r / a) by (apply Nat.div_lt_upper_bound; lia).
  assert (RK : forall u, rk a u = true <-> al a + 2 <= u + a /\ u <= al a + 1) by (intros u; unfold rk; now rewrite andb_true_iff, !Nat.leb_le).
  exists (al a + 1 - i mod a).
  assert (AA : (a = 1 /\ al a = 0) \/ (a = 2 /\ al a = 0) \/ (a = 3 /\ al a = 1)).
  { assert (a = 1 \/ a = 2 \/ a = 3) as [-> | [-> | ->]] by lia; cbn; auto. }
  rewrite RK. set (d := i / a) in *. set (m := i mod a) in *. set (e := r / a) in *. clearbody d m e.
  destruct AA as [(E1 & E2) | [(E1 & E2) | (E1 & E2)]]; rewrite E2 in *; subst a; clear E2; (split; [lia|]); (split; [lia|]); (split; [lia|]); (split; [lia|]);
    intros u p Hu HK E; apply RK in HK; lia.
Qed.

Lemma ups_share : forall a r c (kern : matrix RC) f i j, 1 <= a <= 3 -> r mod a = 0 -> c mod a = 0 -> i < r -> j < c ->
  (forall u v, u < 3 -> v < 3 -> entry 0%RC kern u v = mkC (mean_kernel a u v) 0%R) ->
  ups ROps a r c kern f i j = (third a * f (i / a) (j / a))%RC.
Proof.
  intros a r c kern f i j A Mr Mc Hi Hj HK.
  destruct (share_1d a r i A Mr Hi) as (u0 & U1 & U2 & U3 & U4 & U5). destruct (share_1d a c j A Mc Hj) as (v0 & V1 & V2 & V3 & V4 & V5).
  assert (A1 : 1 <= a) by lia.
  unfold ups. rewrite corr_dsum. fold (al a). unfold dsum. change (c_default ROps) with (0%RC : RC).
  assert (Z : forall x : RC, (x * mkC 0%R 0%R)%RC = 0%RC) by (intros x; change (mkC 0%R 0%R) with (0%RC : RC); ring).
  rewrite (csum_delta _ 3 u0 U1).
  2: { intros u Hu NE. apply csum_zero. intros v Hv. rewrite HK, mean_kernel_rk by assumption.
       destruct (rk a u) eqn:RU; cbn [andb]; [|apply Z].
       destruct (frame_stuff a r c f (i + u) (j + v) A1) as [(p & q & X & Y & _ & _ & E)|(_ & E)].
       - exfalso. apply NE. eapply U5; eauto.
       - rewrite E. ring. }
  rewrite (csum_delta _ 3 v0 V1).
  2: { intros v Hv NE. rewrite HK, mean_kernel_rk by assumption.
       destruct (rk a v) eqn:RU; rewrite ?andb_false_r; [|apply Z].
       destruct (frame_stuff a r c f (i + u0) (j + v) A1) as [(p & q & X & Y & _ & _ & E)|(_ & E)].
       - exfalso. apply NE. eapply V5; eauto.
       - rewrite E. ring. }
  rewrite HK, mean_kernel_rk, U2, V2 by assumption. cbn [andb].
  destruct (frame_stuff a r c f (i + u0) (j + v0) A1) as [(p & q & X & Y & _ & _ & E)|(N & _)]; [|exfalso; apply (N (i / a) (j / a)); assumption].
  rewrite E. rewrite (aq_inj a p (i / a) A1) by lia. rewrite (aq_inj a q (j / a) A1) by lia. ring.
Qed.

(** ** Sums over blocks *)
Lemma fold_add_acc : forall (l : list RC) z, fold_left (c_add ROps) l z = (z + fold_left (c_add ROps) l 0)%RC.
Proof.
  induction l as [|x l IH]; intros z; cbn [fold_left]; [ring|]. rewrite IH, (IH (0 + x)%RC). ring.
Qed.

Lemma fold_tab : forall r c (f : nat -> nat -> RC), fold_left (c_add ROps) (concat (tab_rows r c f)) 0%RC = dsum r c f.
Proof.
  intros r c f. unfold dsum, tab_rows. induction r as [|r IH]; [reflexivity|].
  rewrite seq_S, map_app, concat_app, fold_left_app, IH, csum_S, fold_add_acc. f_equal.
  cbn [map concat Nat.add]. rewrite app_nil_r. unfold tab_row, csum, sum_from.
  generalize (seq 0 c), (0%RC : RC). induction l as [|x l IHl]; intros z; [reflexivity|]. cbn [map fold_left]. apply IHl.
Qed.

Lemma cmean_block : forall a (f : nat -> nat -> RC) i j,
  cmean (block a a f i j) = (third a * dsum a a (fun u v => f (i * a + u)%nat (j * a + v)%nat))%RC.
Proof. intros a f i j. unfold cmean, block. rewrite fold_tab, concat_tab_length. reflexivity. Qed.

Lemma dsum_blocks : forall n m a b (f : nat -> nat -> RC),
  dsum (n * a) (m * b) f = dsum n m (fun i j => dsum a b (fun u v => f (i * a + u)%nat (j * b + v)%nat)).
Proof.
  intros n m a b f. unfold dsum. rewrite csum_flat. apply csum_ext. intros i _.
  rewrite (csum_ext _ (fun u => csum (fun j => csum (fun v => f (i * a + u)%nat (j * b + v)%nat) b) m)) by (intros u _; apply csum_flat).
  apply csum_swap.
Qed.

(** The pullback of the block means is [mean_grad]. *)
Lemma mean_pullback : forall a n r c (g v : list RC), 1 <= a -> r mod a = 0 -> c mod a = 0 -> length v = n * (r * c) ->
  rate g (tab3 n (r / a) (c / a) (fun ch i j => (third a * dsum a a (fun u w => at3 0 r c v ch (i * a + u)%nat (j * a + w)%nat))%RC)) =
  rate (mean_grad a n r c g) v.
Proof.
  intros a n r c g v A Mr Mc L.
  assert (Er : r = r / a * a) by (pose proof (Nat.div_mod r a); lia).
  assert (Ec : c = c / a * a) by (pose proof (Nat.div_mod c a); lia).
  rewrite (rate_3 g _ n (r / a) (c / a)) by apply tab3_length. rewrite (rate_3 _ v n r c L). f_equal. f_equal.
  unfold csum3. apply csum_ext. intros ch Hch.
  rewrite (dsum_ext r c _ (fun i j => (third a * at3 0 (r / a) (c / a) g ch (i / a) (j / a) * at3 0 r c v ch i j)%RC)).
  2: { intros i j Hi Hj. unfold mean_grad. now rewrite at3_tab3. }
  transitivity (dsum (r / a * a) (c / a * a) (fun i j => (third a * at3 0 (r / a) (c / a) g ch (i / a) (j / a) * at3 0 r c v ch i j)%RC));
    [|now rewrite <- Er, <- Ec].
  rewrite dsum_blocks. apply dsum_ext. intros i j Hi Hj. rewrite at3_tab3 by auto.
  rewrite <- !dsum_mul_l. apply dsum_ext. intros u w Hu Hw.
  rewrite !Nat.div_add_l by lia. rewrite (Nat.div_small u a), (Nat.div_small w a), !Nat.add_0_r by lia. ring.
Qed.

(** The layer's forward and backward pass. *)
Lemma pool_forward : forall a (l : red ROps) n r c x, takes_means a l -> maps_wf n r c x -> a <= r -> a <= c -> r mod a = 0 -> c mod a = 0 ->
  red_forward ROps l (IOMatrix x) = Ret (Ok (IOMatrix (map (fun m => mat (r / a) (c / a) (fun i j => cmean (block a a (entry 0%RC m) i j))) x))).
Proof.
  intros a l n r c x (A & B0 & B1 & HF) (L & M) AR AC MR MC.
  rewrite (C47_forward ROps l cmean x); rewrite ?B0, ?B1; auto.
  - do 3 f_equal. apply map_ext_in. intros m Hm. destruct (M m Hm) as (_ & -> & ->). reflexivity.
  - intros m Hm. destruct (M m Hm) as (W & -> & ->). auto.
Qed.

Lemma pool_back : forall a (l : red ROps) n r c x g gc, mean_pool a l -> 1 <= n -> maps_wf n r c x -> a <= r -> a <= c -> r mod a = 0 -> c mod a = 0 ->
  length g = n * (r / a * (c / a)) -> length gc = n * (r / a * (c / a)) ->
  red_derivatives ROps l (IOMatrix x) g gc = Ret (Ok ([], [], mean_grad a n r c g, mean_grad a n r c gc)).
Proof.
  intros a l n r c x g gc ((A & B0 & B1 & _) & A3 & (WK & K0 & K1) & HK) N1 M AR AC MR MC Lg Lgc.
  rewrite (red_derivatives_ok ROps l a n r c x g gc) by (auto; lia).
  assert (E : forall h, tab3 n r c (fun ch => ups ROps a r c (r_kernel l) (at3 0%RC (r / a) (c / a) h ch)) = mean_grad a n r c h).
  { intros h. unfold mean_grad. apply tab3_ext. intros ch i j _ Hi Hj. apply ups_share; auto. }
  now rewrite !E.
Qed.

Lemma tab3_idx : forall n r c k, k < n * (r * c) -> exists o i j, o < n /\ i < r /\ j < c /\ k = (o * r + i) * c + j.
Proof.
  intros n r c k Hk. assert (1 <= r /\ 1 <= c) by nia. exists (k / c / r), ((k / c) mod r), (k mod c).
  assert (k / c < n * r) by (apply Nat.div_lt_upper_bound; nia).
  repeat split; [apply Nat.div_lt_upper_bound; nia | apply Nat.mod_upper_bound; lia | apply Nat.mod_upper_bound; lia |].
  rewrite (Nat.mul_comm (k / c / r)), <- Nat.div_mod by lia. rewrite (Nat.mul_comm (k / c)), <- Nat.div_mod by lia. reflexivity.
Qed.

Lemma mean_grad_length : forall a n r c g, length (mean_grad a n r c g) = n * (r * c).
Proof. intros. apply tab3_length. Qed.

Lemma mean_grad_conj : forall a n r c g, 1 <= a -> r mod a = 0 -> c mod a = 0 -> length g = n * (r / a * (c / a)) ->
  mean_grad a n r c (map conj g) = map conj (mean_grad a n r c g).
Proof.
  intros a n r c g A MR MC L. apply (nth_ext _ _ (conj 0%RC) (conj 0%RC)); [now rewrite map_length, !mean_grad_length|].
  intros k Hk. rewrite mean_grad_length in Hk. rewrite map_nth. destruct (tab3_idx n r c k Hk) as (o & i & j & Ho & Hi & Hj & ->).
  rewrite conj_0. change (at3 0%RC r c (mean_grad a n r c (map conj g)) o i j = conj (at3 0%RC r c (mean_grad a n r c g) o i j)).
  unfold mean_grad. rewrite !at3_tab3 by auto. rewrite conj_mul.
  assert (E : conj (third a) = third a) by (apply c_ext; cbn; [reflexivity | ring]). rewrite E. f_equal.
  unfold at3. rewrite <- conj_0 at 1. apply map_nth.
Qed.

Lemma pool_chain : forall a (l : red ROps) n r c (x : R -> list (matrix RC)) vx,
  takes_means a l -> maps_move n r c x vx -> a <= r -> a <= c -> r mod a = 0 -> c mod a = 0 ->
  exists (y : R -> list (matrix RC)) vy,
    (forall t, red_forward ROps l (IOMatrix (x t)) = Ret (Ok (IOMatrix (y t)))) /\
    maps_move n (r / a) (c / a) y vy /\ length vy = n * (r / a * (c / a)) /\ length vx = n * (r * c) /\
    forall g, rate g vy = rate (mean_grad a n r c g) vx.
Proof.
  intros a l n r c x vx MP (M & D) AR AC MR MC.
  assert (A1 : 1 <= a) by (apply MP).
  assert (LX : length vx = n * (r * c)).
  { destruct D as (L & _). rewrite <- (L 0%R). rewrite (map_values_tab3 n r c) by apply M. apply tab3_length. }
  assert (Er : r = r / a * a) by (pose proof (Nat.div_mod r a); lia).
  assert (Ec : c = c / a * a) by (pose proof (Nat.div_mod c a); lia).
  set (y := fun t => map (fun m => mat (r / a) (c / a) (fun i j => cmean (block a a (entry 0%RC m) i j))) (x t)).
  set (vy := tab3 n (r / a) (c / a) (fun ch i j => (third a * dsum a a (fun u w => at3 0 r c vx ch (i * a + u)%nat (j * a + w)%nat))%RC)).
  exists y, vy. split; [intros t; now apply (pool_forward a l n r c)|].
  assert (MY : forall t, maps_wf n (r / a) (c / a) (y t)).
  { intros t. destruct (M t) as (L & _). split; [unfold y; now rewrite map_length|]. intros m Hm. apply in_map_iff in Hm as (m' & <- & _).
    split; [apply wf_mat | split; reflexivity]. }
  split; [split; [exact MY|]|].
  - split; [intros t; rewrite (map_values_tab3 n (r / a) (c / a)) by apply MY; unfold vy; now rewrite !tab3_length|].
    unfold vy at 1. rewrite tab3_length. intros k Hk. destruct (tab3_idx _ _ _ k Hk) as (o & i & j & Ho & Hi & Hj & ->).
    change (cderiv (fun t => at3 0%RC (r / a) (c / a) (map_values (y t)) o i j) (at3 0%RC (r / a) (c / a) vy o i j)).
    unfold vy. rewrite at3_tab3 by auto.
    assert (II : forall u, u < a -> i * a + u < r) by (intros; nia). assert (JJ : forall u, u < a -> j * a + u < c) by (intros; nia).
    apply (cderiv_ext (fun t => (third a * dsum a a (fun u w => at3 0%RC r c (map_values (x t)) o (i * a + u)%nat (j * a + w)%nat))%RC)).
    + intros t. rewrite (px_at3 n (r / a) (c / a)) by (auto; apply MY). unfold px, y.
      rewrite (nth_indep _ m_new (mat (r / a) (c / a) (fun i j => cmean (block a a (entry 0%RC m_new) i j)))).
      2: { rewrite map_length. destruct (M t) as (-> & _). exact Ho. }
      rewrite (map_nth (fun m => mat (r / a) (c / a) (fun i j => cmean (block a a (entry 0%RC m) i j)))).
      rewrite entry_mat by auto. rewrite cmean_block. f_equal. apply dsum_ext. intros u w Hu Hw.
      rewrite (px_at3 n r c) by auto. reflexivity.
    + apply (cderiv_cast _ (0 * dsum a a (fun u w => at3 0%RC r c (map_values (x 0%R)) o (i * a + u)%nat (j * a + w)%nat) +
          third a * dsum a a (fun u w => at3 0%RC r c vx o (i * a + u)%nat (j * a + w)%nat))%RC); [|ring].
      apply (cderiv_mul (fun _ => third a) (fun t => dsum a a (fun u w => at3 0%RC r c (map_values (x t)) o (i * a + u)%nat (j * a + w)%nat))).
      * apply cderiv_const.
      * unfold dsum. apply (cderiv_csum (fun u t => csum (fun w => at3 0%RC r c (map_values (x t)) o (i * a + u)%nat (j * a + w)%nat) a)).
        intros u Hu. apply (cderiv_csum (fun w t => at3 0%RC r c (map_values (x t)) o (i * a + u)%nat (j * a + w)%nat)).
        intros w Hw. apply (vderiv_at3 n r c _ _ D LX); auto.
  - split; [apply tab3_length|]. split; [exact LX|]. intros g. apply mean_pullback; auto.
Qed.

(** ** Only the right kernel does *)
(** Every row of the kernel is used by some pixel row of the first two blocks,
    inside its own block exactly if the row counts. *)
Lemma row_used : forall a r u, 1 <= a <= 3 -> 2 * a <= r -> r mod a = 0 -> u < 3 -> exists p i, p < r / a /\ i < r /\
  i + u = a * p + al a + 1 /\ (i / a =? p) = rk a u.
Proof.
  intros a r u A H M Hu. assert (R2 : 2 <= r / a) by (apply Nat.div_le_lower_bound; lia).
  assert (C : (a = 1 /\ al a = 0) \/ (a = 2 /\ al a = 0) \/ (a = 3 /\ al a = 1)).
  { assert (a = 1 \/ a = 2 \/ a = 3) as [-> | [-> | ->]] by lia; cbn; auto. }
  destruct C as [(-> & E) | [(-> & E) | (-> & E)]]; unfold rk; rewrite E;
  assert (u = 0 \/ u = 1 \/ u = 2) as [-> | [-> | ->]] by lia.
  - exists 0, 1. repeat split; lia.
  - exists 0, 0. repeat split; lia.
  - exists 1, 0. repeat split; lia.
  - exists 0, 1. repeat split; lia.
  - exists 0, 0. repeat split; lia.
  - exists 1, 1. repeat split; lia.
  - exists 0, 2. repeat split; lia.
  - exists 0, 1. repeat split; lia.
  - exists 0, 0. repeat split; lia.
Qed.

Definition impulse (n r c p q : nat) : list RC := tab3 n r c (fun _ p' q' => if (p' =? p) && (q' =? q) then 1%RC else 0%RC).

Lemma kernel_forced : forall a (kern : matrix RC) n r c, 1 <= a -> 1 <= n -> 2 * a <= r -> 2 * a <= c -> r mod a = 0 -> c mod a = 0 ->
  (forall g, length g = n * (r / a * (c / a)) ->
     tab3 n r c (fun ch => ups ROps a r c kern (at3 0%RC (r / a) (c / a) g ch)) = mean_grad a n r c g) ->
  a <= 3 /\ forall u v, u < 3 -> v < 3 -> entry 0%RC kern u v = mkC (mean_kernel a u v) 0%R.
Proof.
  intros a kern n r c A N1 HR HC MR MC H.
  assert (Er : r = r / a * a) by (pose proof (Nat.div_mod r a); lia).
  assert (Ec : c = c / a * a) by (pose proof (Nat.div_mod c a); lia).
  assert (K : forall p q i j, p < r / a -> q < c / a -> i < r -> j < c ->
    ups ROps a r c kern (at3 0%RC (r / a) (c / a) (impulse n (r / a) (c / a) p q) 0) i j =
    if (i / a =? p) && (j / a =? q) then third a else 0%RC).
  { intros p q i j Hp Hq Hi Hj. specialize (H (impulse n (r / a) (c / a) p q) (tab3_length _ _ _ _)).
    apply (f_equal (fun l => at3 0%RC r c l 0 i j)) in H. unfold mean_grad in H. rewrite !at3_tab3 in H by lia.
    rewrite H. unfold impulse. rewrite at3_tab3.
    - destruct (_ && _); ring.
    - lia.
    - apply Nat.div_lt_upper_bound; lia.
    - apply Nat.div_lt_upper_bound; lia. }
  assert (A3 : a <= 3).
  { destruct (le_lt_dec a 3) as [|A4]; [assumption|]. exfalso.
    assert (B : al a + 2 < a /\ 1 <= al a).
    { unfold al. pose proof (Nat.div_mod (a - 1) 2 ltac:(lia)). pose proof (Nat.mod_upper_bound (a - 1) 2 ltac:(lia)). lia. }
    specialize (K 0 0 (a - 1) 0 ltac:(lia) ltac:(lia) ltac:(lia) ltac:(lia)).
    rewrite ups_unreached in K.
    - rewrite Nat.div_small, Nat.div_small in K by lia. cbn [Nat.eqb andb] in K. apply (f_equal re) in K. cbn [Cplx.re] in K.
      change (re (0%RC : RC)) with 0%R in K. assert (P : (0 < INR (a * a))%R) by (apply lt_0_INR; nia). apply Rinv_0_lt_compat in P. lra.
    - exact A.
    - intros u p Hu E. destruct p as [|p]; [rewrite Nat.mul_0_r in E; lia|]. rewrite Nat.mul_succ_r in E. pose proof (Nat.le_0_l (a * p)). lia. }
  split; [exact A3|]. intros u v Hu Hv.
  destruct (row_used a r u ltac:(lia) HR MR Hu) as (p & i & Hp & Hi & E1 & F1).
  destruct (row_used a c v ltac:(lia) HC MC Hv) as (q & j & Hq & Hj & E2 & F2).
  pose proof (al_lt a A) as AL.
  assert (Lp : a * p + al a < r) by (rewrite Er; nia). assert (Lq : a * q + al a < c) by (rewrite Ec; nia).
  rewrite <- (ups_impulse a r c kern (at3 0%RC (r / a) (c / a) (impulse n (r / a) (c / a) p q) 0) p q i j u v); auto.
  - rewrite K, F1, F2, mean_kernel_rk by (auto; lia). destruct (_ && _); reflexivity.
  - intros p' q' Hp' Hq'. unfold impulse. rewrite at3_tab3; [reflexivity | lia | |].
    + rewrite Er in Hp'. nia.
    + rewrite Ec in Hq'. nia.
Qed.

(** ** The kernel of the example program *)
Definition cut (r c : nat) (f : nat -> nat -> RC) (p q : nat) : RC := if (p <? r) && (q <? c) then f p q else 0%RC.

Lemma frame_cut : forall r c f x y v, r mod 2 = 0 -> c mod 2 = 0 ->
  (exists p q, x = 2 * p + 1 /\ y = 2 * q + 1 /\ v = cut (r / 2) (c / 2) f p q) \/ ((forall p q, x = 2 * p + 1 -> y = 2 * q + 1 -> False) /\ v = 0%RC) ->
  framed 0%RC r c 1 1 (stuffed 0%RC 2 2 (al 2) (al 2) f) x y = v.
Proof.
  intros r c f x y v MR MC H. pose proof (Nat.div_mod r 2 ltac:(lia)) as DR. pose proof (Nat.div_mod c 2 ltac:(lia)) as DC.
  assert (A2 : al 2 = 0) by reflexivity.
  destruct (frame_stuff 2 r c f x y ltac:(lia)) as [(p & q & X & Y & X' & Y' & E)|(N & E)]; rewrite E; clear E.
  - destruct H as [(p' & q' & HX & HY & ->)|(H & _)]; [|exfalso; apply (H p q); lia].
    unfold cut. assert (p' = p /\ q' = q) as (-> & ->) by lia.
    now rewrite (proj2 (Nat.ltb_lt p _)), (proj2 (Nat.ltb_lt q _)) by lia.
  - destruct H as [(p & q & HX & HY & ->)|(_ & ->)]; [|reflexivity]. unfold cut.
    destruct (Nat.ltb_spec p (r / 2)) as [L1|]; [|reflexivity]. destruct (Nat.ltb_spec q (c / 2)) as [L2|]; [|reflexivity].
    exfalso. apply (N p q); lia.
Qed.

Definition spread1 (u : nat) : R := if u =? 1 then 1%R else (/ 2)%R.

Lemma ups_spread : forall r c (kern : matrix RC) f i j, r mod 2 = 0 -> c mod 2 = 0 ->
  (forall u v, u < 3 -> v < 3 -> entry 0%RC kern u v = mkC (spread1 u * spread1 v)%R 0%R) ->
  ups ROps 2 r c kern f i j =
  (mkC (/ 4)%R 0%R * (cut (r / 2) (c / 2) f (i / 2) (j / 2) + cut (r / 2) (c / 2) f ((i + 1) / 2) (j / 2) +
    cut (r / 2) (c / 2) f (i / 2) ((j + 1) / 2) + cut (r / 2) (c / 2) f ((i + 1) / 2) ((j + 1) / 2)))%RC.
Proof.
  intros r c kern f i j MR MC HK.
  unfold ups. rewrite corr_dsum. fold (al 2). change (c_default ROps) with (0%RC : RC).
  rewrite (dsum_ext 3 3 _ (fun u v => (framed 0%RC r c 1 1 (stuffed 0%RC 2 2 (al 2) (al 2) f) (i + u)%nat (j + v)%nat * mkC (spread1 u * spread1 v)%R 0%R)%RC))
    by (intros u v Hu Hv; now rewrite HK).
  set (P := fun p q => cut (r / 2) (c / 2) f p q).
  assert (T0 : forall x y, (forall p q, x = 2 * p + 1 -> y = 2 * q + 1 -> False) ->
    framed 0%RC r c 1 1 (stuffed 0%RC 2 2 (al 2) (al 2) f) x y = 0%RC) by (intros; apply frame_cut; auto).
  assert (T1 : forall x y p q, x = 2 * p + 1 -> y = 2 * q + 1 ->
    framed 0%RC r c 1 1 (stuffed 0%RC 2 2 (al 2) (al 2) f) x y = P p q) by (intros x y p q X Y; apply frame_cut; auto; left; exists p, q; auto).
  unfold dsum. rewrite !csum_S, !csum_0.
  pose proof (Nat.div_mod i 2 ltac:(lia)) as Di. pose proof (Nat.mod_upper_bound i 2 ltac:(lia)) as Ui.
  pose proof (Nat.div_mod j 2 ltac:(lia)) as Dj. pose proof (Nat.mod_upper_bound j 2 ltac:(lia)) as Uj.
  assert (Ci : (i = 2 * (i / 2) /\ (i + 1) / 2 = i / 2) \/ (i = 2 * (i / 2) + 1 /\ (i + 1) / 2 = i / 2 + 1)).
  { pose proof (Nat.div_mod (i + 1) 2 ltac:(lia)). pose proof (Nat.mod_upper_bound (i + 1) 2 ltac:(lia)). lia. }
  assert (Cj : (j = 2 * (j / 2) /\ (j + 1) / 2 = j / 2) \/ (j = 2 * (j / 2) + 1 /\ (j + 1) / 2 = j / 2 + 1)).
  { pose proof (Nat.div_mod (j + 1) 2 ltac:(lia)). pose proof (Nat.mod_upper_bound (j + 1) 2 ltac:(lia)). lia. }
  set (p := i / 2) in *. set (q := j / 2) in *. clearbody p q. clear Di Ui Dj Uj HK.
  destruct Ci as [(Ei & ->)|(Ei & ->)], Cj as [(Ej & ->)|(Ej & ->)]; subst i j.
  - rewrite (T1 (2 * p + 1) (2 * q + 1) p q eq_refl eq_refl). rewrite !T0 by (intros; lia). fold (P p q).
    apply c_ext; cbn -[P framed]; field.
  - rewrite (T1 (2 * p + 1) (2 * q + 1 + 0) p q), (T1 (2 * p + 1) (2 * q + 1 + 2) p (q + 1)) by lia. rewrite !T0 by (intros; lia).
    fold (P p q) (P p (q + 1)). apply c_ext; cbn -[P framed]; field.
  - rewrite (T1 (2 * p + 1 + 0) (2 * q + 1) p q), (T1 (2 * p + 1 + 2) (2 * q + 1) (p + 1) q) by lia. rewrite !T0 by (intros; lia).
    fold (P p q) (P (p + 1) q). apply c_ext; cbn -[P framed]; field.
  - rewrite (T1 (2 * p + 1 + 0) (2 * q + 1 + 0) p q), (T1 (2 * p + 1 + 0) (2 * q + 1 + 2) p (q + 1)),
      (T1 (2 * p + 1 + 2) (2 * q + 1 + 0) (p + 1) q), (T1 (2 * p + 1 + 2) (2 * q + 1 + 2) (p + 1) (q + 1)) by lia. rewrite !T0 by (intros; lia).
    fold (P p q) (P (p + 1) q) (P p (q + 1)) (P (p + 1) (q + 1)). apply c_ext; cbn -[P framed]; field.
Qed.
