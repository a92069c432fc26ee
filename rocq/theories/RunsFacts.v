(** * Two training runs of a linear layer side by side *)
From Coq Require Import Reals Lra Psatz.
From Verif Require Import Base BaseFacts Float Matrix Cplx Random Act Input Loss Dense Conv Layer Dataset Network SpecMatrix RFloat CFacts SpecLayer SpecConv SpecNet SpecLoss LossFacts LayerCalc PropTrain TrainLaws PropLaws PropNet
  SpecGeom SpecDead SpecFit FitFacts FitNet PropFit SpecOnline OnlineFacts SpecGeometric GeometricFacts GeometricEx SpecRuns.
Local Open Scope R_scope.

Section Unit.
Context (d N : nat) (x : nat -> nat -> RC) (t : nat -> RC).
Local Notation er := (er d x t). Local Notation gr := (gr d N x t). Local Notation mv := (mv d N x t). Local Notation sz := (sz d x).

Lemma both_move : forall c w v, 0 <= c -> (forall q, (q < N)%nat -> 0 < sz q) -> c * rsum sz N <= 1 ->
  rsum (fun j => nsq (mv c w j - mv c v j)%RC) d + c * rsum (fun q => nsq (er w q - er v q)%RC) N <= rsum (fun j => nsq (w j - v j)%RC) d.
Proof.
  intros c w v C P B. pose (t' := fun q => csum (fun j => v j * x q j)%RC d).
  assert (ED : forall u q, FitFacts.er d x t' u q = (er u q - er v q)%RC) by (intros u q; unfold FitFacts.er, t'; ring).
  pose proof (closer0 d N x t' c w v C P B) as H.
  rewrite (rsum_ext (fun j => nsq (mv c w j - mv c v j)%RC) (fun j => nsq (FitFacts.mv d N x t' c w j - v j)%RC)).
  2: { intros j _. f_equal. unfold FitFacts.mv. unfold FitFacts.gr at 3. rewrite (csum_ext _ (fun q => er w q * conj (x q j) - er v q * conj (x q j))%RC) by (intros; rewrite ED; ring).
       rewrite csum_sub. fold (gr w j). fold (gr v j). ring. }
  rewrite (rsum_ext (fun q => nsq (er w q - er v q)%RC) (fun q => nsq (FitFacts.er d x t' w q))) by (intros; now rewrite ED).
  apply H. intros q _. rewrite ED. ring.
Qed.
End Unit.

(** Cauchy and Schwarz. *)
Lemma cauchy_schwarz : forall (a b : nat -> RC) n, nsq (csum (fun j => a j * b j)%RC n) <= rsum (fun j => nsq (a j)) n * rsum (fun j => nsq (b j)) n.
Proof.
  intros a b n. set (S := csum (fun j => a j * b j)%RC n). set (A := rsum (fun j => nsq (a j)) n). set (B := rsum (fun j => nsq (b j)) n).
  assert (A0 : 0 <= A) by (apply rsum_nonneg; intros; apply nsq_nonneg). assert (B0 : 0 <= B) by (apply rsum_nonneg; intros; apply nsq_nonneg).
  assert (E : rsum (fun j => nsq (mkC B 0%R * a j - S * conj (b j))%RC) n = B * (A * B - nsq S)).
  { rewrite (rsum_ext _ (fun j => (B * B * nsq (a j) - 2 * B * re (conj S * (a j * b j))%RC) + nsq S * nsq (b j))).
    2: { intros j _. generalize (a j) (b j) S. intros [a1 a2] [b1 b2] [s1 s2]. unfold nsq. cbn. ring. }
    rewrite rsum_plus, rsum_minus, !rsum_scal. fold A B. rewrite <- re_csum, csum_mul_l. fold S.
    assert (re (conj S * S)%RC = nsq S) as -> by (generalize S; intros [s1 s2]; unfold nsq; cbn; ring). ring. }
  assert (P : 0 <= rsum (fun j => nsq (mkC B 0%R * a j - S * conj (b j))%RC) n) by (apply rsum_nonneg; intros; apply nsq_nonneg). rewrite E in P.
  destruct (Rle_lt_or_eq_dec 0 B B0) as [BP|BZ].
  - destruct (Rle_lt_dec (nsq S) (A * B)) as [H|H]; [exact H|]. assert (B * (A * B - nsq S) < 0) by (apply Rmult_pos_neg_neg || nra). lra.
  - assert (Z : S = 0%RC).
    { unfold S. assert (G : forall k, (k <= n)%nat -> csum (fun j => a j * b j)%RC k = 0%RC).
      { assert (ZB : forall j, (j < n)%nat -> b j = 0%RC).
        { intros j Hj. assert (nsq (b j) <= 0).
          { assert (LE : forall (h : nat -> R) k, (forall i, 0 <= h i) -> forall i, (i < k)%nat -> h i <= rsum h k).
            { clear. intros h k P. induction k as [|k IH]; intros i Hi; [lia|]. rewrite rsum_S. pose proof (P k). assert (0 <= rsum h k) by (apply rsum_nonneg; intros; apply P).
              destruct (Nat.eq_dec i k) as [->|]; [lra|]. specialize (IH i ltac:(lia)). lra. }
            rewrite BZ. apply (LE (fun j => nsq (b j)) n (fun i => nsq_nonneg (b i)) j Hj). }
          revert H. generalize (b j). intros [u v] H. unfold nsq in H. cbn in H. change (F ROps) with R in *.
          pose proof (Rle_0_sqr u) as U. pose proof (Rle_0_sqr v) as V. unfold Rsqr in *. apply c_ext; cbn; apply Rsqr_0_uniq; unfold Rsqr; lra. }
        induction k as [|k IH]; intros Hk; [reflexivity|]. rewrite csum_S, IH by lia. rewrite (ZB k) by lia. ring. }
      apply G. lia. }
    rewrite Z. assert (nsq 0%RC = 0) as -> by (unfold nsq; cbn; ring). apply Rmult_le_pos; assumption.
Qed.

Section Net.
Context (p : prec) (feat : network ROps) (g : geometry) (d m : nat).
Context (FN : feat <> []) (FP : Forall no_params feat) (FF : fit_all ROps feat g (Vec d)) (FT : Forall (trainable ROps) feat).
Local Notation net l := (feat ++ [LDense l]).

Lemma two_steps : forall pts l k lr mu, linear d m l -> linear d m k -> pts <> [] -> (forall it, In it pts -> point_ok g m it) -> 0 < lr -> lr * sizes_of p feat pts <= INR (length pts) ->
  spread p feat d pts mu ->
  exists l' k', net_gradient_opt ROps p (net l) (batch pts) MeanSquare (mkC lr 0) = Ret (net l', Ok tt) /\ net_gradient_opt ROps p (net k) (batch pts) MeanSquare (mkC lr 0) = Ret (net k', Ok tt) /\
    linear d m l' /\ linear d m k' /\ dist_sq l' k' <= (1 - lr * mu) * dist_sq l k.
Proof.
  intros pts l k lr mu L K NP OK LR SM SP. destruct (step_mv p feat g d m FN FP FF FT pts NP OK l lr L) as (l' & EL & L' & _ & VL). destruct (step_mv p feat g d m FN FP FF FT pts NP OK k lr K) as (k' & EK & K' & _ & VK).
  exists l', k'. split; [exact EL|]. split; [exact EK|]. split; [exact L'|]. split; [exact K'|]. pose proof (N_pos pts NP) as NN.
  assert (C : dist_sq l' k' + lr / INR (length pts) * gap p feat d m pts l k <= dist_sq l k).
  { rewrite (dist_wt d m l), (dist_wt d m l') by assumption. unfold gap. rewrite <- rsum_scal, <- rsum_plus. apply rsum_le. intros i Hi.
    rewrite (rsum_ext (fun j => nsq (wt d l' i j - wt d k' i j)%RC)
      (fun j => nsq (mv (S d) (length pts) (xs p feat d pts) (ts pts i) (lr / INR (length pts)) (wt d l i) j - mv (S d) (length pts) (xs p feat d pts) (ts pts i) (lr / INR (length pts)) (wt d k i) j)%RC)) by (intros; now rewrite VL, VK).
    apply both_move; [apply Rlt_le, Rdiv_lt_0_compat; assumption | exact (sz_pos p feat d pts) | exact (sz_rate p feat g d m FN FP FF FT pts NP OK lr SM)]. }
  pose proof (gap_ge p feat g d m FN FP FF FT pts OK mu SP l k L K) as G.
  assert (H : lr / INR (length pts) * (mu * dist_sq l k * INR (length pts)) <= lr / INR (length pts) * gap p feat d m pts l k) by (apply Rmult_le_compat_l; [apply Rlt_le, Rdiv_lt_0_compat; assumption | exact G]).
  replace (lr / INR (length pts) * (mu * dist_sq l k * INR (length pts))) with (lr * mu * dist_sq l k) in H by (field; lra). lra.
Qed.

Lemma two_runs : forall bs l k, linear d m l -> linear d m k ->
  (forall pts lr mu, In (pts, lr, mu) bs -> pts <> [] /\ 0 < lr /\ lr * sizes_of p feat pts <= INR (length pts) /\ 0 <= mu /\ spread p feat d pts mu /\
     (forall x t, In (x, t) pts -> has_geom g x /\ exists v, t = IOScalar v /\ length v = m)) ->
  exists l' k', train_steps ROps p (net l) (run_of bs) = Ret (net l') /\ train_steps ROps p (net k) (run_of bs) = Ret (net k') /\
    linear d m l' /\ linear d m k' /\ 0 <= shrink bs <= 1 /\ dist_sq l' k' <= shrink bs * dist_sq l k.
Proof.
  induction bs as [|((pts, lr), mu) bs IH]; intros l k L K H.
  - exists l, k. split; [reflexivity|]. split; [reflexivity|]. split; [exact L|]. split; [exact K|]. cbn. split; lra.
  - destruct (H pts lr mu (or_introl eq_refl)) as (NP & LR & SM & MU & SP & OK). pose proof (ok_points g m pts OK) as OK'.
    destruct (two_steps pts l k lr mu L K NP OK' LR SM SP) as (l1 & k1 & EL & EK & L1 & K1 & C1). destruct (IH l1 k1 L1 K1 (fun a b c h => H a b c (or_intror h))) as (l' & k' & EL' & EK' & L' & K' & S0 & C).
    exists l', k'. split; [unfold run_of in *; cbn [map train_steps fst snd]; rewrite EL; exact EL'|]. split; [unfold run_of in *; cbn [map train_steps fst snd]; rewrite EK; exact EK'|]. split; [exact L'|]. split; [exact K'|].
    pose proof (N_pos pts NP) as NN. pose proof (mu_le p feat g d m FN FP FF FT pts NP OK' mu SP) as M1. pose proof (sizes_ge p feat g d m FN FP FF FT pts OK') as SG.
    assert (LL : lr <= 1). { apply (Rmult_le_reg_r (INR (length pts))); [exact NN|]. apply (Rmult_le_compat_l lr) in SG; lra. }
    assert (K0 : 0 <= 1 - lr * mu <= 1) by (split; nra). cbn [shrink]. set (s := shrink bs) in *. split; [split; nra|].
    eapply Rle_trans; [exact C|]. replace ((1 - lr * mu) * s * dist_sq l k) with (s * ((1 - lr * mu) * dist_sq l k)) by ring. apply Rmult_le_compat_l; lra.
Qed.

Lemma answers : forall l k x, linear d m l -> linear d m k -> has_geom g x -> exists u v,
  net_forward ROps p (net l) x = Ret (Ok (IOScalar u)) /\ net_forward ROps p (net k) x = Ret (Ok (IOScalar v)) /\ length u = m /\ length v = m /\
  rsum (fun i => c_norm_sq ROps (nth i u 0 - nth i v 0)%RC) m <= size_of p feat x * dist_sq l k.
Proof.
  intros l k x L K X. destruct (feat_trace p feat g d FN FP FF FT x X) as (_ & _ & LV & _ & E).
  assert (FW : forall l, linear d m l -> net_forward ROps p (net l) x = Ret (Ok (IOScalar (map (pre ROps l (fv p feat x)) (seq 0 m))))).
  { intros l0 L0. destruct (net_trace p feat g d m FN FP FF FT l0 x L0 X) as (u & _ & T). rewrite (fwd_trace p (net l0) x _ ltac:(destruct feat; discriminate) T).
    change (u ++ [IOScalar (fv p feat x); IOScalar (map (pre ROps l0 (fv p feat x)) (seq 0 m))]) with (u ++ ([@IOScalar RC (fv p feat x)] ++ [IOScalar (map (pre ROps l0 (fv p feat x)) (seq 0 m))])).
    now rewrite app_assoc, last_last. }
  do 2 eexists. split; [apply FW; exact L|]. split; [apply FW; exact K|]. split; [now rewrite map_length, seq_length|]. split; [now rewrite map_length, seq_length|].
  rewrite (dist_wt d m) by exact L. rewrite <- rsum_scal. apply rsum_le. intros i Hi. rewrite !nth_map_seq by exact Hi.
  set (v := fv p feat x) in *. pose (b := fun j => if (j <? d)%nat then nth j v 0%RC else 1%RC).
  assert (SB : rsum (fun j => nsq (b j)) (S d) = size_of p feat x).
  { unfold size_of. rewrite E. fold v. rewrite LV. rewrite rsum_S. unfold b at 2. rewrite Nat.ltb_irrefl. rewrite Rplus_comm. f_equal; [unfold nsq; cbn; unfold fone; cbn; ring|].
    apply rsum_ext. intros j Hj. unfold b. rewrite (proj2 (Nat.ltb_lt j d) Hj). reflexivity. }
  rewrite <- SB, Rmult_comm. rewrite nsq_eq.
  assert (PE : (pre ROps l v i - pre ROps k v i)%RC = csum (fun j => (wt d l i j - wt d k i j) * b j)%RC (S d)).
  { destruct L as (_ & I & _). destruct K as (_ & I' & _). unfold pre. rewrite I, I', csum_S. unfold wt at 3 4, b at 2. rewrite Nat.ltb_irrefl.
    rewrite (csum_ext (fun j => (wt d l i j - wt d k i j) * b j)%RC (fun j => weight ROps l i j * nth j v 0 - weight ROps k i j * nth j v 0)%RC).
    2: { intros j Hj. unfold wt, b. rewrite (proj2 (Nat.ltb_lt j d) Hj). ring. }
    rewrite csum_sub. unfold csum. ring. }
  rewrite PE. apply cauchy_schwarz.
Qed.
End Net.
