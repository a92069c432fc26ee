(** * Tangents of layers *)
From Coq Require Import Reals Lra Psatz.
From Coquelicot Require Import Coquelicot.
From Verif Require Import Base BaseFacts Float Matrix Cplx Random Act Input Dense RFloat SpecMatrix MatrixFacts CFacts
  SpecCalculus CalcFacts SpecLoss LossFacts SpecLayer DenseFacts.
Local Open Scope R_scope.
Local Notation re := Cplx.re.
Local Notation im := Cplx.im.

Lemma cderiv_csum : forall (f : nat -> R -> RC) (v : nat -> RC) n,
  (forall i, (i < n)%nat -> cderiv (f i) (v i)) -> cderiv (fun t => csum (fun i => f i t) n) (csum v n).
Proof.
  intros f v n; induction n as [|n IH]; intros H.
  - rewrite csum_0. apply (cderiv_ext (fun _ => 0%RC)); [reflexivity | apply cderiv_const].
  - rewrite csum_S. apply (cderiv_ext (fun t => (csum (fun i => f i t) n + f n t)%RC)).
    + intros t. now rewrite csum_S.
    + apply cderiv_add; auto.
Qed.

Lemma cderiv_cast : forall q v v', cderiv q v -> v = v' -> cderiv q v'.
Proof. intros; subst; auto. Qed.

(** A condition that holds around [q 0] holds along the curve for small times. *)
Lemma along_curve : forall (P : RC -> Prop) q v, cderiv q v ->
  locally_2d (fun x y => P (mkC x y)) (re (q 0)) (im (q 0)) -> locally 0 (fun t => P (q t)).
Proof.
  intros P q v [D1 D2] [e H].
  assert (C1 : continuous (fun t => re (q t) : R) 0) by (apply (@ex_derive_continuous R_AbsRing R_NormedModule); eexists; exact D1).
  assert (C2 : continuous (fun t => im (q t) : R) 0) by (apply (@ex_derive_continuous R_AbsRing R_NormedModule); eexists; exact D2).
  assert (L1 : locally 0 (fun t => Rabs (re (q t) - re (q 0)) < e)) by (apply (C1 (fun y => Rabs (y - re (q 0)) < e)); exists e; intros y Hy; exact Hy).
  assert (L2 : locally 0 (fun t => Rabs (im (q t) - im (q 0)) < e)) by (apply (C2 (fun y => Rabs (y - im (q 0)) < e)); exists e; intros y Hy; exact Hy).
  generalize (filter_and _ _ L1 L2). apply filter_imp. intros t [K1 K2].
  specialize (H _ _ K1 K2). now destruct (q t).
Qed.

Lemma locally_forall : forall (P : nat -> R -> Prop) n, (forall i, (i < n)%nat -> locally 0 (P i)) ->
  locally 0 (fun t => forall i, (i < n)%nat -> P i t).
Proof.
  intros P n; induction n as [|n IH]; intros H.
  - apply filter_forall. intros t i Hi. lia.
  - generalize (filter_and _ _ (IH (fun i Hi => H i (Nat.lt_lt_succ_r _ _ Hi))) (H n (Nat.lt_succ_diag_r n))). apply filter_imp. intros t [K1 K2] i Hi.
    destruct (Nat.eq_dec i n) as [-> | N]; [exact K2 | apply K1; lia].
Qed.

(** A curve pushed through an activation. *)
Lemma act_curve : forall p f (q : R -> RC) v d dc, cderiv q v -> wirtinger_at (activate ROps p f) (q 0) d dc ->
  exists a : R -> RC, locally 0 (fun t => activate ROps p f (q t) = Ret (a t)) /\
    cderiv a (d * v + dc * conj v)%RC.
Proof.
  intros p f q v d dc D (g & L & W). exists (fun t => g (q t)). split.
  - apply (along_curve (fun z => activate ROps p f z = Ret (g z)) q v D). exact L.
  - now apply wirtinger_curve.
Qed.

(** ** Rates *)
Lemma rate_csum : forall g v, rate g v = 2 * re (csum (fun k => (nth k g 0 * nth k v 0)%RC) (length v)).
Proof.
  intros g v. unfold rate. generalize (length v). intros n. induction n as [|n IH]; [cbn; ring|].
  rewrite rsum_S, csum_S, IH. cbn. ring.
Qed.

Lemma rate_zero : forall g n, rate g (repeat 0%RC n) = 0.
Proof.
  intros g n. rewrite rate_csum, csum_zero; [cbn; ring|]. intros k _.
  replace (nth k (repeat 0%RC n) 0%RC) with 0%RC; [ring|]. symmetry. apply nth_repeat.
Qed.

(** ** Choosing along an index *)
Lemma choose_seq : forall {A} (d0 : A) (P : nat -> A -> Prop) n, (forall i, (i < n)%nat -> exists a, P i a) ->
  exists f : nat -> A, forall i, (i < n)%nat -> P i (f i).
Proof.
  intros A d0 P n; induction n as [|n IH]; intros H.
  - exists (fun _ => d0). intros; lia.
  - destruct (IH ltac:(auto)) as [f Hf]. destruct (H n ltac:(lia)) as [a Ha].
    exists (fun i => if Nat.eqb i n then a else f i). intros i Hi. destruct (Nat.eqb_spec i n) as [-> | N]; [exact Ha | apply Hf; lia].
Qed.

(** ** The real pairing with the tangent of an activation *)
Lemma act_pair : forall g gc d dc v : RC, (gc = conj g \/ dc = 0%RC) ->
  re (g * (d * v + dc * conj v))%RC = re ((d * g + conj dc * gc) * v)%RC.
Proof.
  intros [g1 g2] gc [d1 d2] [e1 e2] [v1 v2] [-> | H].
  - cbn. ring.
  - inversion H; subst. destruct gc. cbn. ring.
Qed.

Lemma re_csum : forall f n, re (csum f n) = rsum (fun i => re (f i)) n.
Proof. intros f n; induction n as [|n IH]; [reflexivity|]. rewrite csum_S, rsum_S, <- IH. reflexivity. Qed.

(** ** Dense layers *)
Lemma dense_pre_curve : forall (L : R -> dense ROps) vw vb (x : R -> list RC) vx,
  dense_moves L vw vb -> vderiv x vx -> length vx = inputs ROps (L 0%R) ->
  forall i, (i < units ROps (L 0%R))%nat ->
  cderiv (fun t => pre ROps (L t) (x t) i)
    (csum (fun j => (nth (i * inputs ROps (L 0%R) + j) vw 0 * nth j (x 0%R) 0 + weight ROps (L 0%R) i j * nth j vx 0)%RC) (inputs ROps (L 0%R))
     + nth i vb 0)%RC.
Proof.
  intros L vw vb x vx (A & [LW DW] & [LB DB]) [LX DX] X i Hi.
  set (n := inputs ROps (L 0%R)) in *. set (u := units ROps (L 0%R)) in *.
  assert (VW : length vw = (u * n)%nat).
  { rewrite <- (LW 0). destruct (A 0) as ((W & _) & _). exact W. }
  assert (VB : length vb = u).
  { rewrite <- (LB 0). destruct (A 0) as ((_ & B & _) & _). exact B. }
  apply (cderiv_ext (fun t => (csum (fun j => nth (i * n + j) (body (d_weights (L t))) 0 * nth j (x t) 0)%RC n + nth i (d_biases (L t)) 0)%RC)).
  - intros t. unfold pre. destruct (A t) as (W & U & I & _). rewrite I. fold n. unfold weight, entry.
    unfold inputs in I. rewrite I. reflexivity.
  - apply cderiv_add.
    + apply (cderiv_csum (fun j t => (nth (i * n + j) (body (d_weights (L t))) 0 * nth j (x t) 0)%RC)). intros j Hj.
      eapply cderiv_cast; [apply cderiv_mul; [apply DW | apply DX; lia]|].
      * rewrite VW. nia.
      * unfold weight, entry. fold n. reflexivity.
    + apply DB. lia.
Qed.

Lemma dense_chain : forall p (L : R -> dense ROps) vw vb (x : R -> list RC) vx,
  dense_moves L vw vb -> vderiv x vx -> length vx = inputs ROps (L 0%R) ->
  (forall i, (i < units ROps (L 0%R))%nat -> act_diff p (d_func (L 0%R)) (pre ROps (L 0%R) (x 0) i)) ->
  exists (y : R -> list RC) (vy : list RC),
    locally 0 (fun t => dense_forward ROps p (L t) (IOScalar (x t)) = Ret (Ok (IOScalar (y t)))) /\
    vderiv y vy /\ length vy = units ROps (L 0%R) /\
    forall g gc, length g = length vy -> length gc = length vy ->
      (gc = map (c_conj ROps) g \/ forall i, (i < units ROps (L 0%R))%nat -> d_conj_activate ROps p (d_func (L 0%R)) (pre ROps (L 0%R) (x 0) i) = Ret 0%RC) ->
      exists dw db dx,
        dense_derivatives ROps p (L 0%R) (IOScalar (x 0)) g gc = Ret (Ok (dw, db, dx, map (c_conj ROps) dx)) /\
        length dw = length vw /\ length db = length vb /\ length dx = length vx /\
        rate g vy = rate dw vw + rate db vb + rate dx vx.
Proof.
  intros p L vw vb x vx M DX X AD.
  pose proof (dense_pre_curve L vw vb x vx M DX X) as PC.
  destruct M as (A & [LW DW] & [LB DB]). destruct DX as [LX DX].
  set (n := inputs ROps (L 0%R)) in *. set (u := units ROps (L 0%R)) in *.
  assert (VW : length vw = (u * n)%nat).
  { rewrite <- (LW 0). destruct (A 0) as ((W & _) & _). exact W. }
  assert (VB : length vb = u).
  { rewrite <- (LB 0). destruct (A 0) as ((_ & B & _) & _). exact B. }
  set (q := fun i t => pre ROps (L t) (x t) i).
  set (qv := fun i => (csum (fun j => (nth (i * n + j) vw 0 * nth j (x 0%R) 0 + weight ROps (L 0%R) i j * nth j vx 0)%RC) n + nth i vb 0)%RC).
  destruct (choose_seq (0%RC, 0%RC) (fun i d => wirtinger_at (activate ROps p (d_func (L 0%R))) (q i 0) (fst d) (snd d) /\
      d_activate ROps p (d_func (L 0%R)) (q i 0) = Ret (fst d) /\ d_conj_activate ROps p (d_func (L 0%R)) (q i 0) = Ret (snd d)) u) as [dd Hd].
  { intros i Hi. destruct (AD i Hi) as (d & dc & H). exists (d, dc). exact H. }
  set (d := fun i => fst (dd i)). set (dc := fun i => snd (dd i)).
  destruct (choose_seq (fun _ => 0%RC) (fun i a => locally 0 (fun t => activate ROps p (d_func (L 0%R)) (q i t) = Ret (a t)) /\
      cderiv a (d i * qv i + dc i * conj (qv i))%RC) u) as [a Ha].
  { intros i Hi. apply (act_curve p (d_func (L 0%R)) (q i) (qv i) (d i) (dc i)); [apply PC, Hi | apply Hd, Hi]. }
  exists (fun t => map (fun i => a i t) (seq 0 u)), (map (fun i => (d i * qv i + dc i * conj (qv i))%RC) (seq 0 u)).
  split; [|split; [|split]].
  - generalize (locally_forall (fun i t => activate ROps p (d_func (L 0%R)) (q i t) = Ret (a i t)) u ltac:(intros; apply Ha; auto)).
    apply filter_imp. intros t H. destruct (A t) as (W & U & I & Fu).
    rewrite dense_forward_ok; [|exact W|rewrite I, LX; exact X]. rewrite U, Fu. fold u.
    rewrite (mapM_ret _ (fun i => a i t)); [reflexivity|]. intros i Hi. apply in_seq in Hi. apply H. lia.
  - split; [intros; now rewrite !map_length|]. rewrite map_length, seq_length. intros k Hk.
    rewrite nth_map_seq by exact Hk.
    apply (cderiv_ext (a k)); [intros t; now rewrite nth_map_seq|]. apply Ha, Hk.
  - now rewrite map_length, seq_length.
  - intros g gc Lg Lgc HG. rewrite map_length, seq_length in Lg, Lgc.
    destruct (A 0) as (W & _ & _ & _).
    pose proof (dense_derivatives_ok ROps p (L 0%R) (x 0) g gc d dc W ltac:(rewrite LX; exact X) Lg Lgc
      ltac:(intros i Hi; split; apply Hd; exact Hi)) as E.
    cbv zeta in E. fold n u in E.
    set (delta := fun i => (d i * nth i g 0 + conj (dc i) * nth i gc 0)%RC) in E.
    set (down := fun j => csum (fun i => (weight ROps (L 0%R) i j * delta i)%RC) u).
    do 3 eexists. split.
    { rewrite E. do 3 f_equal. rewrite map_map. reflexivity. }
    split; [rewrite concat_tab_length, VW; reflexivity|].
    split; [rewrite map_length, seq_length, VB; reflexivity|].
    split; [rewrite map_length, seq_length; auto|].
    assert (HC : forall i, (i < u)%nat -> nth i gc 0%RC = conj (nth i g 0%RC) \/ dc i = 0%RC).
    { intros i Hi. destruct HG as [-> | HG].
      - left. rewrite <- (map_nth conj g 0%RC i). rewrite nth_indep with (d' := conj 0%RC); [reflexivity|]. rewrite map_length. lia.
      - right. specialize (HG i Hi). destruct (Hd i Hi) as (_ & _ & E2). unfold q in E2. fold (dc i) in E2. congruence. }
    rewrite !rate_csum, map_length, seq_length, VW, VB, X.
    rewrite (csum_ext _ (fun i => (nth i g 0 * (d i * qv i + dc i * conj (qv i)))%RC)) by (intros i Hi; now rewrite nth_map_seq).
    rewrite re_csum, (rsum_ext _ (fun i => re (delta i * qv i)%RC)), <- re_csum.
    2: { intros i Hi. apply act_pair, HC, Hi. }
    rewrite csum_flat.
    rewrite (csum_ext (fun k => (nth k (map delta (seq 0 u)) 0 * nth k vb 0)%RC) (fun i => (delta i * nth i vb 0)%RC)) by (intros i Hi; now rewrite nth_map_seq).
    rewrite (csum_ext (fun k => (nth k (map _ (seq 0 n)) 0 * nth k vx 0)%RC) (fun j => csum (fun i => (weight ROps (L 0%R) i j * delta i * nth j vx 0)%RC) u)).
    2: { intros j Hj. rewrite nth_map_seq by exact Hj. rewrite csum_mul_r. reflexivity. }
    rewrite (csum_swap (fun j i => (weight ROps (L 0%R) i j * delta i * nth j vx 0)%RC)).
    rewrite (csum_ext (fun i => csum (fun j => (nth (i * n + j) (concat _) 0 * _)%RC) n)
      (fun i => csum (fun j => (nth j (x 0%R) 0 * delta i * nth (i * n + j) vw 0)%RC) n)).
    2: { intros i Hi. apply csum_ext. intros j Hj. rewrite nth_concat_tab by auto. reflexivity. }
    match goal with |- 2 * ?A = 2 * ?B + 2 * ?C + 2 * ?D => assert (H : A = B + C + D); [|rewrite H; ring] end.
    match goal with |- re ?A = re ?B + re ?C + re ?D => assert (H : A = (B + C + D)%RC); [|rewrite H; reflexivity] end.
    rewrite <- !csum_add. apply csum_ext. intros i Hi. unfold qv.
    replace (delta i * (csum (fun j => (nth (i * n + j) vw 0 * nth j (x 0%R) 0 + weight ROps (L 0%R) i j * nth j vx 0)%RC) n + nth i vb 0))%RC
      with (csum (fun j => (delta i * (nth (i * n + j) vw 0 * nth j (x 0%R) 0 + weight ROps (L 0%R) i j * nth j vx 0))%RC) n + delta i * nth i vb 0)%RC
      by (rewrite csum_mul_l; ring).
    rewrite (csum_ext (fun j => (delta i * _)%RC) (fun j => (nth j (x 0%R) 0 * delta i * nth (i * n + j) vw 0 + weight ROps (L 0%R) i j * delta i * nth j vx 0)%RC)) by (intros; ring).
    rewrite csum_add. ring.
Qed.
