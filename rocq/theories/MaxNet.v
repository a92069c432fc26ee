(** * A rectifier network that takes the largest of many tents *)
From Coq Require Import Reals Lra Psatz.
From Verif Require Import Base BaseFacts Float Matrix Cplx Act Input Loss Dense Conv Layer Dataset Network RFloat CFacts
  SpecMatrix MatrixFacts SpecLayer SpecConv SpecNet SpecEval SpecLoss DenseFacts NetFacts LossFacts PropDense SpecMemory MemoryFacts SpecApprox.
Local Open Scope nat_scope.

(** ** Layers described by lists of units *)
Definition lsum {U} (f : U -> RC) (us : list U) : RC := fold_right (fun u s => f u + s)%RC 0%RC us.
Definition lsumr {U} (f : U -> R) (us : list U) : R := fold_right (fun u s => f u + s)%R 0%R us.

Lemma lsum_cons : forall {U} (f : U -> RC) u us, lsum f (u :: us) = (f u + lsum f us)%RC.
Proof. reflexivity. Qed.
Lemma lsumr_cons : forall {U} (f : U -> R) u us, lsumr f (u :: us) = (f u + lsumr f us)%R.
Proof. reflexivity. Qed.

Lemma lsum_nth : forall {U} (f : U -> RC) d us, csum (fun j => f (nth j us d)) (length us) = lsum f us.
Proof. intros U f d. induction us as [|u us IH]; [reflexivity|]. cbn [length lsum fold_right]. rewrite csum_S_first. cbn [nth]. f_equal. exact IH. Qed.

Lemma lsum_real : forall {U} (w v : U -> R) us, lsum (fun u => mkC (w u) 0%R * mkC (v u) 0%R)%RC us = mkC (lsumr (fun u => w u * v u)%R us) 0%R.
Proof. intros U w v. induction us as [|u us IH]; [reflexivity|]. cbn [lsum lsumr fold_right]. fold (lsum (fun u => mkC (w u) 0%R * mkC (v u) 0%R)%RC us). rewrite IH. fold (lsumr (fun u => w u * v u)%R us). set (x := lsumr _ us). apply c_ext; cbn; ring. Qed.

Lemma lsumr_ext : forall {U} (f g : U -> R) us, (forall u, In u us -> f u = g u) -> lsumr f us = lsumr g us.
Proof. intros U f g. induction us as [|u us IH]; intros H; [reflexivity|]. cbn [lsumr fold_right]. f_equal; [apply H; now left | apply IH; intros; apply H; now right]. Qed.

Lemma lsumr_app : forall {U} (f : U -> R) us vs, lsumr f (us ++ vs) = (lsumr f us + lsumr f vs)%R.
Proof. intros U f us vs. induction us as [|u us IH]; cbn [app lsumr fold_right]; [unfold lsumr; ring|]. fold (lsumr f (us ++ vs)). rewrite IH. unfold lsumr. ring. Qed.

Lemma lsumr_map : forall {U V} (g : U -> V) (f : V -> R) us, lsumr f (map g us) = lsumr (fun u => f (g u)) us.
Proof. intros U V g f. induction us as [|u us IH]; [reflexivity|]. cbn [map lsumr fold_right]. f_equal. exact IH. Qed.

Lemma lsumr_zero : forall {U} (f : U -> R) us, (forall u, In u us -> f u = 0%R) -> lsumr f us = 0%R.
Proof. intros U f. induction us as [|u us IH]; intros H; [reflexivity|]. cbn [lsumr fold_right]. fold (lsumr f us). rewrite H by now left. rewrite IH by (intros; apply H; now right). ring. Qed.

Lemma lsumr_prod : forall {U V} (f : U * V -> R) us vs, lsumr f (list_prod us vs) = lsumr (fun u => lsumr (fun v => f (u, v)) vs) us.
Proof. intros U V f us vs. induction us as [|u us IH]; [reflexivity|]. cbn [list_prod]. rewrite lsumr_app, lsumr_map, IH. reflexivity. Qed.

Lemma lsumr_pick : forall (f : nat -> R) n s k, s <= k < s + n -> lsumr (fun j => if j =? k then f j else 0%R) (seq s n) = f k.
Proof.
  induction n as [|n IH]; intros s k H; [lia|]. cbn [seq lsumr fold_right]. fold (lsumr (fun j => if j =? k then f j else 0%R) (seq (S s) n)). destruct (Nat.eqb_spec s k) as [->|N].
  - rewrite lsumr_zero; [ring|]. intros u I. apply in_seq in I. destruct (Nat.eqb_spec u k); [lia | reflexivity].
  - rewrite IH by lia. ring.
Qed.

Section Layers.
Context (p : prec) {U V : Type} (du : U) (dv : V) (us : list U) (vs : list V) (w : V -> U -> RC) (b : V -> RC).
Definition llayer (f : ComplexActFunc) : dense ROps := mkDense ROps (mat (length vs) (length us) (fun i j => w (nth i vs dv) (nth j us du))) (map b vs) f.

Lemma llayer_wf : forall f, us <> [] -> dense_wf ROps (llayer f) /\ inputs ROps (llayer f) = length us /\ units ROps (llayer f) = length vs.
Proof. intros f N. split; [|split; reflexivity]. split; [apply wf_mat|]. split; [cbn; now rewrite map_length | cbn; destruct us; [congruence | discriminate]]. Qed.

Lemma llayer_forward : forall f (g : RC -> RC) (v : U -> RC), us <> [] -> (forall q, activate ROps p f q = Ret (g q)) ->
  fwd ROps p (LDense (llayer f)) (IOScalar (map v us)) = Ret (IOScalar (map (fun y => g (lsum (fun u => w y u * v u)%RC us + b y)%RC) vs)).
Proof.
  intros f g v N G. destruct (llayer_wf f N) as (W & WI & WU). apply fwd_ok. cbn [layer_forward]. apply C40_forward; [exact W | rewrite map_length; symmetry; exact WI|]. rewrite map_length. split; [symmetry; exact WU|].
  intros i Hi. change (units ROps (llayer f)) with (length vs) in Hi. cbn [d_func llayer]. rewrite G. f_equal. change (c_default ROps) with 0%RC.
  rewrite (nth_indep _ 0%RC (g (lsum (fun u => w dv u * v u)%RC us + b dv)%RC)) by (rewrite map_length; exact Hi). rewrite (map_nth (fun y => g (lsum (fun u => w y u * v u)%RC us + b y)%RC) vs dv i). f_equal.
  change (pre ROps (llayer f) (map v us) i) with (csum (fun j => weight ROps (llayer f) i j * nth j (map v us) 0)%RC (length us) + nth i (d_biases (llayer f)) 0)%RC. f_equal.
  - rewrite <- (lsum_nth _ du). apply csum_ext. intros j Hj. unfold weight. cbn [d_weights llayer]. rewrite entry_mat by assumption. f_equal.
    rewrite (nth_indep _ 0%RC (v du)) by (rewrite map_length; exact Hj). apply map_nth.
  - cbn [d_biases llayer]. rewrite (nth_indep _ 0%RC (b dv)) by (rewrite map_length; exact Hi). apply map_nth.
Qed.
End Layers.

(** Real weights on real values: the rectified real sums. *)
Lemma real_layer : forall p {U V} (du : U) (dv : V) us vs (w : V -> U -> R) (b : V -> R) (v : U -> R), us <> [] ->
  fwd ROps p (LDense (llayer du dv us vs (fun y u => mkC (w y u) 0%R) (fun y => mkC (b y) (-1)%R) RITReLU)) (IOScalar (map (fun u => mkC (v u) 0%R : RC) us)) =
  Ret (IOScalar (map (fun y => mkC (relu ROps (lsumr (fun u => w y u * v u)%R us + b y)%R) 0%R : RC) vs)).
Proof.
  intros p U V du dv us vs w b v N. rewrite (llayer_forward p du dv us vs _ _ RITReLU (ritrelu ROps)) by (auto; reflexivity). do 2 f_equal. apply map_ext. intros y.
  rewrite lsum_real. unfold ritrelu. apply c_ext; cbn [re im]; [f_equal; cbn; ring|].
  change (relu ROps (0 + -1)%R = 0%R). apply relu_neg. lra.
Qed.

(** ** The largest of the values of a list *)
Inductive slot := Hs (i : nat) | Mx | Df.
Definition slots (K : nat) : list slot := map Hs (seq 0 K) ++ [Mx; Df].

Definition pass (t : nat) (s' s : slot) : R :=
  match s', s with
  | Hs i, Hs j => if j =? i then 1 else 0
  | Mx, Mx => 1 | Mx, Df => 1
  | Df, Hs j => if j =? t then 1 else 0
  | Df, Mx => -1 | Df, Df => -1
  | _, _ => 0
  end%R.

Lemma pass_sum : forall K t (v : slot -> R), t < K ->
  (forall i, i < K -> lsumr (fun s => pass t (Hs i) s * v s)%R (slots K) = v (Hs i)) /\
  lsumr (fun s => pass t Mx s * v s)%R (slots K) = (v Mx + v Df)%R /\
  lsumr (fun s => pass t Df s * v s)%R (slots K) = (v (Hs t) - (v Mx + v Df))%R.
Proof.
  intros K t v T. unfold slots. split; [|split].
  - intros i I. rewrite lsumr_app, lsumr_map. rewrite (lsumr_ext _ (fun j => if j =? i then v (Hs j) else 0%R)).
    + rewrite lsumr_pick by lia. cbn. ring.
    + intros j _. cbn. destruct (j =? i); ring.
  - rewrite lsumr_app, lsumr_map. rewrite lsumr_zero by (intros; cbn; ring). cbn. ring.
  - rewrite lsumr_app, lsumr_map. rewrite (lsumr_ext _ (fun j => if j =? t then v (Hs j) else 0%R)).
    + rewrite lsumr_pick by lia. cbn. ring.
    + intros j _. cbn. destruct (j =? t); ring.
Qed.

Fixpoint top (h : nat -> R) (t : nat) : R := match t with O => 0%R | S t => Rmax (top h t) (h t) end.
Lemma top_pos : forall h t, (0 <= top h t)%R.
Proof. intros h. induction t as [|t IH]; cbn; [lra|]. eapply Rle_trans; [exact IH | apply Rmax_l]. Qed.
Lemma top_ge : forall h t i, i < t -> (h i <= top h t)%R.
Proof. intros h. induction t as [|t IH]; intros i I; [lia|]. cbn. destruct (Nat.eq_dec i t) as [->|N]; [apply Rmax_r|]. eapply Rle_trans; [apply IH; lia | apply Rmax_l]. Qed.
Lemma top_le : forall h c t, (0 <= c)%R -> (forall i, i < t -> (h i <= c)%R) -> (top h t <= c)%R.
Proof. intros h c. induction t as [|t IH]; intros C H; cbn; [exact C|]. apply Rmax_lub; [apply IH; auto | apply H; lia]. Qed.

(** The state after t steps: Mx + Df is the largest of the first t values. *)
Fixpoint state (h : nat -> R) (t : nat) (s : slot) : R :=
  match t with
  | O => match s with Hs i => h i | _ => 0 end
  | S t => match s with
           | Hs i => h i
           | Mx => top h t
           | Df => relu ROps (h t - top h t)
           end
  end%R.

Lemma state_top : forall h t, (state h t Mx + state h t Df = top h t)%R.
Proof.
  intros h [|t]; cbn; [ring|]. destruct (Rle_dec (h t) (top h t)) as [L|L].
  - rewrite relu_neg by (cbn; lra). rewrite Rmax_left by exact L. ring.
  - rewrite relu_pos by (cbn; lra). rewrite Rmax_right by lra. cbn. ring.
Qed.
Lemma state_h : forall h t i, state h t (Hs i) = h i.
Proof. intros h [|t] i; reflexivity. Qed.

Lemma state_step : forall K t h s, t < K -> (forall i, i < K -> (0 <= h i)%R) -> In s (slots K) ->
  relu ROps (lsumr (fun s' => pass t s s' * state h t s')%R (slots K) + 0)%R = state h (S t) s.
Proof.
  intros K t h s T P I. destruct (pass_sum K t (state h t) T) as (P1 & P2 & P3). destruct s as [i| |].
  - assert (i < K). { unfold slots in I. apply in_app_or in I as [I|[I|[I|[]]]]; try discriminate. apply in_map_iff in I as (j & J & I). injection J as ->. apply in_seq in I. lia. }
    rewrite P1 by assumption. rewrite state_h, Rplus_0_r. apply relu_pos. now apply P.
  - rewrite P2, state_top, Rplus_0_r. apply relu_pos, top_pos.
  - rewrite P3, state_top, state_h, Rplus_0_r. reflexivity.
Qed.

(** ** Several maxima side by side *)
Section Blocks.
Context (p : prec) (Q K : nat) (KP : 0 < K) (QP : 0 < Q).
Definition cells : list (nat * slot) := list_prod (seq 0 Q) (slots K).
Definition c0 : nat * slot := (0, Mx).

Lemma cells_ne : cells <> [].
Proof. unfold cells. destruct Q as [|q]; [lia|]. destruct K as [|k]; [lia|]. discriminate. Qed.

Lemma in_cells : forall q s, In (q, s) cells <-> q < Q /\ In s (slots K).
Proof. intros q s. unfold cells. rewrite in_prod_iff, in_seq. clear KP QP. intuition lia. Qed.

Definition block (A : slot -> slot -> R) (y u : nat * slot) : R := if fst u =? fst y then A (snd y) (snd u) else 0%R.
Lemma block_sum : forall A (v : nat * slot -> R) q s, q < Q ->
  lsumr (fun u => block A (q, s) u * v u)%R cells = lsumr (fun s' => A s s' * v (q, s'))%R (slots K).
Proof.
  intros A v q s H. unfold cells. rewrite lsumr_prod. rewrite (lsumr_ext _ (fun j => if j =? q then lsumr (fun s' => A s s' * v (j, s'))%R (slots K) else 0%R)).
  - apply (lsumr_pick (fun j => lsumr (fun s' => A s s' * v (j, s'))%R (slots K))). lia.
  - intros j _. unfold block. cbn [fst snd]. destruct (j =? q); [reflexivity|]. apply lsumr_zero. intros. ring.
Qed.

Definition step_layer (t : nat) : dense ROps := llayer c0 c0 cells cells (fun y u => mkC (block (pass t) y u) 0%R) (fun _ => mkC 0%R (-1)%R) RITReLU.
Definition shown (v : nat * slot -> R) : IOType RC := IOScalar (map (fun u => mkC (v u) 0%R : RC) cells).

Lemma steps_forward : forall (h : nat -> nat -> R) n, n <= K -> (forall q i, q < Q -> i < K -> (0 <= h q i)%R) ->
  foldM (fun acc l => fwd ROps p l acc) (map LDense (map step_layer (seq 0 n))) (shown (fun u => state (h (fst u)) 0 (snd u))) = Ret (shown (fun u => state (h (fst u)) n (snd u))).
Proof.
  intros h n. induction n as [|n IH]; intros N P; [reflexivity|]. rewrite seq_S, !map_app, foldM_app, IH by (auto; lia). cbn [obind map foldM Nat.add]. unfold shown, step_layer at 1.
  rewrite (real_layer p c0 c0 cells cells (block (pass n)) (fun _ => 0%R) (fun u => state (h (fst u)) n (snd u)) cells_ne). cbn [obind]. do 2 f_equal. apply map_ext_in. intros (q & s) I. apply in_cells in I as (I1 & I2).
  f_equal. rewrite block_sum by exact I1. cbn [fst snd]. apply (state_step K n (h q) s); auto.
Qed.

Lemma steps_fit : forall n, widths_fit ROps (map step_layer (seq 0 n)) (length cells) /\ out_width ROps (map step_layer (seq 0 n)) (length cells) = length cells /\ Forall (fun k => d_func k = RITReLU) (map step_layer (seq 0 n)).
Proof.
  intros n. generalize 0. induction n as [|n IH]; intros s; cbn [seq map]; [repeat constructor|]. destruct (IH (S s)) as (F1 & F2 & F3).
  destruct (llayer_wf c0 c0 cells cells (fun y u => mkC (block (pass s) y u) 0%R) (fun _ => mkC 0%R (-1)%R) RITReLU cells_ne) as (W & WI & WU).
  split; [|split].
  - split; [exact W|]. split; [exact WI|]. change (units ROps (step_layer s)) with (length cells). exact F1.
  - exact F2.
  - constructor; [reflexivity | exact F3].
Qed.

(** The last layer: the real part of output o is the maximum of block o, the
    imaginary part that of block M + o, both moved down by [D]. *)
Section Last.
Context (M : nat) (QM : Q = M + M) (D : R).
Definition read (o : nat) (u : nat * slot) : RC := match snd u with Hs _ => 0%RC | _ => if fst u =? o then 1%RC else if fst u =? M + o then mkC 0%R 1%R else 0%RC end.
Definition last_layer : dense ROps := llayer c0 0 cells (seq 0 M) read (fun _ => mkC (- D)%R (- D)%R) ActNone.

Lemma read_sum : forall (v : nat * slot -> R) o, o < M ->
  lsum (fun u => read o u * mkC (v u) 0%R)%RC cells = mkC (v (o, Mx) + v (o, Df))%R (v ((M + o)%nat, Mx) + v ((M + o)%nat, Df))%R.
Proof.
  intros v o O.
  assert (S : forall us : list (nat * slot), lsum (fun u => read o u * mkC (v u) 0%R)%RC us = mkC (lsumr (fun u => match snd u with Hs _ => 0 | _ => if fst u =? o then v u else 0 end)%R us) (lsumr (fun u => match snd u with Hs _ => 0 | _ => if fst u =? (M + o)%nat then v u else 0 end)%R us)).
  { induction us as [|(q & s) us IH]; [reflexivity|]. rewrite lsum_cons, !lsumr_cons, IH. generalize (lsumr (fun u => match snd u with Hs _ => 0 | _ => if fst u =? o then v u else 0 end)%R us). intros x1. match goal with |- context [lsumr ?f us] => generalize (lsumr f us) end. intros x2. unfold read. cbn [fst snd].
    destruct s; [apply c_ext; cbn; ring | |].
    all: destruct (Nat.eqb_spec q o) as [->|]; [destruct (Nat.eqb_spec o (M + o)); [lia|]; apply c_ext; cbn; ring|]; destruct (q =? M + o); apply c_ext; cbn; ring. }
  rewrite S. unfold cells. rewrite !lsumr_prod.
  assert (T : forall r, r < Q -> lsumr (fun u => lsumr (fun s => match snd (u, s) with Hs _ => 0 | _ => if fst (u, s) =? r then v (u, s) else 0 end)%R (slots K)) (seq 0 Q) = (v (r, Mx) + v (r, Df))%R).
  { intros r R'. rewrite (lsumr_ext _ (fun j => if j =? r then (v (j, Mx) + v (j, Df))%R else 0%R)); [rewrite lsumr_pick by lia; reflexivity|].
    intros j _. unfold slots. rewrite lsumr_app, lsumr_map, lsumr_zero by reflexivity. cbn [lsumr fold_right fst snd]. destruct (j =? r); ring. }
  rewrite !T by lia. reflexivity.
Qed.

Lemma last_forward : forall v, fwd ROps p (LDense last_layer) (shown v) = Ret (IOScalar (map (fun o => mkC (v (o, Mx) + v (o, Df) - D)%R (v ((M + o)%nat, Mx) + v ((M + o)%nat, Df) - D)%R : RC) (seq 0 M))).
Proof.
  intros v. unfold last_layer, shown. rewrite (llayer_forward p c0 0 cells (seq 0 M) read _ ActNone (fun q => q)) by (reflexivity || exact cells_ne). do 2 f_equal. apply map_ext_in. intros o I. apply in_seq in I.
  rewrite read_sum by lia. apply c_ext; cbn; ring.
Qed.
End Last.
End Blocks.
