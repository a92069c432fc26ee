(** * Lemmas about the loss functions *)
From Coq Require Import Reals Lra Psatz.
From Coquelicot Require Import Coquelicot.
From Verif Require Import Base BaseFacts Float Matrix Cplx Input Loss RFloat SpecMatrix CFacts SpecCalculus CalcFacts SpecLoss.
Local Open Scope R_scope.
Local Notation re := Cplx.re.
Local Notation im := Cplx.im.

(** ** Sums in order over the common prefix of two lists *)
Lemma combine_nth_seq : forall {A B} (da : A) (db : B) l r,
  combine l r = map (fun k => (nth k l da, nth k r db)) (seq 0 (Nat.min (length l) (length r))).
Proof.
  intros A B da db l; induction l as [|a l IH]; intros r; [reflexivity|].
  destruct r as [|b r]; [reflexivity|]. cbn [combine length Nat.min seq map nth]. f_equal.
  rewrite IH, <- seq_shift, map_map. reflexivity.
Qed.

Lemma fold_combine : forall {A B S} (f : S -> A * B -> S) (da : A) (db : B) l r s,
  fold_left f (combine l r) s = sum_from (fun acc k => f acc (nth k l da, nth k r db)) s (fun k => k) (Nat.min (length l) (length r)).
Proof. intros. rewrite (combine_nth_seq da db), fold_left_map. reflexivity. Qed.

Lemma mean_sq_fold : forall Fl (l : list (cplx (F Fl) * cplx (F Fl))) acc id,
  fold_left (fun st tp => let '(acc, len, id) := st in
                 (fadd Fl acc (sq_error Fl (fst tp) (snd tp)), id, S id)) l (acc, Nat.pred id, id)
  = (fold_left (fun a tp => fadd Fl a (sq_error Fl (fst tp) (snd tp))) l acc, Nat.pred (id + length l), (id + length l)%nat).
Proof.
  intros Fl l; induction l as [|x l IH]; intros acc id; cbn [fold_left length].
  - now rewrite Nat.add_0_r.
  - pose proof (IH (fadd Fl acc (sq_error Fl (fst x) (snd x))) (S id)) as E. cbn [Nat.pred] in E.
    rewrite E. now rewrite Nat.add_succ_r.
Qed.

Lemma mean_sq_spec : forall Fl (t p : list (cplx (F Fl))),
  mean_sq_loss Fl t p =
  fdiv Fl (sum_from (fadd Fl) (fzero Fl)
     (fun k => c_norm_sq Fl (c_sub Fl (nth k t (c_default Fl)) (nth k p (c_default Fl)))) (Nat.min (length t) (length p)))
   (fofnat Fl (Nat.min (length t) (length p) - 1)).
Proof.
  intros Fl t p. unfold mean_sq_loss.
  change (fzero Fl, 0%nat, 0%nat) with (fzero Fl, Nat.pred 0, 0%nat). rewrite mean_sq_fold.
  rewrite (fold_combine _ (c_default Fl) (c_default Fl)), combine_length. cbn [Nat.add]. rewrite Nat.sub_1_r. reflexivity.
Qed.

(** ** Real sums *)
Lemma rsum_0 : forall f, rsum f 0%nat = 0.
Proof. reflexivity. Qed.
Lemma rsum_S : forall f n, rsum f (S n) = rsum f n + f n.
Proof. intros. apply sum_from_S. Qed.
Lemma rsum_ext : forall f g n, (forall i, (i < n)%nat -> f i = g i) -> rsum f n = rsum g n.
Proof. intros f g n; induction n as [|n IH]; intros H; [reflexivity|]. rewrite !rsum_S, IH, H by auto. reflexivity. Qed.
Lemma rsum_plus : forall f g n, rsum (fun i => f i + g i) n = rsum f n + rsum g n.
Proof. intros f g n; induction n as [|n IH]; [cbn; ring|]. rewrite !rsum_S, IH. ring. Qed.
Lemma rsum_scal : forall a f n, rsum (fun i => a * f i) n = a * rsum f n.
Proof. intros a f n; induction n as [|n IH]; [cbn; ring|]. rewrite !rsum_S, IH. ring. Qed.
Lemma rsum_nonneg : forall f n, (forall i, (i < n)%nat -> 0 <= f i) -> 0 <= rsum f n.
Proof.
  intros f n; induction n as [|n IH]; intros H; [cbn; lra|]. rewrite rsum_S.
  pose proof (IH ltac:(auto)). pose proof (H n ltac:(auto)). lra.
Qed.
Lemma rsum_ge : forall f n k, (forall i, (i < n)%nat -> 0 <= f i) -> (k < n)%nat -> f k <= rsum f n.
Proof.
  intros f n k; induction n as [|n IH]; intros H L; [lia|]. rewrite rsum_S.
  destruct (Nat.eq_dec k n) as [->|N].
  - pose proof (rsum_nonneg f n ltac:(auto)). lra.
  - pose proof (IH ltac:(auto) ltac:(lia)). pose proof (H n ltac:(auto)). lra.
Qed.
Lemma rsum_zero : forall f n, (forall i, (i < n)%nat -> f i = 0) -> rsum f n = 0.
Proof. intros f n; induction n as [|n IH]; intros H; [reflexivity|]. rewrite rsum_S, IH, H by auto. lra. Qed.

Lemma rsum_derive : forall (f : nat -> R -> R) (l : nat -> R) n x,
  (forall i, (i < n)%nat -> is_derive (f i) x (l i)) -> is_derive (fun t => rsum (fun i => f i t) n) x (rsum l n).
Proof.
  intros f l n x; induction n as [|n IH]; intros H.
  - rewrite rsum_0. apply (is_derive_ext (fun _ => 0)); [reflexivity|]. apply @is_derive_const.
  - rewrite rsum_S. apply (is_derive_ext (fun t => plus (rsum (fun i => f i t) n) (f n t))).
    + intros t. rewrite rsum_S. reflexivity.
    + apply @is_derive_plus; auto.
Qed.

Lemma fofnat_R : forall n, fofnat ROps n = INR n.
Proof. intros n. unfold fofnat. cbn [fofN ROps]. rewrite nat_N_Z. symmetry. apply INR_IZR_INZ. Qed.

Lemma norm_sq_nonneg : forall z : RC, 0 <= c_norm_sq ROps z.
Proof. intros [x y]. unfold c_norm_sq, fsq. cbn [re im fadd fmul ROps]. nra. Qed.
Lemma norm_sq_0 : forall z : RC, c_norm_sq ROps z = 0 -> z = mkC 0 0.
Proof.
  intros [x y]. unfold c_norm_sq, fsq. cbn [re im fadd fmul ROps]. intros H.
  assert (x = 0) by nra. assert (y = 0) by nra. subst. reflexivity.
Qed.

(** |q|^2 along a curve. *)
Lemma norm_sq_derive : forall (q : R -> RC) v, cderiv q v ->
  is_derive (fun t => c_norm_sq ROps (q t) : R) 0 (2 * re (conj (q 0%R) * v)%RC).
Proof.
  intros q v [D1 D2]. unfold c_norm_sq, fsq. cbn [fadd fmul ROps].
  set (a := re (conj (q 0%R) * v)%RC).
  assert (E : 2 * a = plus (plus (mult (re v) (re (q 0))) (mult (re (q 0)) (re v))) (plus (mult (im v) (im (q 0))) (mult (im (q 0)) (im v)))).
  { unfold a, plus, mult. cbn. ring. }
  rewrite E. apply @is_derive_plus; apply @is_derive_mult; auto; intros; apply Rmult_comm.
Qed.

Lemma cderiv_const : forall c, cderiv (fun _ => c) (mkC 0 0).
Proof. intros c. split; apply @is_derive_const. Qed.
Lemma cderiv_ext : forall q q' v, (forall t, q t = q' t) -> cderiv q v -> cderiv q' v.
Proof. intros q q' v E [H1 H2]. split; [revert H1 | revert H2]; apply is_derive_ext; intros t; now rewrite E. Qed.
Lemma cderiv_add : forall p q u v, cderiv p u -> cderiv q v -> cderiv (fun t => (p t + q t)%RC) (u + v)%RC.
Proof. intros p q u v [H1 H2] [K1 K2]. split; cbn; apply @is_derive_plus; auto. Qed.
Lemma cderiv_sub : forall p q u v, cderiv p u -> cderiv q v -> cderiv (fun t => (p t - q t)%RC) (u - v)%RC.
Proof. intros p q u v [H1 H2] [K1 K2]. split; cbn; apply @is_derive_minus; auto. Qed.
Lemma cderiv_mul : forall p q u v, cderiv p u -> cderiv q v ->
  cderiv (fun t => (p t * q t)%RC) (u * q 0%R + p 0%R * v)%RC.
Proof.
  intros p q u v [H1 H2] [K1 K2]. split; cbn.
  - replace (_ + _) with (minus (plus (mult (re u) (re (q 0))) (mult (re (p 0)) (re v)))
      (plus (mult (im u) (im (q 0))) (mult (im (p 0)) (im v)))) by (unfold minus, plus, opp, mult; cbn; ring).
    apply @is_derive_minus; apply @is_derive_mult; auto; intros; apply Rmult_comm.
  - replace (_ + _) with (plus (plus (mult (re u) (im (q 0))) (mult (re (p 0)) (im v)))
      (plus (mult (im u) (re (q 0))) (mult (im (p 0)) (re v)))) by (unfold minus, plus, opp, mult; cbn; ring).
    apply @is_derive_plus; apply @is_derive_mult; auto; intros; apply Rmult_comm.
Qed.

(** ** The summed squared error along a curve *)
Lemma nth_map_combine : forall (t p : list RC) (f : RC -> RC -> RC) k, (k < length t)%nat -> (k < length p)%nat ->
  nth k (map (fun tp => f (fst tp) (snd tp)) (combine t p)) 0%RC = f (nth k t 0%RC) (nth k p 0%RC).
Proof.
  intros t p f k H1 H2. rewrite (combine_nth_seq 0%RC 0%RC), map_map, nth_map_seq by lia. reflexivity.
Qed.

Lemma sse_derive : forall (t : list RC) (p : R -> list RC) (v : list RC), length t = length v -> vderiv p v ->
  is_derive (fun s => sse t (p s)) 0 (rate (d_mean_sq_loss ROps t (p 0)) v).
Proof.
  intros t p v E [L D]. unfold sse, rate.
  apply (is_derive_ext (fun s => rsum (fun k => c_norm_sq ROps (nth k t 0 - nth k (p s) 0)%RC) (length v))).
  { intros s. rewrite L, E, Nat.min_id. reflexivity. }
  apply (rsum_derive (fun k s => c_norm_sq ROps (nth k t 0 - nth k (p s) 0)%RC)). intros k Hk.
  unfold d_mean_sq_loss. rewrite nth_map_combine by (rewrite ?L; lia). unfold d_sq_error.
  pose proof (norm_sq_derive _ _ (cderiv_sub _ _ _ _ (cderiv_const (nth k t 0%RC)) (D k Hk))) as N.
  revert N. cbv beta. generalize (nth k t 0%RC) (nth k (p 0) 0%RC) (nth k v 0%RC). intros [a b] [c d] [e f] N.
  match type of N with is_derive _ _ ?x => match goal with |- is_derive _ _ ?y => replace y with x; [exact N|] end end.
  cbn. ring.
Qed.

(** ** Cross entropy *)
Lemma norm_ce_spec : forall Fl (t p : list (cplx (F Fl))), length t = length p ->
  norm_ce_loss Fl t p =
  sum_from (fun acc k => fsub Fl acc (fmul Fl (re (nth k t (c_default Fl)))
     (fln Fl (fdiv Fl (fexp Fl (c_norm_sq Fl (nth k p (c_default Fl))))
       (sum_from (fadd Fl) (fzero Fl) (fun j => fexp Fl (c_norm_sq Fl (nth j p (c_default Fl)))) (length p))))))
   (fzero Fl) (fun k => k) (length p).
Proof.
  intros Fl t p E. unfold norm_ce_loss.
  set (S1 := fold_left _ (map (fun z => fexp Fl (c_norm_sq Fl z)) p) (fzero Fl)).
  assert (ES : S1 = sum_from (fadd Fl) (fzero Fl) (fun j => fexp Fl (c_norm_sq Fl (nth j p (c_default Fl)))) (length p)).
  { unfold S1. rewrite (list_eq_map_nth (c_default Fl) p) at 1. rewrite map_map, fold_left_map. reflexivity. }
  rewrite <- ES. clearbody S1.
  rewrite (fold_combine _ (re (c_default Fl)) (fexp Fl (c_norm_sq Fl (c_default Fl)))), !map_length, E, Nat.min_id.
  unfold sum_from. apply fold_left_ext. intros acc k _. cbn [fst snd].
  rewrite !map_nth, (map_nth (fun z => fexp Fl (c_norm_sq Fl z))). reflexivity.
Qed.

Lemma rsum_minus : forall (f : nat -> R) n, sum_from (fun acc k => acc - f k) 0 (fun k => k) n = - rsum f n.
Proof.
  intros f n; induction n as [|n IH]; [cbn; ring|].
  rewrite rsum_S. rewrite (sum_from_S (fun acc k => acc - f k)), IH. ring.
Qed.

Definition zexp (p : list RC) : R := rsum (fun j => exp (c_norm_sq ROps (nth j p 0%RC))) (length p).

Lemma norm_ce_R : forall t p : list RC, length t = length p ->
  norm_ce_loss ROps t p = - rsum (fun k => re (nth k t 0%RC) * ln (softmax p k)) (length p).
Proof. intros t p E. rewrite norm_ce_spec by auto. apply (rsum_minus (fun k => re (nth k t 0%RC) * ln (softmax p k))). Qed.

Lemma zexp_pos : forall p, (0 < length p)%nat -> 0 < zexp p.
Proof.
  intros p H. pose proof (exp_pos (c_norm_sq ROps (nth 0 p 0%RC))).
  assert (exp (c_norm_sq ROps (nth 0 p 0%RC)) <= zexp p); [|lra].
  apply (rsum_ge (fun j => exp (c_norm_sq ROps (nth j p 0%RC)))); [|exact H]. intros; left; apply exp_pos.
Qed.

Lemma softmax_range : forall p k, (k < length p)%nat -> 0 < softmax p k <= 1.
Proof.
  intros p k H. pose proof (zexp_pos p ltac:(lia)) as Z. unfold softmax. fold (zexp p).
  pose proof (exp_pos (c_norm_sq ROps (nth k p 0%RC))). split; [now apply Rdiv_lt_0_compat|].
  apply (Rmult_le_reg_r (zexp p)); [exact Z|]. unfold Rdiv. rewrite Rmult_assoc, Rinv_l, Rmult_1_r, Rmult_1_l by lra.
  apply (rsum_ge (fun j => exp (c_norm_sq ROps (nth j p 0%RC)))); [|exact H]. intros; left; apply exp_pos.
Qed.

Lemma softmax_lt1 : forall p k, (k < length p)%nat -> (2 <= length p)%nat -> softmax p k < 1.
Proof.
  intros p k H H2. pose proof (zexp_pos p ltac:(lia)) as Z. unfold softmax. fold (zexp p).
  apply (Rmult_lt_reg_r (zexp p)); [exact Z|]. unfold Rdiv. rewrite Rmult_assoc, Rinv_l, Rmult_1_r, Rmult_1_l by lra.
  set (e := fun j => exp (c_norm_sq ROps (nth j p 0%RC))). change (e k < rsum e (length p)).
  assert (EP : forall j, 0 < e j) by (intros; apply exp_pos).
  destruct (length p) as [|n]; [lia|]. rewrite rsum_S. destruct (Nat.eq_dec k n) as [->|N].
  - pose proof (rsum_ge e n 0 ltac:(intros; left; apply EP) ltac:(lia)). pose proof (EP 0%nat). lra.
  - pose proof (rsum_ge e n k ltac:(intros; left; apply EP) ltac:(lia)). pose proof (EP n). lra.
Qed.

Lemma ln_softmax : forall p k, (k < length p)%nat -> ln (softmax p k) = c_norm_sq ROps (nth k p 0%RC) - ln (zexp p).
Proof.
  intros p k H. unfold softmax. fold (zexp p). pose proof (zexp_pos p ltac:(lia)).
  rewrite ln_div by (auto; apply exp_pos). now rewrite ln_exp.
Qed.

Lemma ce_derive : forall (t : list RC) (p : R -> list RC) (v : list RC), length t = length v -> vderiv p v ->
  (0 < length v)%nat ->
  is_derive (fun s => norm_ce_loss ROps t (p s) : R) 0 (rate (ce_grad t (p 0)) v).
Proof.
  intros t p v E [L D] NZ.
  set (n := length v) in *. set (N := fun k (s : R) => c_norm_sq ROps (nth k (p s) 0%RC) : R).
  set (N' := fun k => 2 * re (conj (nth k (p 0%R) 0) * nth k v 0)%RC).
  assert (DN : forall k, (k < n)%nat -> is_derive (N k) 0 (N' k)).
  { intros k Hk. apply (norm_sq_derive (fun s => nth k (p s) 0%RC)), D, Hk. }
  assert (DS : is_derive (fun s => rsum (fun j => exp (N j s)) n) 0 (rsum (fun j => N' j * exp (N j 0)) n)).
  { apply (rsum_derive (fun j s => exp (N j s))). intros j Hj.
    apply (is_derive_comp exp (N j)); [apply is_derive_Reals, derivable_pt_lim_exp | auto]. }
  assert (ZP : 0 < zexp (p 0)) by (apply zexp_pos; rewrite L; auto).
  assert (EZ : forall s, zexp (p s) = rsum (fun j => exp (N j s)) n) by (intros s; unfold zexp; now rewrite L).
  assert (DL : is_derive (fun s => ln (zexp (p s))) 0 (rsum (fun j => N' j * exp (N j 0)) n * / zexp (p 0))).
  { apply (is_derive_ext (fun s => ln (rsum (fun j => exp (N j s)) n))); [intros s; now rewrite EZ|].
    apply (is_derive_comp ln (fun s => rsum (fun j => exp (N j s)) n)); [|exact DS].
    rewrite <- EZ. apply is_derive_Reals, derivable_pt_lim_ln. exact ZP. }
  apply (is_derive_ext (fun s => opp (rsum (fun k => re (nth k t 0%RC) * (N k s - ln (zexp (p s)))) n))).
  { intros s. rewrite norm_ce_R by (rewrite L; auto). unfold opp; cbn. f_equal. rewrite L. apply rsum_ext.
    intros k Hk. rewrite ln_softmax by (rewrite L; auto). reflexivity. }
  set (l' := rsum (fun j => N' j * exp (N j 0)) n * / zexp (p 0)) in *.
  assert (DM : is_derive (fun s => rsum (fun k => re (nth k t 0%RC) * (N k s - ln (zexp (p s)))) n) 0
     (rsum (fun k => re (nth k t 0%RC) * (N' k - l')) n)).
  { apply (rsum_derive (fun k s => re (nth k t 0%RC) * (N k s - ln (zexp (p s))))). intros k Hk.
    apply (is_derive_scal (fun s => minus (N k s) (ln (zexp (p s))))). apply @is_derive_minus; auto. }
  replace (rate (ce_grad t (p 0)) v) with (opp (rsum (fun k => re (nth k t 0%RC) * (N' k - l')) n)); [apply @is_derive_opp, DM|].
  unfold opp; cbn. set (T := fun k => re (nth k t 0%RC) : R).
  assert (R1 : rate (ce_grad t (p 0)) v = rsum (fun k => (rsum T n * softmax (p 0) k - T k) * N' k) n).
  { unfold rate, ce_grad. fold n. apply rsum_ext. intros k Hk. rewrite nth_map_seq by (rewrite L; auto). rewrite L.
    unfold T, N'. generalize (nth k (p 0) 0%RC) (nth k v 0%RC) (rsum T n * softmax (p 0) k - re (nth k t 0%RC)).
    intros [a b] [c d] x. cbn. ring. }
  rewrite R1. clear R1.
  assert (R2 : l' = rsum (fun k => softmax (p 0) k * N' k) n).
  { unfold l'. rewrite Rmult_comm, <- rsum_scal. apply rsum_ext. intros k Hk. unfold softmax. fold (zexp (p 0)).
    fold (N k 0). unfold Rdiv. ring. }
  rewrite (rsum_ext (fun k => (rsum T n * softmax (p 0) k - T k) * N' k)
    (fun k => rsum T n * (softmax (p 0) k * N' k) + (-1) * (T k * N' k))) by (intros; ring).
  rewrite (rsum_ext (fun k => re (nth k t 0%RC) * (N' k - l')) (fun k => T k * N' k + (- l') * T k)) by (intros; unfold T; ring).
  rewrite !rsum_plus, !rsum_scal, <- R2. ring.
Qed.
