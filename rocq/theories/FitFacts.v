(** * Least squares by gradient steps *)
From Coq Require Import Reals Lra Psatz.
From Verif Require Import Base BaseFacts Float Matrix Cplx RFloat SpecMatrix CFacts SpecLoss LossFacts LayerCalc.
Local Open Scope R_scope.

Definition nsq (a : RC) : R := re a * re a + im a * im a.
Lemma nsq_eq : forall a : RC, c_norm_sq ROps a = nsq a. Proof. reflexivity. Qed.
Lemma nsq_nonneg : forall a : RC, 0 <= nsq a. Proof. intros a. unfold nsq. nra. Qed.

Lemma rsum_swap : forall (f : nat -> nat -> R) n k, rsum (fun i => rsum (f i) k) n = rsum (fun j => rsum (fun i => f i j) n) k.
Proof.
  intros f n k. induction n as [|n IH].
  - symmetry. apply rsum_zero. reflexivity.
  - rewrite rsum_S, IH, <- rsum_plus. apply rsum_ext. intros j _. now rewrite rsum_S.
Qed.
Lemma rsum_le : forall f g n, (forall i, (i < n)%nat -> f i <= g i) -> rsum f n <= rsum g n.
Proof. intros f g n. induction n as [|n IH]; intros H; [apply Rle_refl|]. rewrite !rsum_S. apply Rplus_le_compat; auto. Qed.
Lemma rsum_minus : forall f g n, rsum (fun i => f i - g i) n = rsum f n - rsum g n.
Proof. intros f g n; induction n as [|n IH]; [cbn; ring|]. rewrite !rsum_S, IH. ring. Qed.

Section Unit.
Context (d N : nat) (x : nat -> nat -> RC) (t : nat -> RC).
Definition er (w : nat -> RC) (q : nat) : RC := (csum (fun j => w j * x q j) d - t q)%RC.
Definition gr (w : nat -> RC) (j : nat) : RC := csum (fun q => er w q * conj (x q j))%RC N.
Definition mv (c : R) (w : nat -> RC) (j : nat) : RC := (w j - mkC c 0%R * gr w j)%RC.
Definition hh (w : nat -> RC) (q : nat) : RC := csum (fun j => gr w j * x q j)%RC d.
Definition sz (q : nat) : R := rsum (fun j => nsq (x q j)) d.

Lemma er_mv : forall c w q, er (mv c w) q = (er w q - mkC c 0%R * hh w q)%RC.
Proof.
  intros c w q. unfold er, hh. rewrite <- csum_mul_l.
  rewrite (csum_ext (fun j => mv c w j * x q j)%RC (fun j => w j * x q j - mkC c 0%R * (gr w j * x q j))%RC).
  2: { intros j _. unfold mv. ring. }
  rewrite csum_sub. ring.
Qed.

(** The move is along the gradient: sum_q Re(conj e_q h_q) = sum_j |g_j|^2. *)
Lemma cross : forall w, rsum (fun q => re (conj (er w q) * hh w q)%RC) N = rsum (fun j => nsq (gr w j)) d.
Proof.
  intros w. rewrite <- re_csum. unfold hh.
  rewrite (csum_ext _ (fun q => csum (fun j => gr w j * (conj (er w q) * x q j))%RC d)).
  2: { intros q _. rewrite <- csum_mul_l. apply csum_ext. intros j _. ring. }
  rewrite csum_swap, re_csum. apply rsum_ext. intros j _. rewrite csum_mul_l.
  assert (E : csum (fun q => conj (er w q) * x q j)%RC N = conj (gr w j)).
  { unfold gr. rewrite csum_conj. apply csum_ext. intros q _. rewrite conj_mul, conj_conj. reflexivity. }
  rewrite E. unfold nsq. cbn. ring.
Qed.

(** Cauchy-Schwarz. *)
Lemma schwarz : forall w q, 0 < sz q -> nsq (hh w q) <= rsum (fun j => nsq (gr w j)) d * sz q.
Proof.
  intros w q P. set (G := rsum (fun j => nsq (gr w j)) d). set (H := hh w q). set (S := sz q) in *.
  assert (Q : rsum (fun j => nsq (mkC S 0%R * gr w j - H * conj (x q j))%RC) d = S * S * G - S * nsq H).
  { rewrite (rsum_ext _ (fun j => (S * S * nsq (gr w j) + nsq H * nsq (x q j)) - 2 * S * re (conj H * (gr w j * x q j))%RC)).
    2: { intros j _. generalize (gr w j) (x q j) H. intros [a b] [c e] [u v]. unfold nsq. cbn. ring. }
    rewrite rsum_minus, rsum_plus, !rsum_scal, <- re_csum, csum_mul_l. fold (hh w q). fold H. fold (sz q). fold S. fold G.
    generalize H. intros [u v]. unfold nsq. cbn. ring. }
  assert (0 <= S * S * G - S * nsq H) by (rewrite <- Q; apply rsum_nonneg; intros; apply nsq_nonneg).
  assert (0 <= S * (G * S - nsq H)) by lra.
  apply (Rmult_le_reg_l S); [exact P|]. lra.
Qed.

Lemma descent : forall c w, 0 <= c -> (forall q, (q < N)%nat -> 0 < sz q) -> c * rsum sz N <= 1 ->
  rsum (fun q => nsq (er (mv c w) q)) N <= rsum (fun q => nsq (er w q)) N - c * rsum (fun j => nsq (gr w j)) d.
Proof.
  intros c w C P B. set (G := rsum (fun j => nsq (gr w j)) d).
  rewrite (rsum_ext _ (fun q => (nsq (er w q) - 2 * c * re (conj (er w q) * hh w q)%RC) + c * c * nsq (hh w q))).
  2: { intros q _. rewrite er_mv. generalize (er w q) (hh w q). intros [a b] [u v]. unfold nsq. cbn. ring. }
  rewrite rsum_plus, rsum_minus, !rsum_scal, cross. fold G.
  assert (H : rsum (fun q => nsq (hh w q)) N <= G * rsum sz N).
  { rewrite <- rsum_scal. apply rsum_le. intros q Hq. apply schwarz. auto. }
  assert (G0 : 0 <= G) by (apply rsum_nonneg; intros; apply nsq_nonneg).
  set (S := rsum sz N) in *. set (K := rsum (fun q => nsq (hh w q)) N) in *.
  assert (c * c * K <= c * c * (G * S)) by (apply Rmult_le_compat_l; [nra | exact H]).
  assert (c * c * (G * S) <= c * G) by (replace (c * c * (G * S)) with ((c * G) * (c * S)) by ring; assert (0 <= c * G) by nra; nra).
  lra.
Qed.

Lemma closer : forall c w ws, 0 <= c -> (forall q, (q < N)%nat -> 0 < sz q) -> c * rsum sz N <= 1 ->
  rsum (fun j => nsq (mv c w j - ws j)%RC) d + c * (rsum (fun q => nsq (er (mv c w) q)) N - rsum (fun q => nsq (er ws q)) N)
  <= rsum (fun j => nsq (w j - ws j)%RC) d.
Proof.
  intros c w ws C P B. pose proof (descent c w C P B) as D. set (G := rsum (fun j => nsq (gr w j)) d) in *.
  rewrite (rsum_ext (fun j => nsq (mv c w j - ws j)%RC) (fun j => (nsq (w j - ws j)%RC - 2 * c * re (conj (gr w j) * (w j - ws j))%RC) + c * c * nsq (gr w j))).
  2: { intros j _. unfold mv. generalize (w j) (ws j) (gr w j). intros [a b] [u v] [k l]. unfold nsq. cbn. ring. }
  rewrite rsum_plus, rsum_minus, !rsum_scal. fold G.
  assert (X : rsum (fun j => re (conj (gr w j) * (w j - ws j))%RC) d = rsum (fun q => re (conj (er w q) * (er w q - er ws q))%RC) N).
  { rewrite <- !re_csum. f_equal.
    rewrite (csum_ext (fun j => conj (gr w j) * (w j - ws j))%RC (fun j => csum (fun q => conj (er w q) * ((w j - ws j) * x q j))%RC N)).
    2: { intros j _. unfold gr. rewrite csum_conj, <- csum_mul_r. apply csum_ext. intros q _. rewrite conj_mul, conj_conj. ring. }
    rewrite csum_swap. apply csum_ext. intros q _. rewrite csum_mul_l. f_equal. unfold er.
    rewrite (csum_ext (fun j => (w j - ws j) * x q j)%RC (fun j => w j * x q j - ws j * x q j)%RC) by (intros; ring). rewrite csum_sub. ring. }
  rewrite X.
  assert (Y : rsum (fun q => nsq (er w q)) N - rsum (fun q => nsq (er ws q)) N <= 2 * rsum (fun q => re (conj (er w q) * (er w q - er ws q))%RC) N).
  { rewrite <- rsum_minus, <- rsum_scal. apply rsum_le. intros q _. generalize (er w q) (er ws q). intros [a b] [u v]. unfold nsq. cbn.
    change (F ROps) with R in *. pose proof (Rle_0_sqr (a - u)) as H1. pose proof (Rle_0_sqr (b - v)) as H2. unfold Rsqr in H1, H2. lra. }
  set (Z := rsum (fun q => re (conj (er w q) * (er w q - er ws q))%RC) N) in *.
  set (E0 := rsum (fun q => nsq (er w q)) N) in *. set (E1 := rsum (fun q => nsq (er (mv c w) q)) N) in *. set (ES := rsum (fun q => nsq (er ws q)) N) in *.
  assert (c * (E0 - ES) <= c * (2 * Z)) by (apply Rmult_le_compat_l; assumption).
  assert (c * (E1 - ES) <= c * (E0 - c * G - ES)) by (apply Rmult_le_compat_l; lra). nra.
Qed.
End Unit.
