(** * The complex numbers over the reals as a ring, and finite sums *)
From Coq Require Import Reals Lra Ring.
From Verif Require Import Base BaseFacts Float Matrix Cplx RFloat SpecMatrix.
Local Open Scope R_scope.

Lemma c_ext : forall {A} (a b : cplx A), re a = re b -> im a = im b -> a = b.
Proof. intros A [x y] [x' y'] H1 H2; simpl in *; congruence. Qed.

Definition c_opp (a : RC) : RC := mkC (- re a) (- im a).

Lemma c_ring : ring_theory (c_default ROps) (c_unit ROps) (c_add ROps) (c_mul ROps) (c_sub ROps) c_opp (@eq RC).
Proof.
  constructor; intros; apply c_ext; unfold c_default, c_unit, fzero, fone, c_add, c_mul, c_sub, c_opp;
    cbn [re im]; cbn; try ring.
Qed.
Add Ring c_ring_inst : c_ring.

Declare Scope RC_scope.
Delimit Scope RC_scope with RC.
Notation "a + b" := (c_add ROps a b) : RC_scope.
Notation "a - b" := (c_sub ROps a b) : RC_scope.
Notation "a * b" := (c_mul ROps a b) : RC_scope.
Notation "- a" := (c_opp a) : RC_scope.
Notation "0" := (c_default ROps) : RC_scope.
Notation "1" := (c_unit ROps) : RC_scope.
Notation conj := (c_conj ROps).

Lemma conj_add : forall a b : RC, conj (a + b)%RC = (conj a + conj b)%RC.
Proof. intros. apply c_ext; cbn; ring. Qed.
Lemma conj_sub : forall a b : RC, conj (a - b)%RC = (conj a - conj b)%RC.
Proof. intros. apply c_ext; cbn; ring. Qed.
Lemma conj_mul : forall a b : RC, conj (a * b)%RC = (conj a * conj b)%RC.
Proof. intros. apply c_ext; cbn; ring. Qed.
Lemma conj_conj : forall a : RC, conj (conj a) = a.
Proof. intros. apply c_ext; cbn; ring. Qed.
Lemma conj_0 : conj 0%RC = 0%RC.
Proof. apply c_ext; cbn; ring. Qed.
Lemma conj_opp : forall a : RC, conj (- a)%RC = (- conj a)%RC.
Proof. intros. apply c_ext; cbn; ring. Qed.

Lemma add_assign_eq : forall Fl, c_add_assign Fl = c_add Fl.
Proof. reflexivity. Qed.
Lemma sub_assign_eq : forall Fl, c_sub_assign Fl = c_sub Fl.
Proof. reflexivity. Qed.

(** ** Sums *)
Definition csum (f : nat -> RC) (n : nat) : RC := sum_from (c_add ROps) 0%RC f n.

Lemma sum_from_S : forall {A B} (op : A -> B -> A) z f n, sum_from op z f (S n) = op (sum_from op z f n) (f n).
Proof. intros. unfold sum_from. rewrite seq_S, fold_left_app. reflexivity. Qed.

Lemma csum_0 : forall f, csum f 0%nat = 0%RC.
Proof. reflexivity. Qed.
Lemma csum_S : forall f n, csum f (S n) = (csum f n + f n)%RC.
Proof. intros. apply sum_from_S. Qed.

Lemma csum_ext : forall f g n, (forall i, (i < n)%nat -> f i = g i) -> csum f n = csum g n.
Proof.
  intros f g n; induction n as [|n IH]; intros H; [reflexivity|].
  rewrite !csum_S, IH, H by auto. reflexivity.
Qed.

Lemma csum_add : forall f g n, csum (fun i => (f i + g i)%RC) n = (csum f n + csum g n)%RC.
Proof. intros f g n; induction n as [|n IH]; [cbn; apply c_ext; cbn; ring|]. rewrite !csum_S, IH. ring. Qed.

Lemma csum_sub : forall f g n, csum (fun i => (f i - g i)%RC) n = (csum f n - csum g n)%RC.
Proof. intros f g n; induction n as [|n IH]; [cbn; apply c_ext; cbn; ring|]. rewrite !csum_S, IH. ring. Qed.

Lemma csum_mul_l : forall a f n, csum (fun i => (a * f i)%RC) n = (a * csum f n)%RC.
Proof. intros a f n; induction n as [|n IH]; [rewrite !csum_0; ring|]. rewrite !csum_S, IH. ring. Qed.

Lemma csum_mul_r : forall a f n, csum (fun i => (f i * a)%RC) n = (csum f n * a)%RC.
Proof. intros a f n; induction n as [|n IH]; [rewrite !csum_0; ring|]. rewrite !csum_S, IH. ring. Qed.

Lemma csum_conj : forall f n, conj (csum f n) = csum (fun i => conj (f i)) n.
Proof. intros f n; induction n as [|n IH]; [apply conj_0|]. rewrite !csum_S, conj_add, IH. reflexivity. Qed.

Lemma csum_zero : forall f n, (forall i, (i < n)%nat -> f i = 0%RC) -> csum f n = 0%RC.
Proof. intros f n; induction n as [|n IH]; intros H; [reflexivity|]. rewrite csum_S, IH, H by auto. ring. Qed.

Lemma csum_swap : forall (f : nat -> nat -> RC) n k,
  csum (fun i => csum (f i) k) n = csum (fun j => csum (fun i => f i j) n) k.
Proof.
  intros f n k; induction n as [|n IH].
  - rewrite csum_0. symmetry. apply csum_zero. auto.
  - rewrite csum_S, IH, <- csum_add. apply csum_ext. intros j _. now rewrite csum_S.
Qed.

Lemma csum_app : forall f n k, csum f (n + k) = (csum f n + csum (fun i => f (n + i)%nat) k)%RC.
Proof.
  intros f n k; induction k as [|k IH].
  - rewrite Nat.add_0_r, csum_0. ring.
  - rewrite Nat.add_succ_r, !csum_S, IH. ring.
Qed.

Lemma csum_S_first : forall f n, csum f (S n) = (f 0%nat + csum (fun i => f (S i)) n)%RC.
Proof. intros. change (S n) with (1 + n)%nat. rewrite csum_app, csum_S, csum_0. cbn [Nat.add]. ring. Qed.

(** A sum with a single non-zero term. *)
Lemma csum_delta : forall (f : nat -> RC) n k, (k < n)%nat ->
  (forall i, (i < n)%nat -> i <> k -> f i = 0%RC) -> csum f n = f k.
Proof.
  intros f n k Hk H. replace n with (k + (1 + (n - k - 1)))%nat by lia.
  rewrite !csum_app, csum_S, csum_0. rewrite (csum_zero f k) by (intros; apply H; lia).
  rewrite (csum_zero (fun i => f (k + (1 + i))%nat)) by (intros; apply H; lia).
  rewrite Nat.add_0_r. ring.
Qed.

(** Summing in the reverse order gives the same result. *)
Lemma csum_rev : forall f n, csum (fun i => f (n - 1 - i)%nat) n = csum f n.
Proof.
  intros f n; induction n as [|n IH]; [reflexivity|].
  rewrite csum_S_first, csum_S. replace (S n - 1 - 0)%nat with n by lia.
  rewrite (csum_ext (fun i => f (S n - 1 - S i)%nat) (fun i => f (n - 1 - i)%nat)) by (intros; f_equal; lia).
  rewrite IH. ring.
Qed.

(** A sum over a flat index is the double sum over rows and columns. *)
Lemma csum_flat : forall (f : nat -> RC) r c,
  csum f (r * c) = csum (fun i => csum (fun j => f (i * c + j)%nat) c) r.
Proof.
  intros f r c; induction r as [|r IH]; [reflexivity|].
  replace (S r * c)%nat with (r * c + c)%nat by lia. rewrite csum_app, IH, csum_S. reflexivity.
Qed.

(** Sums over lists. *)
Definition lsum (l : list RC) : RC := fold_left (c_add ROps) l 0%RC.

Lemma fold_add_acc : forall l a, fold_left (c_add ROps) l a = (a + lsum l)%RC.
Proof.
  intros l; induction l as [|x l IH]; intros a; unfold lsum; cbn [fold_left]; [ring|].
  rewrite !IH. ring.
Qed.
Lemma lsum_cons : forall x l, lsum (x :: l) = (x + lsum l)%RC.
Proof. intros. unfold lsum. cbn [fold_left]. rewrite fold_add_acc. unfold lsum. ring. Qed.
Lemma lsum_app : forall l1 l2, lsum (l1 ++ l2) = (lsum l1 + lsum l2)%RC.
Proof. intros. unfold lsum at 1. rewrite fold_left_app, fold_add_acc. reflexivity. Qed.
Lemma lsum_map_seq : forall f n, lsum (map f (seq 0 n)) = csum f n.
Proof. intros. unfold lsum, csum, sum_from. now rewrite fold_left_map. Qed.
