(** * Double sums, and the identities relating convolution, pad and flip *)
From Coq Require Import Reals Lra Ring.
From Verif Require Import Base BaseFacts Float Matrix Cplx RFloat SpecMatrix MatrixFacts CFacts.
Local Open Scope nat_scope.

(** Sum of an [r x c] table. *)
Definition dsum (r c : nat) (f : nat -> nat -> RC) : RC := csum (fun i => csum (f i) c) r.

(** Bilinear pairing of two matrices of the first one's shape. *)
Definition inner (m g : matrix RC) : RC :=
  dsum (sh0 m) (sh1 m) (fun i j => (entry 0%RC m i j * entry 0%RC g i j)%RC).

Lemma dsum_ext : forall r c f g, (forall i j, i < r -> j < c -> f i j = g i j) -> dsum r c f = dsum r c g.
Proof. intros r c f g H. apply csum_ext. intros i Hi. apply csum_ext. auto. Qed.

Lemma dsum_add : forall r c f g, dsum r c (fun i j => (f i j + g i j)%RC) = (dsum r c f + dsum r c g)%RC.
Proof.
  intros. unfold dsum. rewrite <- csum_add. apply csum_ext. intros i _. apply csum_add.
Qed.
Lemma dsum_mul_l : forall a r c f, dsum r c (fun i j => (a * f i j)%RC) = (a * dsum r c f)%RC.
Proof. intros. unfold dsum. rewrite <- csum_mul_l. apply csum_ext. intros i _. apply csum_mul_l. Qed.
Lemma dsum_mul_r : forall a r c f, dsum r c (fun i j => (f i j * a)%RC) = (dsum r c f * a)%RC.
Proof. intros. unfold dsum. rewrite <- csum_mul_r. apply csum_ext. intros i _. apply csum_mul_r. Qed.

Lemma dsum_zero : forall r c f, (forall i j, i < r -> j < c -> f i j = 0%RC) -> dsum r c f = 0%RC.
Proof. intros r c f H. apply csum_zero. intros i Hi. apply csum_zero. auto. Qed.

Lemma dsum_swap : forall r c a b (f : nat -> nat -> nat -> nat -> RC),
  dsum r c (fun i j => dsum a b (f i j)) = dsum a b (fun u v => dsum r c (fun i j => f i j u v)).
Proof.
  intros. unfold dsum.
  rewrite (csum_ext _ (fun i => csum (fun u => csum (fun j => csum (f i j u) b) c) a)).
  2: { intros i _. apply csum_swap. }
  rewrite csum_swap. apply csum_ext. intros u _.
  rewrite (csum_ext _ (fun i => csum (fun v => csum (fun j => f i j u v) c) b)).
  2: { intros i _. apply csum_swap. }
  apply csum_swap.
Qed.

Lemma dsum_rev : forall r c f, dsum r c (fun i j => f (r - 1 - i) (c - 1 - j)) = dsum r c f.
Proof.
  intros. unfold dsum. rewrite <- (csum_rev (fun i => csum (f i) c)). apply csum_ext. intros i _.
  apply (csum_rev (f (r - 1 - i))).
Qed.

Lemma csum_window : forall n k u (f : nat -> RC), u + k <= n ->
  csum (fun x => if (u <=? x) && (x <? u + k) then f x else 0%RC) n = csum (fun i => f (u + i)) k.
Proof.
  intros n k u f H. replace n with (u + (k + (n - u - k))) by lia. rewrite !csum_app.
  rewrite (csum_zero _ u).
  2: { intros i Hi. replace (u <=? i) with false by (symmetry; apply Nat.leb_gt; lia). reflexivity. }
  rewrite (csum_zero _ (n - u - k)).
  2: { intros i Hi. replace (u + (k + i) <? u + k) with false by (symmetry; apply Nat.ltb_ge; lia).
       now rewrite andb_false_r. }
  rewrite (csum_ext _ (fun i => f (u + i)) k).
  2: { intros i Hi. replace (u <=? u + i) with true by (symmetry; apply Nat.leb_le; lia).
       replace (u + i <? u + k) with true by (symmetry; apply Nat.ltb_lt; lia). reflexivity. }
  ring.
Qed.

Lemma dsum_window : forall r c R C u v (f : nat -> nat -> RC), u + R <= r -> v + C <= c ->
  dsum r c (fun x y => if (u <=? x) && (x <? u + R) && (v <=? y) && (y <? v + C) then f x y else 0%RC) =
  dsum R C (fun i j => f (u + i) (v + j)).
Proof.
  intros r c R C u v f H1 H2. unfold dsum.
  rewrite <- (csum_window r R u (fun x => csum (fun j => f x (v + j)) C)) by auto.
  apply csum_ext. intros x _. destruct ((u <=? x) && (x <? u + R)); cbn [andb].
  - now apply csum_window.
  - now apply csum_zero.
Qed.

Lemma corr_dsum : forall a b f k i j,
  corr (cops ROps) a b f k i j = dsum a b (fun u v => (f (i + u)%nat (j + v)%nat * k u v)%RC).
Proof. reflexivity. Qed.

(** The common value of the three pairings. *)
Definition tri (R C a b : nat) (m k g : nat -> nat -> RC) : RC :=
  dsum R C (fun i j => dsum a b (fun u v => (m (i + u)%nat (j + v)%nat * k u v * g i j)%RC)).

Lemma tri_out : forall R C a b m k g,
  dsum R C (fun i j => (corr (cops ROps) a b m k i j * g i j)%RC) = tri R C a b m k g.
Proof. intros. unfold tri. apply dsum_ext. intros i j _ _. now rewrite corr_dsum, <- dsum_mul_r. Qed.

Lemma tri_kernel : forall R C a b m k g,
  dsum a b (fun u v => (k u v * corr (cops ROps) R C m g u v)%RC) = tri R C a b m k g.
Proof.
  intros. unfold tri. rewrite dsum_swap. apply dsum_ext. intros u v _ _.
  rewrite corr_dsum, <- dsum_mul_l. apply dsum_ext. intros i j _ _.
  rewrite (Nat.add_comm u i), (Nat.add_comm v j). ring.
Qed.

Lemma tri_input : forall R C a b m k g, 1 <= a -> 1 <= b ->
  dsum (R + a - 1) (C + b - 1) (fun x y => (m x y *
    corr (cops ROps) a b (framed 0%RC R C (a - 1)%nat (b - 1)%nat g) (fun u v => k (a - 1 - u)%nat (b - 1 - v)%nat) x y)%RC)
  = tri R C a b m k g.
Proof.
  intros R C a b m k g Ha Hb. unfold tri. rewrite dsum_swap.
  rewrite (dsum_ext _ _ _ (fun x y => dsum a b (fun u v =>
     (m x y * (framed 0%RC R C (a - 1)%nat (b - 1)%nat g (x + (a - 1 - u))%nat (y + (b - 1 - v))%nat * k u v))%RC))).
  2: { intros x y _ _. rewrite corr_dsum, <- dsum_mul_l.
       rewrite <- (dsum_rev a b). apply dsum_ext. intros u v Hu Hv.
       replace (a - 1 - (a - 1 - u)) with u by lia. replace (b - 1 - (b - 1 - v)) with v by lia. reflexivity. }
  rewrite dsum_swap. apply dsum_ext. intros u v Hu Hv.
  rewrite (dsum_ext _ _ _ (fun x y => if (u <=? x) && (x <? u + R) && (v <=? y) && (y <? v + C)
     then (m x y * k u v * g (x - u)%nat (y - v)%nat)%RC else 0%RC)).
  - rewrite dsum_window by lia. apply dsum_ext. intros i j _ _.
    replace (u + i - u) with i by lia. replace (v + j - v) with j by lia.
    rewrite (Nat.add_comm u i), (Nat.add_comm v j). reflexivity.
  - intros x y _ _. unfold framed.
    replace (a - 1 <=? x + (a - 1 - u)) with (u <=? x).
    2: { destruct (Nat.leb_spec u x), (Nat.leb_spec (a - 1) (x + (a - 1 - u))); auto; lia. }
    replace (x + (a - 1 - u) <? a - 1 + R) with (x <? u + R).
    2: { destruct (Nat.ltb_spec x (u + R)), (Nat.ltb_spec (x + (a - 1 - u)) (a - 1 + R)); auto; lia. }
    replace (b - 1 <=? y + (b - 1 - v)) with (v <=? y).
    2: { destruct (Nat.leb_spec v y), (Nat.leb_spec (b - 1) (y + (b - 1 - v))); auto; lia. }
    replace (y + (b - 1 - v) <? b - 1 + C) with (y <? v + C).
    2: { destruct (Nat.ltb_spec y (v + C)), (Nat.ltb_spec (y + (b - 1 - v)) (b - 1 + C)); auto; lia. }
    destruct ((u <=? x) && (x <? u + R) && (v <=? y) && (y <? v + C)) eqn:E; [|ring].
    apply andb_true_iff in E as [E _]. apply andb_true_iff in E as [E E2]. apply andb_true_iff in E as [E _].
    apply Nat.leb_le in E, E2.
    replace (x + (a - 1 - u) - (a - 1)) with (x - u) by lia.
    replace (y + (b - 1 - v) - (b - 1)) with (y - v) by lia. ring.
Qed.
