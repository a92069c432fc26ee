(** * Calculus lemmas *)
From Coq Require Import Reals Lra Psatz.
From Coquelicot Require Import Coquelicot.
From Verif Require Import Base Float Matrix Cplx RFloat CFacts SpecCalculus.
Local Open Scope R_scope.
Local Notation re := Cplx.re.
Local Notation im := Cplx.im.

Lemma l2d_mono : forall (P Q : R -> R -> Prop) x y, (forall u v, P u v -> Q u v) ->
  locally_2d P x y -> locally_2d Q x y.
Proof. intros P Q x y H [e He]. exists e. auto. Qed.

Lemma dpl_fst : forall (h : R -> R) x y l, is_derive h x l -> differentiable_pt_lim (fun u v => h u) x y l 0.
Proof. intros. apply differentiable_pt_lim_proj1_0. now apply is_derive_Reals. Qed.

Lemma dpl_id_snd : forall x y, differentiable_pt_lim (fun u v => v) x y 0 1.
Proof.
  intros x y eps. apply locally_2d_forall. intros u v.
  replace (v - y - (0 * (u - x) + 1 * (v - y))) with 0 by ring. rewrite Rabs_R0.
  apply Rmult_le_pos; [left; apply cond_pos | apply Rle_trans with (Rabs (u - x)); [apply Rabs_pos | apply Rmax_l]].
Qed.
Lemma dpl_id_fst : forall x y, differentiable_pt_lim (fun u v => u) x y 1 0.
Proof.
  intros x y eps. apply locally_2d_forall. intros u v.
  replace (u - x - (1 * (u - x) + 0 * (v - y))) with 0 by ring. rewrite Rabs_R0.
  apply Rmult_le_pos; [left; apply cond_pos | apply Rle_trans with (Rabs (u - x)); [apply Rabs_pos | apply Rmax_l]].
Qed.
Lemma dpl_const : forall c x y, differentiable_pt_lim (fun u v => c) x y 0 0.
Proof.
  intros c x y eps. apply locally_2d_forall. intros u v.
  replace (c - c - (0 * (u - x) + 0 * (v - y))) with 0 by ring. rewrite Rabs_R0.
  apply Rmult_le_pos; [left; apply cond_pos | apply Rle_trans with (Rabs (u - x)); [apply Rabs_pos | apply Rmax_l]].
Qed.
Lemma dpl_rplus : forall x y, differentiable_pt_lim Rplus x y 1 1.
Proof.
  intros x y eps. apply locally_2d_forall. intros u v.
  replace (u + v - (x + y) - (1 * (u - x) + 1 * (v - y))) with 0 by ring. rewrite Rabs_R0.
  apply Rmult_le_pos; [left; apply cond_pos | apply Rle_trans with (Rabs (u - x)); [apply Rabs_pos | apply Rmax_l]].
Qed.
Lemma dpl_rmult : forall x y, differentiable_pt_lim Rmult x y y x.
Proof.
  intros x y eps. exists eps. intros u v Hu Hv.
  replace (u * v - x * y - (y * (u - x) + x * (v - y))) with ((u - x) * (v - y)) by ring.
  rewrite Rabs_mult. apply Rmult_le_compat; try apply Rabs_pos; [lra | apply Rmax_r].
Qed.

Lemma dpl_cast : forall f x y a b a' b', differentiable_pt_lim f x y a b -> a = a' -> b = b' ->
  differentiable_pt_lim f x y a' b'.
Proof. intros. now subst. Qed.

Lemma dpl_plus : forall f g x y a b c d, differentiable_pt_lim f x y a b -> differentiable_pt_lim g x y c d ->
  differentiable_pt_lim (fun u v => f u v + g u v) x y (a + c) (b + d).
Proof.
  intros f g x y a b c d H1 H2.
  eapply dpl_cast; [apply (differentiable_pt_lim_comp Rplus f g); [apply dpl_rplus | exact H1 | exact H2] | ring | ring].
Qed.
Lemma dpl_mult : forall f g x y a b c d, differentiable_pt_lim f x y a b -> differentiable_pt_lim g x y c d ->
  differentiable_pt_lim (fun u v => f u v * g u v) x y (g x y * a + f x y * c) (g x y * b + f x y * d).
Proof. intros. apply (differentiable_pt_lim_comp Rmult f g); auto. apply dpl_rmult. Qed.
Lemma dpl_comp1 : forall h f x y l a b, is_derive h (f x y) l -> differentiable_pt_lim f x y a b ->
  differentiable_pt_lim (fun u v => h (f u v)) x y (l * a) (l * b).
Proof.
  intros h f x y l a b H1 H2.
  eapply dpl_cast; [apply (differentiable_pt_lim_comp (fun u v => h u) f (fun _ _ => 0));
    [apply dpl_fst, H1 | exact H2 | apply dpl_const] | ring | ring].
Qed.
Lemma dpl_snd : forall (h : R -> R) x y l, is_derive h y l -> differentiable_pt_lim (fun u v => h v) x y 0 l.
Proof.
  intros h x y l H. eapply dpl_cast; [apply (dpl_comp1 h (fun u v => v)); [exact H | apply dpl_id_snd] | ring | ring].
Qed.

(** The Wirtinger derivatives are unique. *)
Lemma wirtinger_unique : forall g z d dc d' dc', wirtinger g z d dc -> wirtinger g z d' dc' -> d = d' /\ dc = dc'.
Proof.
  intros g z d dc d' dc' (a & b & c & e & H1 & H2 & -> & ->) (a' & b' & c' & e' & H1' & H2' & -> & ->).
  apply differentiable_pt_lim_unique in H1 as [<- <-]. apply differentiable_pt_lim_unique in H1' as [<- <-].
  apply differentiable_pt_lim_unique in H2 as [<- <-]. apply differentiable_pt_lim_unique in H2' as [<- <-].
  auto.
Qed.

Lemma wirtinger_at_unique : forall f z d dc d' dc', wirtinger_at f z d dc -> wirtinger_at f z d' dc' -> d = d' /\ dc = dc'.
Proof.
  intros f z d dc d' dc' (g & L & a & b & c & e & H1 & H2 & -> & ->) (g' & L' & W).
  apply (wirtinger_unique g' z); [|exact W]. exists a, b, c, e.
  assert (E : locally_2d (fun x y => g (mkC x y) = g' (mkC x y)) (re z) (im z)).
  { generalize (locally_2d_and _ _ _ _ L L'). apply l2d_mono. intros u v [E1 E2]. congruence. }
  split; [|split; [|auto]].
  - apply differentiable_pt_lim_ext with (2 := H1). revert E. apply l2d_mono.
    intros u v ->. reflexivity.
  - apply differentiable_pt_lim_ext with (2 := H2). revert E. apply l2d_mono.
    intros u v ->. reflexivity.
Qed.

(** Chain rule along a curve. *)
Lemma wirtinger_curve : forall g q v d dc, wirtinger g (q 0) d dc -> cderiv q v ->
  cderiv (fun t => g (q t)) (d * v + dc * conj v)%RC.
Proof.
  intros g q v d dc (ux & uy & vx & vy & H1 & H2 & -> & ->) [Q1 Q2].
  apply is_derive_Reals in Q1, Q2. split.
  - pose proof (derivable_pt_lim_comp_2d _ (fun t => re (q t)) (fun t => im (q t)) 0 _ _ _ _ H1 Q1 Q2) as D.
    apply is_derive_Reals in D.
    assert (E : ux * re v + uy * im v = re ((mkC ((ux + vy) / 2) ((vx - uy) / 2) * v +
      mkC ((ux - vy) / 2) ((vx + uy) / 2) * conj v)%RC)) by (cbn; field).
    rewrite <- E. revert D. apply is_derive_ext. intros t. now destruct (q t).
  - pose proof (derivable_pt_lim_comp_2d _ (fun t => re (q t)) (fun t => im (q t)) 0 _ _ _ _ H2 Q1 Q2) as D.
    apply is_derive_Reals in D.
    assert (E : vx * re v + vy * im v = im ((mkC ((ux + vy) / 2) ((vx - uy) / 2) * v +
      mkC ((ux - vy) / 2) ((vx + uy) / 2) * conj v)%RC)) by (cbn; field).
    rewrite <- E. revert D. apply is_derive_ext. intros t. now destruct (q t).
Qed.

(** Split functions (real function applied to both parts). *)
Lemma wirtinger_split : forall (s : R -> R) z a b, is_derive s (re z) a -> is_derive s (im z) b ->
  wirtinger (fun w => mkC (s (re w)) (s (im w))) z (mkC ((a + b) / 2) 0) (mkC ((a - b) / 2) 0).
Proof.
  intros s z a b H1 H2. exists a, 0, 0, b. cbn [re im]. split; [now apply dpl_fst|]. split; [now apply dpl_snd|].
  split; f_equal; field.
Qed.

(** Transport along a local equality. *)
Lemma wirtinger_ext_loc : forall g h z d dc,
  locally_2d (fun x y => g (mkC x y) = h (mkC x y)) (re z) (im z) -> wirtinger g z d dc -> wirtinger h z d dc.
Proof.
  intros g h z d dc E (a & b & c & e & H1 & H2 & -> & ->). exists a, b, c, e. split; [|split; [|auto]].
  - apply differentiable_pt_lim_ext with (2 := H1). revert E. apply l2d_mono.
    intros u v ->. reflexivity.
  - apply differentiable_pt_lim_ext with (2 := H2). revert E. apply l2d_mono.
    intros u v ->. reflexivity.
Qed.

Lemma wirtinger_id : forall z, wirtinger (fun w => w) z (mkC 1 0) (mkC 0 0).
Proof.
  intros z. exists 1, 0, 0, 1. cbn [re im]. split; [apply dpl_id_fst|]. split; [apply dpl_id_snd|]. split; f_equal; field.
Qed.
Lemma wirtinger_const : forall c z, wirtinger (fun _ => c) z (mkC 0 0) (mkC 0 0).
Proof.
  intros c z. exists 0, 0, 0, 0. split; [apply dpl_const|]. split; [apply dpl_const|]. split; f_equal; field.
Qed.

(** A condition on an open half line. *)
Lemma locally_2d_open : forall (P : R -> R -> Prop) x y (e : R), 0 < e ->
  (forall u v, Rabs (u - x) < e -> Rabs (v - y) < e -> P u v) -> locally_2d P x y.
Proof. intros P x y e He H. exists (mkposreal e He). exact H. Qed.
