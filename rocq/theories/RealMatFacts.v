(** * Real numbers among the complex ones, for the matrix operations *)
From Coq Require Import Reals Lra Field.
From Verif Require Import Base BaseFacts Float Matrix Cplx RFloat CFacts SpecRel RelFacts SpecReal.

Local Notation RO := (fops ROps).
Local Notation CO := (cops ROps).
Lemma em_zero : embeds (dflt RO) (dflt CO). Proof. reflexivity. Qed.
Lemma em_add : forall a b c d, embeds a b -> embeds c d -> embeds (add RO a c) (add CO b d).
Proof. unfold embeds. intros a b c d -> ->. apply c_ext; cbn; ring. Qed.
Lemma em_add_assign : forall a b c d, embeds a b -> embeds c d -> embeds (add_assign RO a c) (add_assign CO b d).
Proof. unfold embeds. intros a b c d -> ->. apply c_ext; cbn; ring. Qed.
Lemma em_mul : forall a b c d, embeds a b -> embeds c d -> embeds (mul RO a c) (mul CO b d).
Proof. unfold embeds. intros a b c d -> ->. apply c_ext; cbn; ring. Qed.
Lemma em_mul_assign : forall a b c d, embeds a b -> embeds c d -> embeds (mul_assign RO a c) (mul_assign CO b d).
Proof. unfold embeds. intros a b c d -> ->. apply c_ext; cbn; ring. Qed.
Lemma em_div_assign : forall a b c d, embeds a b -> embeds c d -> c <> 0%R -> orel embeds (div_assign RO a c) (div_assign CO b d).
Proof.
  unfold embeds. intros a b c d -> -> N. cbn [div_assign fops cops]. unfold c_div_assign. cbn [re im]. unfold fsq, fzero. cbn [fmul fadd fdiv fsub feqb flit ROps Rlit].
  rewrite (proj2 (Reqb_neq _ _)) by (rewrite Rmult_0_l, Rplus_0_r; intros E; apply Rmult_integral in E; tauto).
  constructor. apply c_ext; cbn [re im]; [match goal with |- ?x = ?y => change (@eq R x y) end | match goal with |- ?x = ?y => change (@eq R x y) end]; field; lra.
Qed.
Lemma em_div : forall a b c d, embeds a b -> embeds c d -> c <> 0%R -> orel embeds (div RO a c) (div CO b d).
Proof.
  unfold embeds. intros a b c d -> -> N. cbn [div fops cops]. unfold c_div. cbn [re im]. unfold fsq, fzero. cbn [fmul fadd fdiv fsub feqb flit ROps Rlit].
  rewrite (proj2 (Reqb_neq _ _)) by (rewrite Rmult_0_l, Rplus_0_r; intros E; apply Rmult_integral in E; tauto).
  constructor. apply c_ext; cbn [re im]; [match goal with |- ?x = ?y => change (@eq R x y) end | match goal with |- ?x = ?y => change (@eq R x y) end]; field; lra.
Qed.
Lemma em_sub : forall a b c d, embeds a b -> embeds c d -> embeds (sub RO a c) (sub CO b d).
Proof. unfold embeds. intros a b c d -> ->. apply c_ext; cbn; ring. Qed.
Lemma em_sub_assign : forall a b c d, embeds a b -> embeds c d -> embeds (sub_assign RO a c) (sub_assign CO b d).
Proof. unfold embeds. intros a b c d -> ->. apply c_ext; cbn; ring. Qed.
Lemma em_scalars : forall x x' y y', embeds x x' -> embeds y y' ->
  embeds (add RO x y) (add CO x' y') /\ embeds (add_assign RO x y) (add_assign CO x' y') /\
  embeds (sub RO x y) (sub CO x' y') /\ embeds (sub_assign RO x y) (sub_assign CO x' y') /\
  embeds (mul RO x y) (mul CO x' y') /\ embeds (mul_assign RO x y) (mul_assign CO x' y') /\
  (y <> 0%R -> orel embeds (div RO x y) (div CO x' y') /\ orel embeds (div_assign RO x y) (div_assign CO x' y')).
Proof.
  intros x x' y y' H K. repeat split; try (apply em_add || apply em_add_assign || apply em_sub || apply em_sub_assign || apply em_mul || apply em_mul_assign); try assumption; [now apply em_div | now apply em_div_assign].
Qed.
Lemma em_div_slice : forall l l' s s', Forall2 embeds l l' -> embeds s s' -> s <> 0%R -> orel (Forall2 embeds) (slice_div_mut_scalar RO l s) (slice_div_mut_scalar CO l' s').
Proof. intros l l' s s' H K N. apply (mapM_rel embeds); [|exact H]. intros. now apply em_div_assign. Qed.
Lemma em_div_scalar : forall m m' s s', mrel embeds m m' -> embeds s s' -> s <> 0%R -> orel (mrel embeds) (div_mut_scalar RO m s) (div_mut_scalar CO m' s').
Proof.
  intros m m' s s' H K N. unfold div_mut_scalar. eapply obind_rel; [exact (em_div_slice (body m) (body m') s s' (body_rel embeds _ _ H) K N)|].
  intros. constructor. now apply with_body_rel.
Qed.
Lemma em_div_zero : forall (b : matrix RC) m, body b <> [] -> (exists r, div_mut_scalar RO m 0%R = Ret r) /\ div_mut_scalar CO b (c_default ROps) = Panic.
Proof.
  intros b m H. split.
  - unfold div_mut_scalar. assert (X : forall l : list R, exists r, mapM (fun e => div_assign RO e 0%R) l = Ret r); [|destruct (X (body m)) as (r & ->); eexists; reflexivity].
    induction l as [|a l (r & IH)]; [eexists; reflexivity|]. cbn [mapM]. rewrite IH. eexists. reflexivity.
  - unfold div_mut_scalar. destruct (body b) as [|z l]; [congruence|]. cbn [mapM div_assign cops]. unfold c_div_assign. cbn [re im c_default].
    unfold fsq, fzero. cbn [fmul fadd feqb flit ROps Rlit]. rewrite (proj2 (Reqb_eq _ _)) by ring. reflexivity.
Qed.
