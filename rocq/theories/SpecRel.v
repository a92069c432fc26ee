(** * Vocabulary for two networks computing side by side with related numbers *)
From Verif Require Import Base Float Matrix Cplx Act Input Loss Dense Conv Layer Dataset Network SpecDead.

(** Outcomes, results, matrices of related things. *)
Inductive orel {A B : Type} (R : A -> B -> Prop) : outcome A -> outcome B -> Prop :=
| or_ret : forall a b, R a b -> orel R (Ret a) (Ret b)
| or_panic : orel R Panic Panic.
Inductive rrel {A B E : Type} (R : A -> B -> Prop) : result A E -> result B E -> Prop :=
| rr_ok : forall a b, R a b -> rrel R (Ok a) (Ok b)
| rr_err : forall e, rrel R (Err e) (Err e).
Inductive mrel {A B : Type} (R : A -> B -> Prop) : matrix A -> matrix B -> Prop :=
| mr_intro : forall b b' r c x y, Forall2 R b b' -> mrel R (mkM b r c x y) (mkM b' r c x y).
Definition prel {A B C D : Type} (R : A -> B -> Prop) (S : C -> D -> Prop) (u : A * C) (v : B * D) : Prop :=
  R (fst u) (fst v) /\ S (snd u) (snd v).

Section SpecRel.
Context (Fl Fl' : FloatOps) (p p' : prec) (R : cplx (F Fl) -> cplx (F Fl') -> Prop).

(** The arithmetic on complex numbers keeps [R]. *)
Record num_rel : Prop := {
  nr_zero : R (c_default Fl) (c_default Fl');
  nr_add : forall a b c d, R a b -> R c d -> R (c_add Fl a c) (c_add Fl' b d);
  nr_add_assign : forall a b c d, R a b -> R c d -> R (c_add_assign Fl a c) (c_add_assign Fl' b d);
  nr_sub : forall a b c d, R a b -> R c d -> R (c_sub Fl a c) (c_sub Fl' b d);
  nr_sub_assign : forall a b c d, R a b -> R c d -> R (c_sub_assign Fl a c) (c_sub_assign Fl' b d);
  nr_mul : forall a b c d, R a b -> R c d -> R (c_mul Fl a c) (c_mul Fl' b d);
  nr_mul_assign : forall a b c d, R a b -> R c d -> R (c_mul_assign Fl a c) (c_mul_assign Fl' b d);
  nr_conj : forall a b, R a b -> R (c_conj Fl a) (c_conj Fl' b);
}.

(** So does the activation [f], with its two derivatives. *)
Definition act_rel (f : ComplexActFunc) : Prop := forall z z', R z z' ->
  orel R (activate Fl p f z) (activate Fl' p' f z') /\
  orel R (d_activate Fl p f z) (d_activate Fl' p' f z') /\
  orel R (d_conj_activate Fl p f z) (d_conj_activate Fl' p' f z').

Inductive io_rel : IOType (cplx (F Fl)) -> IOType (cplx (F Fl')) -> Prop :=
| io_vec : forall v v', Forall2 R v v' -> io_rel (IOScalar v) (IOScalar v')
| io_maps : forall m m', Forall2 (mrel R) m m' -> io_rel (IOMatrix m) (IOMatrix m').

(** The same layer, up to [R]; [ok] are the activations it may use. *)
Inductive layer_rel (ok : ComplexActFunc -> Prop) : clayer Fl -> clayer Fl' -> Prop :=
| lr_dense : forall w w' b b' f, mrel R w w' -> Forall2 R b b' -> ok f ->
    layer_rel ok (LDense (mkDense Fl w b f)) (LDense (mkDense Fl' w' b' f))
| lr_conv : forall n k k' b b' f, mrel (mrel R) k k' -> Forall2 R b b' -> ok f ->
    layer_rel ok (LConv (mkConv Fl n k b f)) (LConv (mkConv Fl' n k' b' f))
| lr_red : forall n b0 b1 f f' k k', (forall l l', Forall2 R l l' -> orel R (f l) (f' l')) -> mrel R k k' ->
    layer_rel ok (LReduce (mkRed Fl n b0 b1 f k)) (LReduce (mkRed Fl' n b0 b1 f' k'))
| lr_flat : forall l, layer_rel ok (LFlatten l) (LFlatten l).

Definition net_rel (ok : ComplexActFunc -> Prop) : network Fl -> network Fl' -> Prop := Forall2 (layer_rel ok).

Inductive data_rel : dataset (cplx (F Fl)) (cplx (F Fl)) -> dataset (cplx (F Fl')) (cplx (F Fl')) -> Prop :=
| dr_intro : forall i i' t t', Forall2 io_rel i i' -> Forall2 io_rel t t' -> data_rel (mkData i t) (mkData i' t').

(** Training steps with related batches, the same loss functions and related
    rates. *)
Definition step_rel (s : dataset (cplx (F Fl)) (cplx (F Fl)) * ComplexLossFunc * cplx (F Fl))
  (s' : dataset (cplx (F Fl')) (cplx (F Fl')) * ComplexLossFunc * cplx (F Fl')) : Prop :=
  data_rel (fst (fst s)) (fst (fst s')) /\ snd (fst s) = snd (fst s') /\ R (snd s) (snd s').
End SpecRel.
