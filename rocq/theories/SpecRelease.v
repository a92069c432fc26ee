(** * Vocabulary for comparing the two build profiles *)
From Verif Require Import Base Float Matrix Cplx Act Input Dense Conv Layer Dataset Network SpecMatrix SpecLayer SpecConv SpecGeom Loss ReleaseNet.

Section SpecRelease.
Context (U : nat) (Fl : FloatOps) (p : prec).
Local Notation C := (cplx (F Fl)).

(** The sizes of the padded maps in the backward pass of [l] at the input [x]
    fit in a word. *)
Definition roomy (l : clayer Fl) (x : IOType C) : Prop :=
  match l, x with
  | LConv l, IOMatrix ms => forall m k, In m ms -> In k (body (k_kernels l)) -> sh0 m + sh0 k <= U /\ sh1 m + sh1 k <= U
  | LReduce l, IOMatrix ms => forall m, In m ms -> sh0 m + 2 * sh0 (r_kernel l) < U /\ sh1 m + 2 * sh0 (r_kernel l) < U
  | _, _ => True
  end.

(** So they do for every layer and every point of a batch. *)
Definition roomy_run (n : network Fl) (d : dataset C C) : Prop :=
  forall x acts, In x (ds_inputs d) -> net_collect_acts Fl p n x = Ret (Ok acts) -> Forall (fun al => roomy (snd al) (fst al)) (combine acts n).

(** Inputs of a geometry small enough for any network that fits them. *)
Definition small (g : geometry) : Prop :=
  match g with Vec _ => True | Maps _ r c => 2 * r + 6 < U /\ 2 * c + 6 < U end.

(** Training on one batch after the other in a release build. *)
Fixpoint train_on_rel (n : network Fl) (ds : list (dataset C C)) (f : ComplexLossFunc) (lr : C) : outcome (network Fl) :=
  match ds with
  | [] => Ret n
  | d :: rest => r <- net_gradient_opt_rel U Fl p n d f lr ;; match snd r with Ok _ => train_on_rel (fst r) rest f lr | Err _ => Panic end
  end.
End SpecRelease.
