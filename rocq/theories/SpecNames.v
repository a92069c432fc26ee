(** * Vocabulary for the numbering of features, units and classes *)
From Verif Require Import Base Float Matrix Cplx Act Input Loss Dense Conv Layer Dataset Network SpecMatrix SpecLayer SpecConv SpecNet SpecEval SpecPerm.

(** How the entries of the vectors between two layers are numbered anew:
    [Some (N, s)] says that there are [N] of them and that the new entry [i] is
    the old entry [s i]; [None], that all is as it was. *)
Definition numbering := option (nat * (nat -> nat)).
Definition place (r : numbering) (i : nat) : nat := match r with Some (_, s) => s i | None => i end.
Definition numbers (r : numbering) (N : nat) : Prop := match r with Some (M, s) => M = N /\ reorders s N | None => True end.

Section SpecNames.
Context (Fl : FloatOps).
Local Notation C := (cplx (F Fl)).
Local Notation z := (c_default Fl).

(** A vector, and the data of a point, with new numbers. *)
Definition renamed (r : numbering) (x x' : IOType C) : Prop :=
  match r with
  | None => x' = x
  | Some _ => exists v v', x = IOScalar v /\ x' = IOScalar v' /\ numbers r (length v) /\ length v' = length v /\
      forall i, i < length v -> nth i v' z = nth (place r i) v z
  end.

(** A layer whose inputs are numbered anew by [r] and whose outputs by [r']: any
    layer if both are as they were, else a dense layer with its weights and
    biases moved along. *)
Definition layer_renamed (r r' : numbering) (l l' : clayer Fl) : Prop :=
  (r = None /\ r' = None /\ l' = l) \/
  exists d d', l = LDense d /\ l' = LDense d' /\ dense_wf Fl d /\ dense_wf Fl d' /\
    units Fl d' = units Fl d /\ inputs Fl d' = inputs Fl d /\ d_func d' = d_func d /\ numbers r (inputs Fl d) /\ numbers r' (units Fl d) /\
    (forall i, i < units Fl d -> nth i (d_biases d') z = nth (place r' i) (d_biases d) z) /\
    (forall i j, i < units Fl d -> j < inputs Fl d -> weight Fl d' i j = weight Fl d (place r' i) (place r j)).

(** A network whose inputs (the features) are numbered anew by [r] and whose
    outputs (the classes) by [r'], with any numbering in between. *)
Inductive net_renamed : numbering -> numbering -> network Fl -> network Fl -> Prop :=
| renamed_nil : forall r, net_renamed r r [] []
| renamed_cons : forall r s r' l l' n n', layer_renamed r s l l' -> net_renamed s r' n n' -> net_renamed r r' (l :: n) (l' :: n').

Definition data_renamed (r r' : numbering) (d d' : dataset C C) : Prop :=
  Forall2 (renamed r) (ds_inputs d) (ds_inputs d') /\ Forall2 (renamed r') (ds_target d) (ds_target d').

(** The same loss and rate, the batch with new numbers. *)
Definition step_renamed (r r' : numbering) (s s' : dataset C C * ComplexLossFunc * C) : Prop :=
  data_renamed r r' (fst (fst s)) (fst (fst s')) /\ snd (fst s') = snd (fst s) /\ snd s' = snd s.

(** One entry is larger in modulus than all the others. *)
Definition no_tie (v : list C) : Prop :=
  exists k, k < length v /\ forall j, j < length v -> j <> k -> fltb Fl (c_norm_sq Fl (nth j v z)) (c_norm_sq Fl (nth k v z)) = true.
End SpecNames.
