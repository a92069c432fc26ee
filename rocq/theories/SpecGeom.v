(** * Geometry of values and layers *)
From Verif Require Import Base Float Matrix Cplx Act Input Loss Dense Conv Layer Dataset Network SpecMatrix SpecLayer SpecConv SpecNet.

(** The kind and size of a value: a vector of [n] numbers, or [n] feature maps
    of [r] rows and [c] columns. *)
Inductive geometry := Vec (n : nat) | Maps (n r c : nat).

(** How many numbers such a value holds. *)
Definition gsize (g : geometry) : nat := match g with Vec n => n | Maps n r c => n * (r * c) end.

Definition has_geom {T : Type} (g : geometry) (x : IOType T) : Prop :=
  match g, x with
  | Vec n, IOScalar v => length v = n
  | Maps n r c, IOMatrix ms => maps_wf n r c ms
  | _, _ => False
  end.

(** A target for outputs of that geometry: the same kind, and at least as many
    numbers. *)
Definition target_for {T : Type} (g : geometry) (t : IOType T) : Prop :=
  match g, t with
  | Vec n, IOScalar v => n <= length v
  | Maps n r c, IOMatrix ms => n * (r * c) <= length (map_values ms)
  | _, _ => False
  end.

Section SpecGeom.
Context (Fl : FloatOps) (p : prec).
Local Notation C := (cplx (F Fl)).

(** [fits l g g']: the layer [l], as a constructor builds it and with an
    activation other than ModZ, takes values of geometry [g] to values of
    geometry [g'].  A reduce layer needs blocks that tile the maps and a
    reducing closure that does not panic on a block. *)
Inductive fits : clayer Fl -> geometry -> geometry -> Prop :=
| fits_dense : forall l, dense_wf Fl l -> d_func l <> ModZ ->
    fits (LDense l) (Vec (inputs Fl l)) (Vec (units Fl l))
| fits_conv : forall l a b r c, conv_wf Fl a b l -> k_func l <> ModZ -> a <= r -> b <= c ->
    fits (LConv l) (Maps (channels Fl l) r c) (Maps (filters Fl l) (r - a + 1) (c - b + 1))
| fits_reduce : forall l n r c, 1 <= n -> 1 <= r_b0 l <= r -> 1 <= r_b1 l <= c ->
    r mod r_b0 l = 0 -> c mod r_b1 l = 0 ->
    (forall b, length b = r_b0 l * r_b1 l -> exists v, r_func l b = Ret v) ->
    fits (LReduce l) (Maps n r c) (Maps n (r / r_b0 l) (c / r_b1 l))
| fits_flatten : forall l n r c, fits (LFlatten l) (Maps n r c) (Vec (n * (r * c))).

Inductive fit_all : network Fl -> geometry -> geometry -> Prop :=
| fit_nil : forall g, fit_all [] g g
| fit_cons : forall l n g g1 g2, fits l g g1 -> fit_all n g1 g2 -> fit_all (l :: n) g g2.

(** What training needs besides: a reduce layer with square blocks and a 3 x 3
    kernel to spread gradients with. *)
Definition trainable (l : clayer Fl) : Prop :=
  match l with
  | LReduce l => r_b0 l = r_b1 l /\ wf (r_kernel l) /\ sh0 (r_kernel l) = 3 /\ sh1 (r_kernel l) = 3
  | _ => True
  end.

(** A batch of points for a network from [g] to [g']: as many targets as inputs. *)
Definition batch_for (g g' : geometry) (d : dataset C C) : Prop :=
  length (ds_target d) = length (ds_inputs d) /\
  (forall x, In x (ds_inputs d) -> has_geom g x) /\ (forall t, In t (ds_target d) -> target_for g' t).

(** Training on one batch after the other, unwrapping the results. *)
Fixpoint train_on (n : network Fl) (ds : list (dataset C C)) (f : ComplexLossFunc) (lr : C) : outcome (network Fl) :=
  match ds with
  | [] => Ret n
  | d :: rest => r <- net_gradient_opt Fl p n d f lr ;; match snd r with Ok _ => train_on (fst r) rest f lr | Err _ => Panic end
  end.
End SpecGeom.
