(** * Vocabulary for stating properties of networks *)
From Verif Require Import Base Float Matrix Cplx Act Input Loss Dense Conv Layer Dataset Network SpecMatrix SpecLayer SpecConv.

Section SpecNet.
Context (Fl : FloatOps) (p : prec).
Local Notation C := (cplx (F Fl)).

(** [trace ls x vs]: the layers [ls], applied one after the other to [x], all
    succeed, and [vs] lists [x], the intermediate values and the last output. *)
Inductive trace : list (clayer Fl) -> IOType C -> list (IOType C) -> Prop :=
| trace_nil : forall x, trace [] x [x]
| trace_cons : forall l ls x y vs,
    layer_forward Fl p l x = Ret (Ok y) -> trace ls y vs -> trace (l :: ls) x (x :: vs).

(** ** Construction *)
Inductive build_op := AddInput (l : clayer Fl) | Add (l : clayer Fl).

(** One call on a network: the network afterwards and what was returned. *)
Definition build_call (n : network Fl) (o : build_op) : outcome (network Fl * result unit LayerAdditionError) :=
  match o with
  | AddInput l => Ret (net_add_input Fl n l)
  | Add l => net_add Fl n l
  end.

(** [built os rs n]: starting from the empty network, the calls [os] returned
    [rs] without panicking and left the network [n]. *)
Inductive built : list build_op -> list (result unit LayerAdditionError) -> network Fl -> Prop :=
| built_nil : built [] [] (net_new Fl)
| built_snoc : forall os rs n o n' r,
    built os rs n -> build_call n o = Ret (n', r) -> built (os ++ [o]) (rs ++ [r]) n'.

(** Consecutive layers fit. *)
Definition chained (n : network Fl) : Prop :=
  forall k l l', nth_error n k = Some l -> nth_error n (S k) = Some l' ->
    layer_output_shape Fl l = layer_input_shape Fl l'.

(** The layers whose addition was accepted, in order. *)
Fixpoint accepted (os : list build_op) (rs : list (result unit LayerAdditionError)) : list (clayer Fl) :=
  match os, rs with
  | o :: os', r :: rs' =>
      (match r with Ok _ => [match o with AddInput l => l | Add l => l end] | Err _ => [] end) ++ accepted os' rs'
  | _, _ => []
  end.

(** A layer that holds no parameters where it should: a dense layer without
    weights or without biases, a convolutional layer without kernels. *)
Definition uninitialised (l : clayer Fl) : Prop :=
  match l with
  | LDense l => (sh0 (d_weights l) = 0 /\ sh1 (d_weights l) = 0) \/ d_biases l = []
  | LConv l => sh0 (k_kernels l) = 0 /\ sh1 (k_kernels l) = 0
  | _ => False
  end.

(** The shape of a value: how many numbers, or how many feature maps. *)
Definition io_shape (x : IOType C) : IOShape :=
  match x with IOScalar v => ShScalar (length v) | IOMatrix ms => ShMatrix (length ms) end.

(** A layer as its constructor builds it. *)
Definition layer_wf (l : clayer Fl) : Prop :=
  match l with
  | LDense l => dense_wf Fl l
  | LConv l => exists a b, conv_wf Fl a b l
  | _ => True
  end.

(** ** Parameters and architecture *)
(** Everything training may change, and everything else. *)
Definition layer_values (l : clayer Fl) : list C * list C :=
  match l with
  | LDense l => (body (d_weights l), d_biases l)
  | LConv l => (kernel_values l, k_biases l)
  | LReduce _ => ([], [])
  | LFlatten _ => ([], [])
  end.
Definition net_values (n : network Fl) : list C :=
  concat (map (fun l => fst (layer_values l) ++ snd (layer_values l)) n).

Inductive arch :=
| ADense (rows cols row_cap col_cap nweights nbiases : nat) (f : ComplexActFunc)
| AConv (n_in rows cols row_cap col_cap nbiases : nat) (f : ComplexActFunc) (kernels : list (nat * nat * nat * nat * nat))
| AReduce (l : red Fl)
| AFlatten (l : flat).
Definition arch_of (l : clayer Fl) : arch :=
  match l with
  | LDense l => let w := d_weights l in
      ADense (sh0 w) (sh1 w) (cap0 w) (cap1 w) (length (body w)) (length (d_biases l)) (d_func l)
  | LConv l => let k := k_kernels l in
      AConv (k_in l) (sh0 k) (sh1 k) (cap0 k) (cap1 k) (length (k_biases l)) (k_func l)
        (map (fun m => (sh0 m, sh1 m, cap0 m, cap1 m, length (body m))) (body k))
  | LReduce l => AReduce l
  | LFlatten l => AFlatten l
  end.

(** Full weight matrices and kernels. *)
Definition layer_full (l : clayer Fl) : Prop :=
  match l with
  | LDense l => wf (d_weights l)
  | LConv l => Forall wf (body (k_kernels l))
  | _ => True
  end.

(** [trained n n']: any number of successful training steps, with any batches,
    loss functions and rates. *)
Inductive trained : network Fl -> network Fl -> Prop :=
| trained_none : forall n, trained n n
| trained_step : forall n n' n'' data f lr,
    trained n n' -> net_gradient_opt Fl p n' data f lr = Ret (n'', Ok tt) -> trained n n''.

(** ** Dense networks *)
(** A non-empty stack of well-formed dense layers whose widths fit. *)
Fixpoint widths_fit (ls : list (dense Fl)) (w : nat) : Prop :=
  match ls with
  | [] => True
  | l :: rest => dense_wf Fl l /\ inputs Fl l = w /\ widths_fit rest (units Fl l)
  end.
Definition out_width (ls : list (dense Fl)) (w : nat) : nat := fold_left (fun _ l => units Fl l) ls w.
End SpecNet.
