(** * Model of src/cvnn/layer/{reduce,flatten,mod}.rs *)
From Verif Require Import Base Float Matrix Cplx Random Act Input Dense Conv.

Section Layer.
Context (Fl : FloatOps) (p : prec).
Local Notation C := (cplx (F Fl)).
Local Notation O := (cops Fl).

(** reduce.rs:5-10.  The boxed closure may panic. *)
Record red := mkRed {
  r_in : nat;
  r_b0 : nat;
  r_b1 : nat;
  r_func : list C -> outcome C;
  r_kernel : matrix C;
}.

(** reduce.rs:61-68 *)
Definition red_init := mkRed.

(** reduce.rs:27-49 *)
Definition red_is_empty (_ : red) : bool := false.
Definition red_propagates (_ : red) : bool := true.
Definition red_params_len (_ : red) : nat * nat := (0, 0).
Definition red_input_shape (l : red) : IOShape := ShMatrix (r_in l).
Definition red_output_shape (l : red) : IOShape := ShMatrix (r_in l).

(** reduce.rs:75-92 *)
Definition red_forward (l : red) (x : IOType C) : outcome (result (IOType C) LayerForwardError) :=
  match x with
  | IOMatrix features =>
      out <- mapM (fun f => r <-! block_reduce f (r_b0 l) (r_b1 l) (r_func l) ;; Ret r) features ;;
      Ret (Ok (IOMatrix out))
  | _ => Ret (Err InvalidInput)
  end.

(** reduce.rs:112-134: one feature; [ca], [cb] are the remaining chunks. *)
Definition red_step (l : red) (st : list (list C) * list (list C) * list C * list C) (feature : matrix C)
  : outcome (list (list C) * list (list C) * list C * list C) :=
  let '(ca, cb, na, nb) := st in
  f0 <- udiv (sh0 feature) (r_b0 l) ;;
  f1 <- udiv (sh1 feature) (r_b1 l) ;;
  match ca with
  | [] => Panic
  | a :: ca' =>
      ma <- unwrap (to_matrix a f0 f1) ;;
      ua <-! fractional_upsampling O ma (r_b0 l) (r_b1 l) (r_kernel l) ;;
      match cb with
      | [] => Panic
      | b :: cb' =>
          mb <- unwrap (to_matrix b f0 f1) ;;
          ub <-! fractional_upsampling O mb (r_b0 l) (r_b1 l) (r_kernel l) ;;
          Ret (ca', cb', na ++ body ua, nb ++ body ub)
      end
  end.

(** reduce.rs:100-140 *)
Definition red_derivatives (l : red) (prev : IOType C) (dlda dlda_conj : list C)
  : outcome (result (derivs Fl) GradientError) :=
  match prev with
  | IOMatrix features =>
      ch <- udiv (length dlda) (length features) ;;
      ca <- chunks ch dlda ;;
      cb <- chunks ch dlda_conj ;;
      '(_, _, na, nb) <- foldM (red_step l) features (ca, cb, [], []) ;;
      Ret (Ok ([], [], na, nb))
  | _ => Ret (Err G_InconsistentShape)
  end.

(** reduce.rs:148-152 *)
Definition red_adjust (l : red) (_ _ : list C) : result red GradientError := Ok l.

(** flatten.rs:8-10, 45-47 *)
Record flat := mkFlat { f_r : nat; f_c : nat; f_n : nat }.
Definition flat_init := mkFlat.

(** flatten.rs:18-37 *)
Definition flat_is_empty (_ : flat) : bool := false.
Definition flat_propagates (_ : flat) : bool := false.
Definition flat_input_shape (l : flat) : IOShape := ShMatrix (f_n l).
Definition flat_output_shape (l : flat) : IOShape := ShScalar (f_r l * f_c l * f_n l).

(** flatten.rs:55-67: the declared input size is not consulted. *)
Definition flat_forward (_ : flat) (x : IOType C) : outcome (result (IOType C) LayerForwardError) :=
  match x with
  | IOMatrix features => Ret (Ok (IOScalar (flat_map body features)))
  | _ => Ret (Err InvalidInput)
  end.

(** layer/mod.rs:23-28; [wrap] of each layer is the constructor. *)
Inductive clayer :=
| LDense (l : dense Fl)
| LConv (l : conv Fl)
| LReduce (l : red)
| LFlatten (l : flat).

(** layer/mod.rs:39-46 *)
Definition layer_is_empty (l : clayer) : bool :=
  match l with
  | LDense l => dense_is_empty Fl l
  | LConv l => conv_is_empty Fl l
  | LReduce l => red_is_empty l
  | LFlatten l => flat_is_empty l
  end.

(** layer/mod.rs:49-56 *)
Definition layer_propagates (l : clayer) : bool :=
  match l with
  | LDense l => dense_propagates Fl l
  | LConv l => conv_propagates Fl l
  | LReduce l => red_propagates l
  | LFlatten l => flat_propagates l
  end.

(** layer/mod.rs:59-76 *)
Definition layer_input_shape (l : clayer) : IOShape :=
  match l with
  | LDense l => dense_input_shape Fl l
  | LConv l => conv_input_shape Fl l
  | LReduce l => red_input_shape l
  | LFlatten l => flat_input_shape l
  end.
Definition layer_output_shape (l : clayer) : IOShape :=
  match l with
  | LDense l => dense_output_shape Fl l
  | LConv l => conv_output_shape Fl l
  | LReduce l => red_output_shape l
  | LFlatten l => flat_output_shape l
  end.

(** layer/mod.rs:79-86 *)
Definition layer_params_len (l : clayer) : nat * nat :=
  match l with
  | LDense l => dense_params_len Fl l
  | LConv l => conv_params_len Fl l
  | LReduce l => red_params_len l
  | LFlatten _ => (0, 0)
  end.

(** layer/mod.rs:93-101 *)
Definition layer_forward (l : clayer) (x : IOType C) : outcome (result (IOType C) LayerForwardError) :=
  match l with
  | LDense l => dense_forward Fl p l x
  | LConv l => conv_forward Fl p l x
  | LReduce l => red_forward l x
  | LFlatten l => flat_forward l x
  end.

(** layer/mod.rs:109-116 *)
Definition layer_derivatives (l : clayer) (prev : IOType C) (dlda dlda_conj : list C)
  : outcome (result (derivs Fl) GradientError) :=
  match l with
  | LDense l => dense_derivatives Fl p l prev dlda dlda_conj
  | LConv l => conv_derivatives Fl p l prev dlda dlda_conj
  | LReduce l => red_derivatives l prev dlda dlda_conj
  | LFlatten _ => Panic
  end.

(** Re-wrapping the adjusted layer. *)
Definition map_ok {A B E : Type} (f : A -> B) (r : result A E) : result B E :=
  match r with Ok a => Ok (f a) | Err e => Err e end.

(** layer/mod.rs:124-131 *)
Definition layer_adjust (l : clayer) (dldw dldb : list C) : outcome (result clayer GradientError) :=
  match l with
  | LDense l => Ret (map_ok LDense (dense_adjust Fl l dldw dldb))
  | LConv l => Ret (map_ok LConv (conv_adjust Fl l dldw dldb))
  | LReduce l => Ret (map_ok LReduce (red_adjust l dldw dldb))
  | LFlatten _ => Panic
  end.

End Layer.
Arguments r_in {Fl} _.
Arguments r_b0 {Fl} _.
Arguments r_b1 {Fl} _.
Arguments r_func {Fl} _.
Arguments r_kernel {Fl} _.
Arguments LDense {Fl} l.
Arguments LConv {Fl} l.
Arguments LReduce {Fl} l.
Arguments LFlatten {Fl} l.
