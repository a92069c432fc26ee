(** * Model of src/cvnn/layer/dense.rs *)
From Verif Require Import Base Float Matrix Cplx Random Act Input.

(** src/err/mod.rs:3-12, 43-49 *)
Inductive LayerForwardError := InvalidInput.
Inductive LayerInitError := InvalidInputShape | AlreadyInitialized.
Inductive GradientError := G_InconsistentShape | G_InvalidBiasShape | G_InvalidWeightShape | G_Unimplemented.

(** Repeating a generator [n] times, collecting its values. *)
Fixpoint gen_n {A S : Type} (g : S -> outcome (S * A)) (n : nat) (s : S) : outcome (S * list A) :=
  match n with
  | O => Ret (s, [])
  | S n' => '(s1, a) <- g s ;; '(s2, l) <- gen_n g n' s1 ;; Ret (s2, a :: l)
  end.

Section Dense.
Context (Fl : FloatOps) (p : prec).
Local Notation C := (cplx (F Fl)).
Local Notation O := (cops Fl).

(** layer/mod.rs:18 [ComplexDerivatives]. *)
Definition derivs : Type := (list C * list C * list C * list C)%type.

(** dense.rs:12-16 *)
Record dense := mkDense {
  d_weights : matrix C;
  d_biases : list C;
  d_func : ComplexActFunc;
}.

(** dense.rs:27-33 *)
Definition dense_is_empty (l : dense) : bool :=
  ((sh0 (d_weights l) =? 0) && (sh1 (d_weights l) =? 0)) || (length (d_biases l) =? 0).

(** dense.rs:36-38 *)
Definition dense_propagates (_ : dense) : bool := true.

(** dense.rs:41-45 *)
Definition dense_params_len (l : dense) : nat * nat :=
  (sh0 (d_weights l) * sh1 (d_weights l), length (d_biases l)).

(** dense.rs:48-56 *)
Definition dense_input_shape (l : dense) : IOShape := ShScalar (sh1 (d_weights l)).
Definition dense_output_shape (l : dense) : IOShape := ShScalar (length (d_biases l)).

(** dense.rs:67-97; one bias (the default) per unit, [inputs] draws per unit. *)
Definition dense_init (pr : profile) (input_shape : IOShape) (units : nat)
    (func : ComplexActFunc) (method : InitMethod) (seed : N)
  : outcome (N * result dense LayerInitError) :=
  match input_shape with
  | ShScalar inputs =>
      '(s, rows) <- gen_n (gen_n (init_gen Fl p pr method) inputs) units seed ;;
      Ret (s, Ok (mkDense (from_body (concat rows) units inputs)
                          (repeat (c_default Fl) units) func))
  | _ => Ret (seed, Err InvalidInputShape)
  end.

(** dense.rs:257-262 *)
Definition dense_q (l : dense) (input : list C) : outcome (list C) :=
  res <-! Matrix.mul_slice O (d_weights l) input ;;
  unwrap (add_slice_mut O res (d_biases l)).

(** dense.rs:104-126 *)
Definition dense_forward (l : dense) (x : IOType C) : outcome (result (IOType C) LayerForwardError) :=
  match x with
  | IOScalar input =>
      res <-! Matrix.mul_slice O (d_weights l) input ;;
      res <- unwrap (add_slice_mut O res (d_biases l)) ;;
      act <- activate_mut Fl p (d_func l) res ;;
      Ret (Ok (IOScalar act))
  | _ => Ret (Err InvalidInput)
  end.

(** dense.rs:150-156 and 159-165 (= conv.rs:188-202): the two families of
    local derivatives. *)
Definition local_d (f : ComplexActFunc) (q dlda : list C) : outcome (list C) :=
  mapM (fun qd => d <- d_activate Fl p f (fst qd) ;; Ret (c_mul Fl d (snd qd))) (combine q dlda).
Definition local_d_conj (f : ComplexActFunc) (q dlda_conj : list C) : outcome (list C) :=
  mapM (fun qd => d <- d_conj_activate Fl p f (fst qd) ;; Ret (c_mul Fl (c_conj Fl d) (snd qd)))
       (combine q dlda_conj).

(** dense.rs:134-215 *)
Definition dense_derivatives (l : dense) (prev : IOType C) (dlda dlda_conj : list C)
  : outcome (result derivs GradientError) :=
  if negb (length dlda =? sh0 (d_weights l)) then Ret (Err G_InconsistentShape)
  else if negb (length dlda_conj =? sh0 (d_weights l)) then Ret (Err G_InconsistentShape)
  else match prev with
  | IOScalar input =>
      q <- dense_q l input ;;
      a <- local_d (d_func l) q dlda ;;
      b <- local_d_conj (d_func l) q dlda_conj ;;
      dqda <- rows_as_iter (d_weights l) ;;
      st <- foldM (fun st vr =>
              let '(dldw, dldb, new_dlda) := st in
              let '((val, conj_val), row) := vr in
              let mult := fun e => c_mul Fl e (c_add Fl val conj_val) in
              new_dlda' <- unwrap (add_slice_mut O new_dlda (map mult row)) ;;
              Ret (dldw ++ map mult input, dldb ++ [c_add Fl val conj_val], new_dlda'))
            (combine (combine a b) dqda)
            ([], [], repeat (c_default Fl) (sh1 (d_weights l))) ;;
      let '(dldw, dldb, new_dlda) := st in
      Ret (Ok (dldw, dldb, new_dlda, map (c_conj Fl) new_dlda))
  | _ => Panic
  end.

(** dense.rs:223-250: the [-=] of the conjugate. *)
Definition sub_conj (w d : C) : C := c_sub_assign Fl w (c_conj Fl d).
Definition dense_adjust (l : dense) (dldw dldb : list C) : result dense GradientError :=
  if negb (length dldb =? length (d_biases l)) then Err G_InconsistentShape
  else if negb (length dldw =? length (body (d_weights l))) then Err G_InconsistentShape
  else Ok (mkDense (with_body (d_weights l) (zip_assign sub_conj (body (d_weights l)) dldw))
                   (zip_assign sub_conj (d_biases l) dldb) (d_func l)).

End Dense.
Arguments d_weights {Fl} _.
Arguments d_biases {Fl} _.
Arguments d_func {Fl} _.
