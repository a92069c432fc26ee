(** * Model of src/cvnn/layer/conv.rs *)
From Verif Require Import Base Float Matrix Cplx Random Act Input Dense.

Section Conv.
Context (Fl : FloatOps) (p : prec).
Local Notation C := (cplx (F Fl)).
Local Notation O := (cops Fl).

(** conv.rs:7-14 *)
Record conv := mkConv {
  k_in : nat;
  k_kernels : matrix (matrix C);
  k_biases : list C;
  k_func : ComplexActFunc;
}.

(** conv.rs:22-25 *)
Definition conv_is_empty (l : conv) : bool :=
  (sh0 (k_kernels l) =? 0) && (sh1 (k_kernels l) =? 0).

(** conv.rs:28-30 *)
Definition conv_propagates (_ : conv) : bool := true.

(** conv.rs:33-43 *)
Definition conv_params_len (l : conv) : nat * nat :=
  (fold_left (fun acc k => acc + sh0 k * sh1 k) (body (k_kernels l)) 0, length (k_biases l)).

(** conv.rs:46-53 *)
Definition conv_input_shape (l : conv) : IOShape := ShMatrix (k_in l).
Definition conv_output_shape (l : conv) : IOShape := ShMatrix (sh0 (k_kernels l)).

(** conv.rs:66-106 *)
Definition conv_init (pr : profile) (input_shape : IOShape) (filters k0 k1 : nat)
    (func : ComplexActFunc) (method : InitMethod) (seed : N)
  : outcome (N * result conv LayerInitError) :=
  match input_shape with
  | ShMatrix feats =>
      let kernel s := '(s', rows) <- gen_n (gen_n (init_gen Fl p pr method) k1) k0 s ;;
                      Ret (s', from_body (concat rows) k0 k1) in
      '(s, ks) <- gen_n (gen_n kernel feats) filters seed ;;
      Ret (s, Ok (mkConv feats (from_body (concat ks) filters feats)
                         (repeat (c_default Fl) filters) func))
  | _ => Ret (seed, Err InvalidInputShape)
  end.

(** conv.rs:119-123 = 344-347 (and 175-180): shape of the output features. *)
Definition conv_out_shape (l : conv) (input : list (matrix C)) : outcome (nat * nat) :=
  k <-! elm (k_kernels l) 0 0 ;;
  m <- index input 0 ;;
  a <- usub (sh0 k) 1 ;; o0 <- usub (sh0 m) a ;;
  b <- usub (sh1 k) 1 ;; o1 <- usub (sh1 m) b ;;
  Ret (o0, o1).

(** conv.rs:133-150 = 353-370: one output feature before the activation. *)
Definition conv_feature (o0 o1 : nat) (input : list (matrix C)) (filter : list (matrix C)) (bias : C)
  : outcome (matrix C) :=
  let init := from_body (repeat (c_default Fl) (o0 * o1)) o0 o1 in
  m <- foldM (fun acc fk =>
         c <-! convolution O (fst fk) (snd fk) ;;
         unwrap (add_mut O acc c)) (combine input filter) init ;;
  Ret (add_mut_scalar O m bias).

(** conv.rs:113-161 *)
Definition conv_forward (l : conv) (x : IOType C) : outcome (result (IOType C) LayerForwardError) :=
  match x with
  | IOMatrix input =>
      '(o0, o1) <- conv_out_shape l input ;;
      if negb (sh1 (k_kernels l) =? length input) then Ret (Err InvalidInput)
      else
        rows <- rows_as_iter (k_kernels l) ;;
        out <- mapM (fun fb =>
                 m <- conv_feature o0 o1 input (fst fb) (snd fb) ;;
                 a <- activate_mut Fl p (k_func l) (body m) ;;
                 Ret (with_body m a)) (combine rows (k_biases l)) ;;
        Ret (Ok (IOMatrix out))
  | _ => Ret (Err InvalidInput)
  end.

(** conv.rs:342-376 *)
Definition conv_q (l : conv) (input : list (matrix C)) : outcome (list C) :=
  '(o0, o1) <- conv_out_shape l input ;;
  rows <- rows_as_iter (k_kernels l) ;;
  flat_mapM (fun fb => m <- conv_feature o0 o1 input (fst fb) (snd fb) ;; Ret (body m))
            (combine rows (k_biases l)).

(** conv.rs:230-251 *)
Definition conv_oper_a (input : list (matrix C)) (fa fb : matrix C) : outcome (list C * list C) :=
  dldk <- flat_mapM (fun feature =>
            t1 <-! convolution O feature fa ;;
            t2 <-! convolution O feature fb ;;
            t <- unwrap (add_mut O t1 t2) ;;
            Ret (body t)) input ;;
  dldb <- unwrap (add_slice O (body fa) (body fb)) ;;
  Ret (dldk, dldb).

(** conv.rs:253-286 *)
Definition conv_oper_b (filter : list (matrix C)) (fa fb : matrix C) (padx pady : nat)
  : outcome (list C * list C) :=
  flipped <- mapM (fun k => r <-! flip k ;; Ret r) filter ;;
  pa <- pad O fa padx pady ;;
  pb <- pad O fb padx pady ;;
  na <- flat_mapM (fun fk => r <-! convolution O pa fk ;; Ret (body r)) flipped ;;
  nb <- flat_mapM (fun fk => r <-! convolution O pb fk ;; Ret (body r)) flipped ;;
  Ret (na, nb).

(** conv.rs:218-295: state threaded through the filters; the two [drain]s
    consume [out_feat_size] values each and panic when fewer are left. *)
Record conv_bstate := mkCB {
  cb_a : list C; cb_b : list C;
  cb_dldk : list C; cb_dldb : list C;
  cb_dlda : list C; cb_dldac : list C;
}.
Definition conv_filter_step (input : list (matrix C)) (osz o0 o1 padx pady : nat)
    (st : conv_bstate) (filter : list (matrix C)) : outcome conv_bstate :=
  ba <- slice (cb_a st) 0 osz ;;
  bb <- slice (cb_b st) 0 osz ;;
  let fa := from_body ba o0 o1 in
  let fb := from_body bb o0 o1 in
  '(dldk, dldb) <- conv_oper_a input fa fb ;;
  '(na, nb) <- conv_oper_b filter fa fb padx pady ;;
  db <- unwrap_opt (reduce (c_add Fl) dldb) ;;
  new_dlda <- unwrap (add_slice_mut O (cb_dlda st) na) ;;
  new_dldac <- unwrap (add_slice_mut O (cb_dldac st) nb) ;;
  Ret (mkCB (skipn osz (cb_a st)) (skipn osz (cb_b st))
            (cb_dldk st ++ dldk) (cb_dldb st ++ [db]) new_dlda new_dldac).

(** conv.rs:169-301 *)
Definition conv_derivatives (l : conv) (prev : IOType C) (dlda dlda_conj : list C)
  : outcome (result (derivs Fl) GradientError) :=
  match prev with
  | IOMatrix input =>
      m <- index input 0 ;;
      k <-! elm (k_kernels l) 0 0 ;;
      padx <- usub (sh0 k) 1 ;;
      pady <- usub (sh1 k) 1 ;;
      o0 <- usub (sh0 m) padx ;;
      o1 <- usub (sh1 m) pady ;;
      q <- conv_q l input ;;
      a <- local_d Fl p (k_func l) q dlda ;;
      b <- local_d_conj Fl p (k_func l) q dlda_conj ;;
      osz <- udiv (length a) (sh0 (k_kernels l)) ;;
      filters <- rows_as_iter (k_kernels l) ;;
      let z := repeat (c_default Fl) (sh0 m * sh1 m * length input) in
      st <- foldM (conv_filter_step input osz o0 o1 padx pady) filters (mkCB a b [] [] z z) ;;
      Ret (Ok (cb_dldk st, cb_dldb st, cb_dlda st, cb_dldac st))
  | _ => Panic
  end.

(** conv.rs:323-328: the kernels' bodies, chained, zipped with the gradient. *)
Fixpoint adjust_kernels (ks : list (matrix C)) (dw : list C) : list (matrix C) :=
  match ks with
  | [] => []
  | k :: ks' => with_body k (zip_assign (sub_conj Fl) (body k) dw)
                :: adjust_kernels ks' (skipn (length (body k)) dw)
  end.

(** conv.rs:309-335 *)
Definition conv_adjust (l : conv) (dldw dldb : list C) : result conv GradientError :=
  let '(weights, biases) := conv_params_len l in
  if negb (length dldb =? biases) then Err G_InconsistentShape
  else if negb (length dldw =? weights) then Err G_InconsistentShape
  else Ok (mkConv (k_in l)
                  (with_body (k_kernels l) (adjust_kernels (body (k_kernels l)) dldw))
                  (zip_assign (sub_conj Fl) (k_biases l) dldb) (k_func l)).

End Conv.
Arguments k_in {Fl} _.
Arguments k_kernels {Fl} _.
Arguments k_biases {Fl} _.
Arguments k_func {Fl} _.
