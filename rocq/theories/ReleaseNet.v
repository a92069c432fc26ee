(** * The release profile of layers and networks

    The functions of Conv.v, Layer.v and Network.v that do [usize] arithmetic or
    call a function of Release.v, again, with wrap-around.  Everything else in
    their bodies is unchanged; functions that appear neither here nor in
    Release.v are the same in both profiles. *)
From Verif Require Import Base Float Matrix Cplx Random Act Input Loss Dense Conv Layer Dataset Network Release.

Section ReleaseNet.
Context (U : nat) (Fl : FloatOps) (p : prec).
Local Notation C := (cplx (F Fl)).
Local Notation O := (cops Fl).

(** conv.rs:119-123 = 344-347 (and 175-180) *)
Definition conv_out_shape_rel (l : conv Fl) (input : list (matrix C)) : outcome (nat * nat) :=
  k <-! elm (k_kernels l) 0 0 ;;
  m <- index input 0 ;;
  Ret (wsub U (sh0 m) (wsub U (sh0 k) 1), wsub U (sh1 m) (wsub U (sh1 k) 1)).

(** conv.rs:133-150 = 353-370 *)
Definition conv_feature_rel (o0 o1 : nat) (input : list (matrix C)) (filter : list (matrix C)) (bias : C)
  : outcome (matrix C) :=
  let init := from_body (repeat (c_default Fl) (o0 * o1)) o0 o1 in
  m <- foldM (fun acc fk =>
         c <-! convolution_rel U O (fst fk) (snd fk) ;;
         unwrap (add_mut O acc c)) (combine input filter) init ;;
  Ret (add_mut_scalar O m bias).

(** conv.rs:113-161 *)
Definition conv_forward_rel (l : conv Fl) (x : IOType C) : outcome (result (IOType C) LayerForwardError) :=
  match x with
  | IOMatrix input =>
      '(o0, o1) <- conv_out_shape_rel l input ;;
      if negb (sh1 (k_kernels l) =? length input) then Ret (Err InvalidInput)
      else
        rows <- rows_as_iter (k_kernels l) ;;
        out <- mapM (fun fb =>
                 m <- conv_feature_rel o0 o1 input (fst fb) (snd fb) ;;
                 a <- activate_mut Fl p (k_func l) (body m) ;;
                 Ret (with_body m a)) (combine rows (k_biases l)) ;;
        Ret (Ok (IOMatrix out))
  | _ => Ret (Err InvalidInput)
  end.

(** conv.rs:342-376 *)
Definition conv_q_rel (l : conv Fl) (input : list (matrix C)) : outcome (list C) :=
  '(o0, o1) <- conv_out_shape_rel l input ;;
  rows <- rows_as_iter (k_kernels l) ;;
  flat_mapM (fun fb => m <- conv_feature_rel o0 o1 input (fst fb) (snd fb) ;; Ret (body m))
            (combine rows (k_biases l)).

(** conv.rs:230-251 *)
Definition conv_oper_a_rel (input : list (matrix C)) (fa fb : matrix C) : outcome (list C * list C) :=
  dldk <- flat_mapM (fun feature =>
            t1 <-! convolution_rel U O feature fa ;;
            t2 <-! convolution_rel U O feature fb ;;
            t <- unwrap (add_mut O t1 t2) ;;
            Ret (body t)) input ;;
  dldb <- unwrap (add_slice O (body fa) (body fb)) ;;
  Ret (dldk, dldb).

(** conv.rs:253-286 *)
Definition conv_oper_b_rel (filter : list (matrix C)) (fa fb : matrix C) (padx pady : nat)
  : outcome (list C * list C) :=
  flipped <- mapM (fun k => r <-! flip k ;; Ret r) filter ;;
  pa <- pad_rel U O fa padx pady ;;
  pb <- pad_rel U O fb padx pady ;;
  na <- flat_mapM (fun fk => r <-! convolution_rel U O pa fk ;; Ret (body r)) flipped ;;
  nb <- flat_mapM (fun fk => r <-! convolution_rel U O pb fk ;; Ret (body r)) flipped ;;
  Ret (na, nb).

(** conv.rs:218-295 *)
Definition conv_filter_step_rel (input : list (matrix C)) (osz o0 o1 padx pady : nat)
    (st : conv_bstate Fl) (filter : list (matrix C)) : outcome (conv_bstate Fl) :=
  ba <- slice (cb_a Fl st) 0 osz ;;
  bb <- slice (cb_b Fl st) 0 osz ;;
  let fa := from_body ba o0 o1 in
  let fb := from_body bb o0 o1 in
  '(dldk, dldb) <- conv_oper_a_rel input fa fb ;;
  '(na, nb) <- conv_oper_b_rel filter fa fb padx pady ;;
  db <- unwrap_opt (reduce (c_add Fl) dldb) ;;
  new_dlda <- unwrap (add_slice_mut O (cb_dlda Fl st) na) ;;
  new_dldac <- unwrap (add_slice_mut O (cb_dldac Fl st) nb) ;;
  Ret (mkCB Fl (skipn osz (cb_a Fl st)) (skipn osz (cb_b Fl st))
            (cb_dldk Fl st ++ dldk) (cb_dldb Fl st ++ [db]) new_dlda new_dldac).

(** conv.rs:169-301 *)
Definition conv_derivatives_rel (l : conv Fl) (prev : IOType C) (dlda dlda_conj : list C)
  : outcome (result (derivs Fl) GradientError) :=
  match prev with
  | IOMatrix input =>
      m <- index input 0 ;;
      k <-! elm (k_kernels l) 0 0 ;;
      let padx := wsub U (sh0 k) 1 in
      let pady := wsub U (sh1 k) 1 in
      let o0 := wsub U (sh0 m) padx in
      let o1 := wsub U (sh1 m) pady in
      q <- conv_q_rel l input ;;
      a <- local_d Fl p (k_func l) q dlda ;;
      b <- local_d_conj Fl p (k_func l) q dlda_conj ;;
      osz <- udiv (length a) (sh0 (k_kernels l)) ;;
      filters <- rows_as_iter (k_kernels l) ;;
      let z := repeat (c_default Fl) (sh0 m * sh1 m * length input) in
      st <- foldM (conv_filter_step_rel input osz o0 o1 padx pady) filters (mkCB Fl a b [] [] z z) ;;
      Ret (Ok (cb_dldk Fl st, cb_dldb Fl st, cb_dlda Fl st, cb_dldac Fl st))
  | _ => Panic
  end.

(** layer/mod.rs:93-101 *)
Definition layer_forward_rel (l : clayer Fl) (x : IOType C) : outcome (result (IOType C) LayerForwardError) :=
  match l with
  | LDense l => dense_forward Fl p l x
  | LConv l => conv_forward_rel l x
  | LReduce l => red_forward Fl l x
  | LFlatten l => flat_forward Fl l x
  end.

(** layer/mod.rs:109-116 *)
Definition layer_derivatives_rel (l : clayer Fl) (prev : IOType C) (dlda dlda_conj : list C)
  : outcome (result (derivs Fl) GradientError) :=
  match l with
  | LDense l => dense_derivatives Fl p l prev dlda dlda_conj
  | LConv l => conv_derivatives_rel l prev dlda dlda_conj
  | LReduce l => red_derivatives_rel U Fl l prev dlda dlda_conj
  | LFlatten _ => Panic
  end.

Definition fwd_rel (l : clayer Fl) (x : IOType C) : outcome (IOType C) :=
  r <-! layer_forward_rel l x ;; Ret r.

(** network/mod.rs:95-111 *)
Definition net_forward_rel (n : network Fl) (x : IOType C) : outcome (result (IOType C) ForwardError) :=
  match n with
  | [] => Ret (Err MissingLayers)
  | l :: rest =>
      out <- fwd_rel l x ;;
      out <- (if 1 <? length n then foldM (fun acc l => fwd_rel l acc) rest out else Ret out) ;;
      Ret (Ok out)
  end.

(** network/mod.rs:145-161 *)
Definition net_collect_acts_rel (n : network Fl) (x : IOType C) : outcome (result (list (IOType C)) ForwardError) :=
  match n with
  | [] => Ret (Err MissingLayers)
  | _ =>
      outs <- foldM (fun outs l =>
                a <- unwrap_opt (nth_error outs (length outs - 1)) ;;
                y <- fwd_rel l a ;; Ret (outs ++ [y])) n [x] ;;
      Ret (Ok outs)
  end.

(** network/mod.rs:169-193 *)
Definition net_loss_rel (n : network Fl) (data : dataset C C) (f : ComplexLossFunc)
  : outcome (result (F Fl) LossCalcError) :=
  let '(ins, tgs) := ds_points_iter data in
  vals <- mapM (fun it =>
            pred <-! net_forward_rel n (fst it) ;;
            unwrap (loss Fl (snd it) pred f)) (combine ins tgs) ;;
  total <- unwrap_opt (reduce (fadd Fl) vals) ;;
  Ret (Ok (fdiv Fl total (fofnat Fl (length vals)))).

(** network/mod.rs:201-234 *)
Definition net_max_pred_test_rel (n : network Fl) (data : dataset C C) : outcome (F Fl) :=
  let '(ins, tgs) := ds_points_iter data in
  results <- mapM (fun it =>
               prediction <-! net_forward_rel n (fst it) ;;
               pred <- as_slice prediction ;;
               targ <- as_slice (snd it) ;;
               Ret (if max_index Fl targ =? max_index Fl pred then 1 else 0)) (combine ins tgs) ;;
  Ret (fdiv Fl (fofnat Fl (fold_left Nat.add results 0)) (fofnat Fl (length tgs))).

(** network/mod.rs:300-309 *)
Definition back_step_rel (n_layers : nat) (st : bstate Fl) (al : IOType C * clayer Fl) : outcome (bstate Fl) :=
  let '(prev, layer) := al in
  if layer_propagates Fl layer then
    d <-! layer_derivatives_rel layer prev (b_dlda Fl st) (b_dldac Fl st) ;;
    let '(dldw, dldb, dlda, dldac) := d in
    let i := wsub U (wsub U n_layers (b_l Fl st)) 1 in
    w <- acc_at Fl (b_w Fl st) i dldw ;;
    b <- acc_at Fl (b_b Fl st) i dldb ;;
    Ret (mkB Fl w b dlda dldac (S (b_l Fl st)))
  else Ret (mkB Fl (b_w Fl st) (b_b Fl st) (b_dlda Fl st) (b_dldac Fl st) (S (b_l Fl st))).

(** network/mod.rs:271-312 *)
Definition point_step_rel (n : network Fl) (f : ComplexLossFunc)
    (g : list (list C) * list (list C)) (it : IOType C * IOType C)
  : outcome (list (list C) * list (list C)) :=
  acts <-! net_collect_acts_rel n (fst it) ;;
  match rev acts with
  | [] => Panic
  | prediction :: activations =>
      dlda <- unwrap (d_loss Fl (snd it) prediction f) ;;
      st <- foldM (back_step_rel (length n)) (combine activations (rev n))
                  (mkB Fl (fst g) (snd g) dlda (map (c_conj Fl) dlda) 0) ;;
      Ret (b_w Fl st, b_b Fl st)
  end.

(** network/mod.rs:243-312 *)
Definition net_gradient_rel (n : network Fl) (data : dataset C C) (f : ComplexLossFunc)
  : outcome (list (list C) * list (list C)) :=
  let '(ins, tgs) := ds_points_iter data in
  foldM (point_step_rel n f) (combine ins tgs) (grad_zero Fl n).

(** network/mod.rs:243-338 *)
Definition net_gradient_opt_rel (n : network Fl) (data : dataset C C) (f : ComplexLossFunc) (lr : C)
  : outcome (network Fl * result unit ForwardError) :=
  if length n <=? 1 then Ret (n, Err MissingLayers)
  else
    g <- net_gradient_rel n data f ;;
    scale <- c_div Fl lr (c_of_nat Fl (length (ds_inputs data))) ;;
    n' <- mapM (update_layer Fl scale) (combine (combine (fst g) (snd g)) n) ;;
    Ret (n', Ok tt).
End ReleaseNet.
