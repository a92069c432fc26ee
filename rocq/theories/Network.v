(** * Model of src/cvnn/network/mod.rs *)
From Verif Require Import Base Float Matrix Cplx Random Act Input Loss Dense Conv Layer Dataset.

(** src/err/mod.rs:14-18, 24-30 *)
Inductive ForwardError := MissingLayers | InvalidLayerIndex.
Inductive LayerAdditionError := MissingInput | ExistentInput | MissingInitialization | IncompatibleIO.

Section Network.
Context (Fl : FloatOps) (p : prec).
Local Notation C := (cplx (F Fl)).
Local Notation O := (cops Fl).

(** network/mod.rs:14-16: a network is its list of layers. *)
Definition network : Type := list (clayer Fl).

(** network/mod.rs:20-24 *)
Definition net_new : network := [].

(** network/mod.rs:27-35 *)
Definition net_params_len (n : network) : nat :=
  fold_left (fun len l => len + (fst (layer_params_len Fl l) + snd (layer_params_len Fl l))) n 0.

(** network/mod.rs:39-51 *)
Definition net_input_shape (n : network) : result IOShape LayerAdditionError :=
  match n with [] => Err MissingInput | l :: _ => Ok (layer_input_shape Fl l) end.
Definition net_output_shape (n : network) : outcome (result IOShape LayerAdditionError) :=
  if length n =? 0 then Ret (Err MissingInput)
  else l <- unwrap_opt (nth_error n (length n - 1)) ;; Ret (Ok (layer_output_shape Fl l)).

(** network/mod.rs:58-70 *)
Definition net_add_input (n : network) (l : clayer Fl) : network * result unit LayerAdditionError :=
  if 0 <? length n then (n, Err ExistentInput)
  else if negb (layer_is_empty Fl l) then (n ++ [l], Ok tt)
  else (n, Err MissingInitialization).

(** network/mod.rs:74-87; [last().unwrap()] panics on an empty network. *)
Definition net_add (n : network) (l : clayer Fl) : outcome (network * result unit LayerAdditionError) :=
  if layer_is_empty Fl l then Ret (n, Err MissingInitialization)
  else last <- unwrap_opt (if length n =? 0 then None else nth_error n (length n - 1)) ;;
       if negb (shape_eqb (layer_output_shape Fl last) (layer_input_shape Fl l))
       then Ret (n, Err IncompatibleIO)
       else Ret (n ++ [l], Ok tt).

(** [layer.foward(&x).unwrap()] *)
Definition fwd (l : clayer Fl) (x : IOType C) : outcome (IOType C) :=
  r <-! layer_forward Fl p l x ;; Ret r.

(** network/mod.rs:95-111 *)
Definition net_forward (n : network) (x : IOType C) : outcome (result (IOType C) ForwardError) :=
  match n with
  | [] => Ret (Err MissingLayers)
  | l :: rest =>
      out <- fwd l x ;;
      out <- (if 1 <? length n then foldM (fun acc l => fwd l acc) rest out else Ret out) ;;
      Ret (Ok out)
  end.

(** network/mod.rs:129-137: the search loop of [intercept]. *)
Fixpoint intercept_loop (ls : network) (cur idx : nat) (x : IOType C) : outcome (IOType C * clayer Fl) :=
  match ls with
  | [] => Panic
  | l :: rest => if cur =? idx then Ret (x, l)
                 else y <- fwd l x ;; intercept_loop rest (S cur) idx y
  end.

(** network/mod.rs:123-138 *)
Definition net_intercept (n : network) (x : IOType C) (idx : nat)
  : outcome (result (IOType C * clayer Fl) ForwardError) :=
  last <- usub (length n) 1 ;;
  if last <? idx then Ret (Err InvalidLayerIndex)
  else r <- intercept_loop n 0 idx x ;; Ret (Ok r).

(** network/mod.rs:145-161 *)
Definition net_collect_acts (n : network) (x : IOType C) : outcome (result (list (IOType C)) ForwardError) :=
  match n with
  | [] => Ret (Err MissingLayers)
  | _ =>
      outs <- foldM (fun outs l =>
                a <- unwrap_opt (nth_error outs (length outs - 1)) ;;
                y <- fwd l a ;; Ret (outs ++ [y])) n [x] ;;
      Ret (Ok outs)
  end.

(** network/mod.rs:169-193.  [loss_vals.reduce(..).unwrap()] panics when there
    is no data point. *)
Definition net_loss (n : network) (data : dataset C C) (f : ComplexLossFunc)
  : outcome (result (F Fl) LossCalcError) :=
  let '(ins, tgs) := ds_points_iter data in
  vals <- mapM (fun it =>
            pred <-! net_forward n (fst it) ;;
            unwrap (loss Fl (snd it) pred f)) (combine ins tgs) ;;
  total <- unwrap_opt (reduce (fadd Fl) vals) ;;
  Ret (Ok (fdiv Fl total (fofnat Fl (length vals)))).

(** network/mod.rs:215-220 = 221-226: index of the largest modulus. *)
Definition max_index (l : list C) : nat :=
  fst (snd (fold_left (fun st e =>
              let '(i, acc) := st in
              (S i, if c_gt Fl e (snd acc) then (i, e) else acc))
            l (0, (0, c_default Fl)))).

(** network/mod.rs:201-234 *)
Definition net_max_pred_test (n : network) (data : dataset C C) : outcome (F Fl) :=
  let '(ins, tgs) := ds_points_iter data in
  results <- mapM (fun it =>
               prediction <-! net_forward n (fst it) ;;
               pred <- as_slice prediction ;;
               targ <- as_slice (snd it) ;;
               Ret (if max_index targ =? max_index pred then 1 else 0)) (combine ins tgs) ;;
  Ret (fdiv Fl (fofnat Fl (fold_left Nat.add results 0)) (fofnat Fl (length tgs))).

(** network/mod.rs:252-264: zeroed gradient accumulators. *)
Definition grad_zero (n : network) : list (list C) * list (list C) :=
  (map (fun l => if layer_propagates Fl l then repeat (c_default Fl) (fst (layer_params_len Fl l)) else []) n,
   map (fun l => if layer_propagates Fl l then repeat (c_default Fl) (snd (layer_params_len Fl l)) else []) n).

(** network/mod.rs:306-307: [v[i].add_slice_mut(&d).unwrap()]. *)
Definition acc_at (v : list (list C)) (i : nat) (d : list C) : outcome (list (list C)) :=
  x <- index v i ;;
  y <- unwrap (add_slice_mut O x d) ;;
  Ret (set_nth v i y).

(** State of the backward sweep: accumulators, [dlda], [dlda_conj], [l]. *)
Record bstate := mkB {
  b_w : list (list C); b_b : list (list C);
  b_dlda : list C; b_dldac : list C; b_l : nat;
}.

(** network/mod.rs:300-309 *)
Definition back_step (n_layers : nat) (st : bstate) (al : IOType C * clayer Fl) : outcome bstate :=
  let '(prev, layer) := al in
  if layer_propagates Fl layer then
    d <-! layer_derivatives Fl p layer prev (b_dlda st) (b_dldac st) ;;
    let '(dldw, dldb, dlda, dldac) := d in
    i <- (a <- usub n_layers (b_l st) ;; usub a 1) ;;
    w <- acc_at (b_w st) i dldw ;;
    b <- acc_at (b_b st) i dldb ;;
    Ret (mkB w b dlda dldac (S (b_l st)))
  else Ret (mkB (b_w st) (b_b st) (b_dlda st) (b_dldac st) (S (b_l st))).

(** network/mod.rs:271-312: one data point. *)
Definition point_step (n : network) (f : ComplexLossFunc)
    (g : list (list C) * list (list C)) (it : IOType C * IOType C)
  : outcome (list (list C) * list (list C)) :=
  acts <-! net_collect_acts n (fst it) ;;
  match rev acts with
  | [] => Panic
  | prediction :: activations =>
      dlda <- unwrap (d_loss Fl (snd it) prediction f) ;;
      st <- foldM (back_step (length n)) (combine activations (rev n))
                  (mkB (fst g) (snd g) dlda (map (c_conj Fl) dlda) 0) ;;
      Ret (b_w st, b_b st)
  end.

(** network/mod.rs:243-312: the accumulated gradient of a batch. *)
Definition net_gradient (n : network) (data : dataset C C) (f : ComplexLossFunc)
  : outcome (list (list C) * list (list C)) :=
  let '(ins, tgs) := ds_points_iter data in
  foldM (point_step n f) (combine ins tgs) (grad_zero n).

(** network/mod.rs:324-335: the update of one layer. *)
Definition update_layer (scale : C) (gl : (list C * list C) * clayer Fl) : outcome (clayer Fl) :=
  let '((dldw, dldb), layer) := gl in
  if layer_propagates Fl layer then
    l' <-! layer_adjust Fl layer (slice_mul_mut_scalar O dldw scale) (slice_mul_mut_scalar O dldb scale) ;;
    Ret l'
  else Ret layer.

(** network/mod.rs:243-338.  An [Err] leaves the network as it was; what a panic
    leaves is modelled in InPlace.v. *)
Definition net_gradient_opt (n : network) (data : dataset C C) (f : ComplexLossFunc) (lr : C)
  : outcome (network * result unit ForwardError) :=
  if length n <=? 1 then Ret (n, Err MissingLayers)
  else
    g <- net_gradient n data f ;;
    scale <- c_div Fl lr (c_of_nat Fl (length (ds_inputs data))) ;;
    n' <- mapM (update_layer scale) (combine (combine (fst g) (snd g)) n) ;;
    Ret (n', Ok tt).

(** network/mod.rs:342-344 *)
Definition net_mvn_opt (_ : network) : outcome network := Panic.

End Network.
