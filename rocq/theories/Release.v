(** * The release profile: [usize] arithmetic wraps instead of panicking

    The other files model the dev profile, where a [usize] underflow panics
    ([usub]).  In a release build (Cargo.toml sets no [overflow-checks]) the same
    operations are taken modulo the word size.  Here are the matrix functions
    whose arithmetic can underflow, again, with wrap-around; [U] is the number
    of values of [usize] (2^64 on the usual targets).  Everything else in their
    bodies is unchanged.  Layers and networks follow in ReleaseNet.v.  Not
    repeated: the functions whose subtractions cannot underflow, and the
    allocator's failure on absurd sizes. *)
From Verif Require Import Base Float Matrix Cplx Input Dense Conv Layer Network.

Section Release.
Context (U : nat).

(** [a - b] and [a + 2 * b] on [usize] without overflow checks. *)
Definition wsub (a b : nat) : nat := if b <=? a then a - b else U + a - b.
Definition wpad (a b : nat) : nat := (a + 2 * b) mod U.

Section Numeric.
Context {T : Type} (O : BasicOps T).

(** mod.rs:384-411 *)
Definition pad_row_rel (m : matrix T) (p q : nat) (st : list T * list T) (row_id : nat) : outcome (list T * list T) :=
  let padded_rows := wpad (sh0 m) p in
  let padded_cols := wpad (sh1 m) q in
  let '(out, rest) := st in
  if row_id <? p then Ret (out ++ repeat (dflt O) padded_cols, rest)
  else if wsub padded_rows p <=? row_id then Ret (out ++ repeat (dflt O) padded_cols, rest)
  else d <- slice rest 0 (sh1 m) ;;
       Ret (out ++ (repeat (dflt O) q ++ d ++ repeat (dflt O) q), skipn (sh1 m) rest).
Definition pad_rel (m : matrix T) (p q : nat) : outcome (matrix T) :=
  st <- foldM (pad_row_rel m p q) (seq 0 (wpad (sh0 m) p)) ([], body m) ;;
  Ret (from_body (fst st) (wpad (sh0 m) p) (wpad (sh1 m) q)).

(** mod.rs:492-535; a row ([conv_row]) does no subtraction. *)
Definition convolution_rel (m k : matrix T) : outcome (result (matrix T) OperationError) :=
  if (sh0 m <? sh0 k) || (sh1 m <? sh1 k) then Ret (Err Op_InvalidRHS)
  else
    let f0 := wsub (sh0 m) (wsub (sh0 k) 1) in
    let f1 := wsub (sh1 m) (wsub (sh1 k) 1) in
    body' <- flat_mapM (conv_row O m k f1) (seq 0 f0) ;;
    r <- unwrap (to_matrix body' f0 f1) ;;
    Ret (Ok r).

(** mod.rs:634-677 *)
Definition cconvolution_rel (cj : T -> T) (m k : matrix T) : outcome (result (matrix T) OperationError) :=
  let f0 := wsub (sh0 m) (wsub (sh0 k) 1) in
  let f1 := wsub (sh1 m) (wsub (sh1 k) 1) in
  ck <- unwrap (to_matrix (map cj (body k)) (sh0 k) (sh1 k)) ;;
  body' <- flat_mapM (fun i =>
     slider <- get_slider m i (sh0 k) ;;
     krows <- rows_as_iter ck ;;
     foldM (fun acc fk =>
              ws <- windows (sh1 k) (fst fk) ;;
              let reduced := map (fun section => scalar_prod O section (snd fk)) ws in
              unwrap (add_slice_mut O acc reduced))
           (combine slider krows) (repeat (dflt O) f1)) (seq 0 f0) ;;
  r <- unwrap (to_matrix body' f0 f1) ;;
  Ret (Ok r).

(** mod.rs:581-629 *)
Definition fractional_upsampling_rel (m : matrix T) (b0 b1 : nat) (kernel : matrix T)
  : outcome (result (matrix T) OperationError) :=
  rows <- rows_as_iter m ;;
  let upper := if b0 mod 2 =? 0 then wsub (b0 / 2) 1 else wsub b0 1 / 2 in
  let bottom := wsub (wsub b0 upper) 1 in
  let left := if b1 mod 2 =? 0 then wsub (b1 / 2) 1 else wsub b0 1 / 2 in
  let right := wsub (wsub b1 left) 1 in
  let f0 := sh0 m * b0 in
  let f1 := sh1 m * b1 in
  st <- foldM (fun st (_ : nat) =>
          match snd st with
          | [] => Panic
          | r :: rest =>
              Ret (fst st
                   ++ concat (repeat (repeat (dflt O) f1) upper)
                   ++ flat_map (fun e => repeat (dflt O) left ++ [e] ++ repeat (dflt O) right) r
                   ++ concat (repeat (repeat (dflt O) f1) bottom), rest)
          end) (seq 0 (sh0 m)) ([], rows) ;;
  let res := fst st in
  if negb (length res =? f0 * f1) then Panic
  else
    let matrix_res := from_body res f0 f1 in
    if (sh0 kernel mod 2 =? 0) || (sh1 kernel mod 2 =? 0) then Ret (Err Op_InvalidRHS)
    else
      let p := wsub (sh0 kernel) 2 in
      padded <- pad_rel matrix_res p p ;;
      out <-! convolution_rel padded kernel ;;
      Ret (Ok out).
End Numeric.

Section Net.
Context (Fl : FloatOps).
Local Notation C := (cplx (F Fl)).

(** reduce.rs:112-134 *)
Definition red_step_rel (l : red Fl) (st : list (list C) * list (list C) * list C * list C) (feature : matrix C)
  : outcome (list (list C) * list (list C) * list C * list C) :=
  let '(ca, cb, na, nb) := st in
  f0 <- udiv (sh0 feature) (r_b0 l) ;;
  f1 <- udiv (sh1 feature) (r_b1 l) ;;
  match ca with
  | [] => Panic
  | a :: ca' =>
      ma <- unwrap (to_matrix a f0 f1) ;;
      ua <-! fractional_upsampling_rel (cops Fl) ma (r_b0 l) (r_b1 l) (r_kernel l) ;;
      match cb with
      | [] => Panic
      | b :: cb' =>
          mb <- unwrap (to_matrix b f0 f1) ;;
          ub <-! fractional_upsampling_rel (cops Fl) mb (r_b0 l) (r_b1 l) (r_kernel l) ;;
          Ret (ca', cb', na ++ body ua, nb ++ body ub)
      end
  end.

(** reduce.rs:100-140 *)
Definition red_derivatives_rel (l : red Fl) (prev : IOType C) (dlda dlda_conj : list C)
  : outcome (result (derivs Fl) GradientError) :=
  match prev with
  | IOMatrix features =>
      ch <- udiv (length dlda) (length features) ;;
      ca <- chunks ch dlda ;;
      cb <- chunks ch dlda_conj ;;
      '(_, _, na, nb) <- foldM (red_step_rel l) features (ca, cb, [], []) ;;
      Ret (Ok ([], [], na, nb))
  | _ => Ret (Err G_InconsistentShape)
  end.

(** network/mod.rs:123-138 *)
Definition net_intercept_rel (p : prec) (n : network Fl) (x : IOType C) (idx : nat)
  : outcome (result (IOType C * clayer Fl) ForwardError) :=
  if wsub (length n) 1 <? idx then Ret (Err InvalidLayerIndex)
  else r <- intercept_loop Fl p n 0 idx x ;; Ret (Ok r).
End Net.
End Release.
