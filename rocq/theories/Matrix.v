(** * Model of src/math/matrix/mod.rs *)
From Verif Require Import Base.

(** src/math/matrix/err.rs:1-22 *)
Inductive AccessError := Acc_OutOfBounds.
Inductive UpdateError := Upd_InconsistentLength | Upd_Overflow.
Inductive DeletionError := Del_OutOfBounds | Del_Empty.
Inductive OperationError := Op_OutOfBounds | Op_InconsistentShape | Op_InvalidRHS.

(** src/math/mod.rs:23-25, trait [BasicOperations]: the operators the matrix
    code needs.  The assignment operators are separate fields because the
    crate implements them separately.  Division may panic (complex numbers). *)
Record BasicOps (T : Type) := mkBasicOps {
  dflt : T;
  add : T -> T -> T;
  add_assign : T -> T -> T;
  sub : T -> T -> T;
  sub_assign : T -> T -> T;
  mul : T -> T -> T;
  mul_assign : T -> T -> T;
  div : T -> T -> outcome T;
  div_assign : T -> T -> outcome T;
}.
Arguments mkBasicOps {T}.
Arguments dflt {T} _.
Arguments add {T} _ _ _.
Arguments add_assign {T} _ _ _.
Arguments sub {T} _ _ _.
Arguments sub_assign {T} _ _ _.
Arguments mul {T} _ _ _.
Arguments mul_assign {T} _ _ _.
Arguments div {T} _ _ _.
Arguments div_assign {T} _ _ _.

(** mod.rs:21-33, struct [Matrix<T>]; [shape] is ([sh0],[sh1]), [capacity] is
    ([cap0],[cap1]). *)
Record matrix (T : Type) := mkM {
  body : list T;
  sh0 : nat;
  sh1 : nat;
  cap0 : nat;
  cap1 : nat;
}.
Arguments mkM {T}.
Arguments body {T} _.
Arguments sh0 {T} _.
Arguments sh1 {T} _.
Arguments cap0 {T} _.
Arguments cap1 {T} _.

Section Generic.
Context {T : Type}.

(** mod.rs:37-43 *)
Definition m_new : matrix T := mkM [] 0 0 0 0.

(** mod.rs:56-61.  Simplification: allocation of [capacity[0]*capacity[1]]
    elements always succeeds. *)
Definition m_with_capacity (c0 c1 : nat) : matrix T := mkM [] 0 0 c0 c1.

(** mod.rs:64-70 *)
Definition m_is_empty (m : matrix T) : bool :=
  (length (body m) =? 0) && ((sh0 m =? 0) && (sh1 m =? 0)) && ((cap0 m =? 0) && (cap1 m =? 0)).

(** mod.rs:73-77; note that the body length is not checked. *)
Definition from_body (b : list T) (r c : nat) : matrix T := mkM b r c r c.

(** mod.rs:80-82; [get_body] (85-87) and [body_into_iter] (306-308) return the
    same data. *)
Definition export_body (m : matrix T) : list T := body m.

(** mod.rs:90-92 [get_body_as_mut]: the caller may overwrite elements but not
    change the length; modelled as replacing the body. *)
Definition with_body (m : matrix T) (b : list T) : matrix T :=
  mkM b (sh0 m) (sh1 m) (cap0 m) (cap1 m).

(** mod.rs:105-108 *)
Definition dealloc (m : matrix T) : matrix T := mkM (body m) (sh0 m) (sh1 m) (sh0 m) (sh1 m).

(** mod.rs:116-123 *)
Definition elm (m : matrix T) (i j : nat) : outcome (result T AccessError) :=
  if (sh0 m <=? i) || (sh1 m <=? j) then Ret (Err Acc_OutOfBounds)
  else x <- index (body m) (i * sh1 m + j) ;; Ret (Ok x).

(** mod.rs:131-138: [*m.elm_mut(i,j)? = v]. *)
Definition elm_write (m : matrix T) (i j : nat) (v : T) : outcome (matrix T * result unit AccessError) :=
  if (sh0 m <=? i) || (sh1 m <=? j) then Ret (m, Err Acc_OutOfBounds)
  else _ <- index (body m) (i * sh1 m + j) ;;
       Ret (with_body m (set_nth (body m) (i * sh1 m + j) v), Ok tt).

(** mod.rs:145-154 *)
Definition row (m : matrix T) (i : nat) : outcome (result (list T) AccessError) :=
  if sh0 m <=? i then Ret (Err Acc_OutOfBounds)
  else r <- slice (body m) (i * sh1 m) (i * sh1 m + sh1 m) ;; Ret (Ok r).

(** mod.rs:161-170: the slice handed out by [row_as_mut(i)] overwritten with
    [v] (a slice has a fixed length, so only as many entries as the row has are
    written). *)
Definition row_write (m : matrix T) (i : nat) (v : list T) : outcome (matrix T * result unit AccessError) :=
  if sh0 m <=? i then Ret (m, Err Acc_OutOfBounds)
  else r <- slice (body m) (i * sh1 m) (i * sh1 m + sh1 m) ;;
       Ret (with_body m (firstn (i * sh1 m) (body m) ++ zip_assign (fun _ b => b) r v
                         ++ skipn (i * sh1 m + sh1 m) (body m)), Ok tt).

(** mod.rs:178-195.  [shape[0]] is incremented, then decremented again when
    the row does not fit. *)
Definition add_row (m : matrix T) (r : list T) : matrix T * result unit UpdateError :=
  if negb ((length r =? sh1 m) || ((sh0 m =? 0) && (sh1 m =? 0)))
  then (m, Err Upd_InconsistentLength)
  else
    let s0 := sh0 m + 1 in
    if (cap0 m <? s0) || ((cap1 m <? sh1 m) || (cap1 m <? length r))
    then (mkM (body m) (s0 - 1) (sh1 m) (cap0 m) (cap1 m), Err Upd_Overflow)
    else (mkM (body m ++ r) s0 (length r) (cap0 m) (cap1 m), Ok tt).

(** mod.rs:204-218; returns the new matrix and what is left in the caller's
    vector ([Vec::append] empties it). *)
Definition add_mut_row (m : matrix T) (r : list T) : matrix T * list T * result unit UpdateError :=
  if negb ((length r =? sh1 m) || (sh1 m =? 0)) then (m, r, Err Upd_InconsistentLength)
  else if (cap0 m <=? sh0 m) || (cap1 m <? sh1 m) then (m, r, Err Upd_Overflow)
  else (mkM (body m ++ r) (sh0 m + 1) (length r) (cap0 m) (cap1 m), [], Ok tt).

(** mod.rs:221-246.  The second test (227) can never succeed after the first;
    it is kept.  [drain(init..end)] panics when the range leaves the body. *)
Definition del_row (m : matrix T) (i : nat) : outcome (matrix T * result (list T) DeletionError) :=
  if sh0 m <=? i then Ret (m, Err Del_OutOfBounds)
  else if sh0 m =? 0 then Ret (m, Err Del_Empty)
  else
    let s0 := sh0 m - 1 in
    let init := i * sh1 m in
    let end_ := i * sh1 m + sh1 m in
    r <- slice (body m) init end_ ;;
    let b := firstn init (body m) ++ skipn end_ (body m) in
    let s1 := if s0 =? 0 then 0 else sh1 m in
    Ret (dealloc (mkM b s0 s1 (cap0 m) (cap1 m)), Ok r).

(** One [splice(p..p, Some(v))]: insertion at [p], panics when [p > len]. *)
Definition insert_at (l : list T) (p : nat) (v : list T) : outcome (list T) :=
  if p <=? length l then Ret (firstn p l ++ v ++ skipn p l) else Panic.

(** mod.rs:259-283; returns the new matrix and what is left in the caller's
    vector.  [col.reverse()] then [col.pop()] takes the elements in order;
    [None] (never reached) would insert nothing. *)
Definition add_col (m : matrix T) (col : list T) : outcome (matrix T * list T * result unit UpdateError) :=
  if length col =? sh0 m then Ret (m, col, Err Upd_InconsistentLength)
  else if sh1 m <? cap1 m then Ret (m, col, Err Upd_Overflow)
  else
    let s1 := sh1 m + 1 in
    let s0 := length col in
    st <- foldM (fun (st : list T * list T) i =>
            let last := i * s1 + s1 - 1 in
            match snd st with
            | [] => b <- insert_at (fst st) last [] ;; Ret (b, [])
            | v :: rest => b <- insert_at (fst st) last [v] ;; Ret (b, rest)
            end) (seq 0 s0) (body m, col) ;;
    Ret (mkM (fst st) s0 s1 (cap0 m) (cap1 m), snd st, Ok tt).

(** mod.rs:286-288; [rows_as_iter_mut] (291-293) and the rayon variant
    [rows_as_par_chunks] (313-315) cut the body the same way. *)
Definition rows_as_iter (m : matrix T) : outcome (list (list T)) := chunks (sh1 m) (body m).

(** mod.rs:297-303 *)
Definition get_slider (m : matrix T) (i rows : nat) : outcome (list (list T)) :=
  let cols := sh1 m in
  s <- slice (body m) (i * cols) (i * cols + rows * cols) ;;
  chunks cols s.

(** mod.rs:320-331 *)
Definition flip (m : matrix T) : outcome (result (matrix T) AccessError) :=
  rows <- mapM (fun i => mapM (fun j => x <-! elm m i j ;; Ret x) (rev (seq 0 (sh1 m))))
            (rev (seq 0 (sh0 m))) ;;
  Ret (Ok (from_body (concat rows) (sh0 m) (sh1 m))).

(** mod.rs:334-345: returns what the caller's slice holds afterwards. *)
Definition row_into_slice (m : matrix T) (i : nat) (res : list T) : outcome (list T * result unit OperationError) :=
  if sh0 m <=? i then Ret (res, Err Op_OutOfBounds)
  else if negb (length res =? sh1 m) then Ret (res, Err Op_InconsistentShape)
  else r <- slice (body m) (i * sh1 m) (i * sh1 m + sh1 m) ;; Ret (r, Ok tt).

(** mod.rs:357-367 *)
Definition col_into_slice (m : matrix T) (j : nat) (res : list T) : outcome (list T * result unit OperationError) :=
  if sh1 m <=? j then Ret (res, Err Op_OutOfBounds)
  else if negb (length res =? sh0 m) then Ret (res, Err Op_InconsistentShape)
  else r <- foldM (fun acc i => x <- index (body m) (i * sh1 m + j) ;; Ret (set_nth acc i x))
              (seq 0 (sh0 m)) res ;;
       Ret (r, Ok tt).

(** mod.rs:370-379 *)
Definition copy_col_into_vec (m : matrix T) (j : nat) : outcome (result (list T) OperationError) :=
  if sh1 m <=? j then Ret (Err Op_OutOfBounds)
  else r <- mapM (fun i => index (body m) (i * sh1 m + j)) (seq 0 (sh0 m)) ;; Ret (Ok r).

(** mod.rs:783-790, [to_matrix] on slices. *)
Definition to_matrix (l : list T) (r c : nat) : result (matrix T) OperationError :=
  if negb (length l =? r * c) then Err Op_InconsistentShape else Ok (from_body l r c).

End Generic.

Section Numeric.
Context {T : Type} (O : BasicOps T).

(** mod.rs:384-411.  The closure drains [shape[1]] elements from the front of
    the remaining body for every inner row; the remaining body is threaded as
    state.  [padded_rows - pad.0] cannot underflow. *)
Definition pad_row (m : matrix T) (p q : nat) (st : list T * list T) (row_id : nat) : outcome (list T * list T) :=
  let padded_rows := sh0 m + 2 * p in
  let padded_cols := sh1 m + 2 * q in
  let '(out, rest) := st in
  if row_id <? p then Ret (out ++ repeat (dflt O) padded_cols, rest)
  else if padded_rows - p <=? row_id then Ret (out ++ repeat (dflt O) padded_cols, rest)
  else d <- slice rest 0 (sh1 m) ;;
       Ret (out ++ (repeat (dflt O) q ++ d ++ repeat (dflt O) q), skipn (sh1 m) rest).
Definition pad (m : matrix T) (p q : nat) : outcome (matrix T) :=
  st <- foldM (pad_row m p q) (seq 0 (sh0 m + 2 * p)) ([], body m) ;;
  Ret (from_body (fst st) (sh0 m + 2 * p) (sh1 m + 2 * q)).

(** mod.rs:414-436 *)
Definition add_mut (m rhs : matrix T) : result (matrix T) OperationError :=
  if negb ((sh0 m =? sh0 rhs) && (sh1 m =? sh1 rhs)) && (negb (m_is_empty m) && negb (m_is_empty rhs))
  then Err Op_InconsistentShape
  else if m_is_empty m then Ok (mkM (body rhs) (sh0 rhs) (sh1 rhs) (cap0 rhs) (cap1 rhs))
  else if m_is_empty rhs then Ok m
  else Ok (with_body m (zip_assign (add_assign O) (body m) (body rhs))).

(** mod.rs:439-443 *)
Definition add_mut_scalar (m : matrix T) (s : T) : matrix T :=
  with_body m (map (fun e => add_assign O e s) (body m)).

(** mod.rs:770-775, [scalar_prod] on slices. *)
Definition scalar_prod (l r : list T) : T :=
  fold_left (fun acc lr => add O acc (mul O (fst lr) (snd lr))) (combine l r) (dflt O).

(** mod.rs:446-459 *)
Definition mul_vec (m : matrix T) (v : list T) : outcome (result (list T) OperationError) :=
  if negb (sh1 m =? length v) then Ret (Err Op_InvalidRHS)
  else rows <- rows_as_iter m ;;
       Ret (Ok (map (fun r => fold_left (fun acc e => add O acc (mul O (fst e) (snd e))) (combine r v) (dflt O)) rows)).

(** mod.rs:462-475 *)
Definition mul_slice (m : matrix T) (v : list T) : outcome (result (list T) OperationError) :=
  if negb (sh1 m =? length v) then Ret (Err Op_InvalidRHS)
  else rows <- rows_as_iter m ;;
       Ret (Ok (map (fun r => fold_left (fun acc e => add O acc (mul O (fst e) (snd e))) (combine r v) (dflt O)) rows)).

(** mod.rs:478-482 and 485-489 *)
Definition mul_mut_scalar (m : matrix T) (s : T) : matrix T :=
  with_body m (map (fun e => mul_assign O e s) (body m)).
Definition div_mut_scalar (m : matrix T) (s : T) : outcome (matrix T) :=
  b <- mapM (fun e => div_assign O e s) (body m) ;; Ret (with_body m b).

(** mod.rs:698-707; [Err] leaves the receiver as it was (the length test comes
    first). *)
Definition add_slice_mut (l r : list T) : result (list T) OperationError :=
  if negb (length l =? length r) then Err Op_InconsistentShape
  else Ok (zip_assign (add_assign O) l r).

(** mod.rs:710-724 *)
Definition add_slice (l r : list T) : result (list T) OperationError :=
  if length l =? 0 then Ok r
  else if negb (length l =? length r) then Err Op_InconsistentShape
  else Ok (map (fun lr => add O (fst lr) (snd lr)) (combine l r)).

(** mod.rs:727-736 *)
Definition mul_slice_mut (l r : list T) : result (list T) OperationError :=
  if negb (length l =? length r) then Err Op_InconsistentShape
  else Ok (zip_assign (mul_assign O) l r).

(** mod.rs:739-749 *)
Definition mul_slices (l r : list T) : result (list T) OperationError :=
  if negb (length l =? length r) then Err Op_InconsistentShape
  else Ok (map (fun lr => mul O (fst lr) (snd lr)) (combine l r)).

(** mod.rs:752-758 and 761-767 *)
Definition slice_mul_mut_scalar (l : list T) (s : T) : list T := map (fun e => mul_assign O e s) l.
Definition slice_div_mut_scalar (l : list T) (s : T) : outcome (list T) := mapM (fun e => div_assign O e s) l.

(** mod.rs:509-531: one row of the convolved matrix.  [f1] is the final number
    of columns. *)
Definition conv_row (m k : matrix T) (f1 i : nat) : outcome (list T) :=
  slider <- get_slider m i (sh0 k) ;;
  krows <- rows_as_iter k ;;
  foldM (fun acc fk =>
           ws <- windows (sh1 k) (fst fk) ;;
           let reduced := map (fun section => scalar_prod section (snd fk)) ws in
           unwrap (add_slice_mut acc reduced))
        (combine slider krows) (repeat (dflt O) f1).

(** mod.rs:492-535 *)
Definition convolution (m k : matrix T) : outcome (result (matrix T) OperationError) :=
  if (sh0 m <? sh0 k) || (sh1 m <? sh1 k) then Ret (Err Op_InvalidRHS)
  else
    a <- usub (sh0 k) 1 ;; f0 <- usub (sh0 m) a ;;
    b <- usub (sh1 k) 1 ;; f1 <- usub (sh1 m) b ;;
    body' <- flat_mapM (conv_row m k f1) (seq 0 f0) ;;
    r <- unwrap (to_matrix body' f0 f1) ;;
    Ret (Ok r).

(** mod.rs:634-677, [cconvolution]: no size check, kernel conjugated ([cj]). *)
Definition cconvolution (cj : T -> T) (m k : matrix T) : outcome (result (matrix T) OperationError) :=
  a <- usub (sh0 k) 1 ;; f0 <- usub (sh0 m) a ;;
  b <- usub (sh1 k) 1 ;; f1 <- usub (sh1 m) b ;;
  ck <- unwrap (to_matrix (map cj (body k)) (sh0 k) (sh1 k)) ;;
  body' <- flat_mapM (fun i =>
     slider <- get_slider m i (sh0 k) ;;
     krows <- rows_as_iter ck ;;
     foldM (fun acc fk =>
              ws <- windows (sh1 k) (fst fk) ;;
              let reduced := map (fun section => scalar_prod section (snd fk)) ws in
              unwrap (add_slice_mut acc reduced))
           (combine slider krows) (repeat (dflt O) f1)) (seq 0 f0) ;;
  r <- unwrap (to_matrix body' f0 f1) ;;
  Ret (Ok r).

(** mod.rs:563-571: one output row.  [sliders] are the chunk iterators of the
    current block rows; each column step takes the next chunk of each. *)
Definition take_heads (sliders : list (list (list T))) : outcome (list T * list (list (list T))) :=
  foldM (fun st s =>
           match s with
           | [] => Panic
           | h :: t => Ret (fst st ++ h, snd st ++ [t])
           end) sliders ([], []).
Definition block_row (f : list T -> outcome T) (n_cols : nat) (sliders : list (list (list T))) : outcome (list T) :=
  st <- foldM (fun st (_ : nat) =>
          bh <- take_heads (snd st) ;;
          v <- f (fst bh) ;;
          Ret (fst st ++ [v], snd bh)) (seq 0 n_cols) ([], sliders) ;;
  Ret (fst st).

(** mod.rs:538-577.  [rest] is the row iterator; [matrix_rows.next().unwrap()]
    panics when it runs dry. *)
Definition block_reduce (m : matrix T) (b0 b1 : nat) (f : list T -> outcome T)
  : outcome (result (matrix T) OperationError) :=
  r0 <- umod (sh0 m) b0 ;;
  bad <- (if negb (r0 =? 0) then Ret true else r1 <- umod (sh1 m) b1 ;; Ret (negb (r1 =? 0))) ;;
  if bad : bool then Ret (Err Op_InconsistentShape)
  else if (sh0 m <? b0) || (sh1 m <? b1) then Ret (Err Op_InconsistentShape)
  else
    rows <- rows_as_iter m ;;
    n_rows <- udiv (sh0 m) b0 ;;
    n_cols <- udiv (sh1 m) b1 ;;
    st <- foldM (fun st (_ : nat) =>
            (* the next b0 rows, each cut into chunks *)
            taken <- foldM (fun st2 (_ : nat) =>
                        match snd st2 with
                        | [] => Panic
                        | r :: rest => cs <- chunks b1 r ;; Ret (fst st2 ++ [cs], rest)
                        end) (seq 0 b0) ([], snd st) ;;
            out <- block_row f n_cols (fst taken) ;;
            Ret (fst st ++ out, snd taken)) (seq 0 n_rows) ([], rows) ;;
    Ret (Ok (from_body (fst st) n_rows n_cols)).

(** mod.rs:581-629.  Note [left] (589) uses [block_size[0]] in the odd case,
    and both paddings (624) use [kernel_shape[0]]. *)
Definition fractional_upsampling (m : matrix T) (b0 b1 : nat) (kernel : matrix T)
  : outcome (result (matrix T) OperationError) :=
  rows <- rows_as_iter m ;;
  upper <- (if b0 mod 2 =? 0 then usub (b0 / 2) 1 else (x <- usub b0 1 ;; Ret (x / 2))) ;;
  bottom <- (x <- usub b0 upper ;; usub x 1) ;;
  left <- (if b1 mod 2 =? 0 then usub (b1 / 2) 1 else (x <- usub b0 1 ;; Ret (x / 2))) ;;
  right <- (x <- usub b1 left ;; usub x 1) ;;
  let f0 := sh0 m * b0 in
  let f1 := sh1 m * b1 in
  st <- foldM (fun st (_ : nat) =>
          match snd st with
          | [] => Panic
          | r :: rest =>
              Ret (fst st
                   ++ concat (repeat (repeat (dflt O) f1) upper)
                   ++ flat_map (fun e => repeat (dflt O) left ++ [e] ++ repeat (dflt O) right) r
                   ++ concat (repeat (repeat (dflt O) f1) bottom), rest)
          end) (seq 0 (sh0 m)) ([], rows) ;;
  let res := fst st in
  if negb (length res =? f0 * f1) then Panic
  else
    let matrix_res := from_body res f0 f1 in
    if (sh0 kernel mod 2 =? 0) || (sh1 kernel mod 2 =? 0) then Ret (Err Op_InvalidRHS)
    else
      p <- usub (sh0 kernel) 2 ;;
      padded <- pad matrix_res p p ;;
      out <-! convolution padded kernel ;;
      Ret (Ok out).

End Numeric.
