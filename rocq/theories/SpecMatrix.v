(** * Vocabulary for stating properties of matrices.

    Nothing here is taken from the model's algorithms: a matrix is described by
    its shape and by the function giving its entries. *)
From Coq Require String Ascii.
From Verif Require Import Base Matrix.

(** The character that ends a line: number 10. *)
Definition line_feed : String.string := String.String (Ascii.ascii_of_nat 10) String.EmptyString.


Section Spec.
Context {T : Type}.

(** A matrix is well formed when its body has rows*cols elements. *)
Definition wf (m : matrix T) : Prop := length (body m) = sh0 m * sh1 m.

(** Row-major entry (i, j); [d] is returned outside the body. *)
Definition entry (d : T) (m : matrix T) (i j : nat) : T := nth (i * sh1 m + j) (body m) d.

(** Row [i] of an [r x c] table of values. *)
Definition tab_row (f : nat -> nat -> T) (c i : nat) : list T := map (f i) (seq 0 c).
Definition tab_rows (r c : nat) (f : nat -> nat -> T) : list (list T) :=
  map (tab_row f c) (seq 0 r).

(** The [r x c] matrix with entries [f i j] and no spare capacity. *)
Definition mat (r c : nat) (f : nat -> nat -> T) : matrix T :=
  mkM (concat (tab_rows r c f)) r c r c.

End Spec.

(** [sum_from op z f n] is [(((z op f 0) op f 1) ...) op f (n-1)], evaluated in
    that order: with a rounded [op] the order is part of the meaning. *)
Definition sum_from {A B : Type} (op : A -> B -> A) (z : A) (f : nat -> B) (n : nat) : A :=
  fold_left (fun acc i => op acc (f i)) (seq 0 n) z.

(** Valid cross-correlation of a table [f] with an [a x b] kernel [k]: entry
    (i, j) is the sum over u of the sum over v of f(i+u, j+v) * k(u, v). *)
Definition corr {T : Type} (O : BasicOps T) (a b : nat) (f k : nat -> nat -> T) (i j : nat) : T :=
  sum_from (add_assign O) (dflt O)
    (fun u => sum_from (add O) (dflt O) (fun v => mul O (f (i + u) (j + v)) (k u v)) b) a.

(** An [r x c] table [f] framed by [p] rows and [q] columns of [z]. *)
Definition framed {T : Type} (z : T) (r c p q : nat) (f : nat -> nat -> T) (i j : nat) : T :=
  if (p <=? i) && (i <? p + r) && (q <=? j) && (j <? q + c) then f (i - p) (j - q) else z.

(** Block (i, j) of size [a x b], in row-major order. *)
Definition block {T : Type} (a b : nat) (f : nat -> nat -> T) (i j : nat) : list T :=
  concat (tab_rows a b (fun u v => f (i * a + u) (j * b + v))).

(** Zero stuffing: entry (i, j) of [f] is placed at offset [(p, q)] of its
    [a x b] block, everything else is [z]. *)
Definition stuffed {T : Type} (z : T) (a b p q : nat) (f : nat -> nat -> T) (i j : nat) : T :=
  if (i mod a =? p) && (j mod b =? q) then f (i / a) (j / b) else z.

(** Offset of a value inside its zero-stuffed block, as the code computes it:
    the column offset of an odd width [b] is taken from the block height
    [other].  For square blocks it is (b-1)/2. *)
Definition up_off (b other : nat) : nat := if b mod 2 =? 0 then b / 2 - 1 else (other - 1) / 2.

(** ** Histories of row operations *)
Section Hist.
Context {T : Type}.

Inductive rowop := AddRow (r : list T) | DelRow (i : nat) | Dealloc.
Inductive rowout :=
| OutAdd (r : result unit UpdateError)
| OutDel (r : result (list T) DeletionError)
| OutUnit.

(** Running a history of calls on the model. *)
Definition m_step (m : matrix T) (o : rowop) : outcome (matrix T * rowout) :=
  match o with
  | AddRow r => let '(m', x) := add_row m r in Ret (m', OutAdd x)
  | DelRow i => '(m', x) <- del_row m i ;; Ret (m', OutDel x)
  | Dealloc => Ret (dealloc m, OutUnit)
  end.
Fixpoint m_run (m : matrix T) (ops : list rowop) : outcome (matrix T * list rowout) :=
  match ops with
  | [] => Ret (m, [])
  | o :: os => '(m', x) <- m_step m o ;; '(m'', xs) <- m_run m' os ;; Ret (m'', x :: xs)
  end.

(** The specification: an abstract list of rows and a capacity. *)
Record rstate := mkR { r_rows : list (list T); r_cap : nat * nat }.
Definition width (rows : list (list T)) : nat := match rows with [] => 0 | r :: _ => length r end.
Definition s_step (s : rstate) (o : rowop) : rstate * rowout :=
  let n := length (r_rows s) in
  match o with
  | AddRow r =>
      if negb (n =? 0) && negb (length r =? width (r_rows s)) then (s, OutAdd (Err Upd_InconsistentLength))
      else if (fst (r_cap s) <? n + 1) || (snd (r_cap s) <? length r) then (s, OutAdd (Err Upd_Overflow))
      else (mkR (r_rows s ++ [r]) (r_cap s), OutAdd (Ok tt))
  | DelRow i =>
      match nth_error (r_rows s) i with
      | None => (s, OutDel (Err Del_OutOfBounds))
      | Some r => let rows := firstn i (r_rows s) ++ skipn (S i) (r_rows s) in
                  (mkR rows (length rows, width rows), OutDel (Ok r))
      end
  | Dealloc => (mkR (r_rows s) (n, width (r_rows s)), OutUnit)
  end.
Fixpoint s_run (s : rstate) (ops : list rowop) : rstate * list rowout :=
  match ops with
  | [] => (s, [])
  | o :: os => let '(s', x) := s_step s o in let '(s'', xs) := s_run s' os in (s'', x :: xs)
  end.

(** Representation: what matrix a specification state stands for. *)
Definition repr (s : rstate) : matrix T :=
  mkM (concat (r_rows s)) (length (r_rows s)) (width (r_rows s)) (fst (r_cap s)) (snd (r_cap s)).
Definition rect (rows : list (list T)) : Prop := Forall (fun r => length r = width rows) rows.

End Hist.
Arguments rowop T : clear implicits.
Arguments rowout T : clear implicits.
Arguments rstate T : clear implicits.
