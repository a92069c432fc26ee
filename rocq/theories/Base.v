(** * Panics, results and the std-library operations the crate uses.

    Rust source modelled: /repo at the pinned commit.  [Vec<T>] and [&[T]] are
    [list T]; [usize] is [nat].  Simplification: [usize] sums and products are
    unbounded; [usize] subtraction is the overflow-checked one (dev profile). *)
From Coq Require Export List Arith PeanoNat NArith ZArith Bool Lia.
Export ListNotations.

(** Outcome of running a Rust expression: a value, or a panic (unwinding). *)
Inductive outcome (A : Type) : Type :=
| Ret (a : A)
| Panic.
Arguments Ret {A} a.
Arguments Panic {A}.

(** [std::result::Result<A, E>]. *)
Inductive result (A E : Type) : Type :=
| Ok (a : A)
| Err (e : E).
Arguments Ok {A E} a.
Arguments Err {A E} e.

(** Sequencing: a panic stops the computation. *)
Definition obind {A B : Type} (m : outcome A) (k : A -> outcome B) : outcome B :=
  match m with Ret a => k a | Panic => Panic end.

(** [Result::unwrap]. *)
Definition unwrap {A E : Type} (r : result A E) : outcome A :=
  match r with Ok a => Ret a | Err _ => Panic end.

(** [Option::unwrap]. *)
Definition unwrap_opt {A : Type} (r : option A) : outcome A :=
  match r with Some a => Ret a | None => Panic end.

Declare Scope rust_scope.
Delimit Scope rust_scope with rust.
Notation "x <- m ;; k" := (obind m (fun x => k))
  (at level 61, m at next level, right associativity) : rust_scope.
Notation "' p <- m ;; k" := (obind m (fun p => k))
  (at level 61, p pattern, m at next level, right associativity) : rust_scope.
(** [let x = m.unwrap(); k] where [m] itself may panic. *)
Notation "x <-! m ;; k" := (obind m (fun r => obind (unwrap r) (fun x => k)))
  (at level 61, m at next level, right associativity) : rust_scope.
Open Scope rust_scope.

(** Iterator [map]/[flat_map]/[fold] with closures that may panic. *)
Fixpoint mapM {A B : Type} (f : A -> outcome B) (l : list A) : outcome (list B) :=
  match l with
  | [] => Ret []
  | a :: l' => b <- f a ;; bs <- mapM f l' ;; Ret (b :: bs)
  end.

Definition flat_mapM {A B : Type} (f : A -> outcome (list B)) (l : list A) : outcome (list B) :=
  bs <- mapM f l ;; Ret (concat bs).

Fixpoint foldM {A S : Type} (f : S -> A -> outcome S) (l : list A) (s : S) : outcome S :=
  match l with
  | [] => Ret s
  | a :: l' => s' <- f s a ;; foldM f l' s'
  end.

(** [usize] subtraction with overflow checks: panics on underflow. *)
Definition usub (a b : nat) : outcome nat :=
  if b <=? a then Ret (a - b) else Panic.

(** [usize] division and remainder: panic on zero. *)
Definition udiv (a b : nat) : outcome nat :=
  if b =? 0 then Panic else Ret (a / b).
Definition umod (a b : nat) : outcome nat :=
  if b =? 0 then Panic else Ret (a mod b).

(** [v[i]]: panics out of bounds. *)
Definition index {A : Type} (l : list A) (i : nat) : outcome A :=
  unwrap_opt (nth_error l i).

(** [&v[a..b]]: panics if [a > b] or [b > v.len()]. *)
Definition slice {A : Type} (l : list A) (a b : nat) : outcome (list A) :=
  if (a <=? b) && (b <=? length l) then Ret (firstn (b - a) (skipn a l)) else Panic.

(** Overwriting one position of a vector (in bounds). *)
Fixpoint set_nth {A : Type} (l : list A) (i : nat) (v : A) : list A :=
  match l, i with
  | [], _ => []
  | _ :: l', O => v :: l'
  | a :: l', S i' => a :: set_nth l' i' v
  end.

(** [slice::chunks(n)]: panics for [n = 0]; the last chunk may be shorter.
    The fuel is the length of the slice, which always suffices. *)
Fixpoint chunks_fuel {A : Type} (fuel n : nat) (l : list A) : list (list A) :=
  match fuel with
  | O => []
  | S f => match l with
           | [] => []
           | _ => firstn n l :: chunks_fuel f n (skipn n l)
           end
  end.
Definition chunks {A : Type} (n : nat) (l : list A) : outcome (list (list A)) :=
  if n =? 0 then Panic else Ret (chunks_fuel (length l) n l).

(** [slice::windows(n)]: panics for [n = 0]; empty when [n] exceeds the length. *)
Definition windows {A : Type} (n : nat) (l : list A) : outcome (list (list A)) :=
  if n =? 0 then Panic
  else if length l <? n then Ret []
  else Ret (map (fun i => firstn n (skipn i l)) (seq 0 (length l - n + 1))).

(** [lhs.iter_mut().zip(rhs.iter()).for_each(..)] assigning [op l r] to each
    [l]: updates the common prefix of [lhs] and leaves the rest. *)
Fixpoint zip_assign {A B : Type} (op : A -> B -> A) (l : list A) (r : list B) : list A :=
  match l, r with
  | a :: l', b :: r' => op a b :: zip_assign op l' r'
  | _, _ => l
  end.

(** [iter().reduce(f)]. *)
Definition reduce {A : Type} (f : A -> A -> A) (l : list A) : option A :=
  match l with
  | [] => None
  | a :: l' => Some (fold_left f l' a)
  end.
