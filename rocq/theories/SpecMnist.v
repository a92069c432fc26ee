(** * Vocabulary for the MNIST properties *)
From Coq Require Import ZArith NArith Reals.
From Verif Require Import Base Float Matrix Cplx Random Input Dataset RFloat BFloat.
Local Open Scope nat_scope.
Local Open Scope list_scope.

(** A record: the 784 bytes of an image, row by row, and its label. *)
Notation mrec := (list N * N)%type.
Definition image_ok (r : mrec) : Prop := length (fst r) = 784 /\ Forall (fun b => (b < 256)%N) (fst r).
Definition record_ok (r : mrec) : Prop := image_ok r /\ (snd r < 10)%N.
Definition black : mrec := (repeat 0%N 784, 0%N).

(** The two files: a header and the records. *)
Definition image_file (header : list N) (rs : list mrec) : file := mkFile (header ++ concat (map fst rs)) [].
Definition label_file (header : list N) (rs : list mrec) : file := mkFile (header ++ map snd rs) [].

(** The point [p] shows the record [r]: one 28 x 28 map holding the pixels and
    the one-hot vector of the label. *)
Definition shows {T} (pixel : N -> T) (zero one : T) (r : mrec) (p : IOType T * IOType T) : Prop :=
  exists m v, p = (IOMatrix [m], IOScalar v) /\ sh0 m = 28 /\ sh1 m = 28 /\ length (body m) = 784 /\
    (forall i j, i < 28 -> j < 28 -> elm m i j = Ret (Ok (pixel (nth (28 * i + j) (fst r) 0%N)))) /\
    length v = 10 /\ forall i, i < 10 -> nth_error v i = Some (if N.of_nat i =? snd r then one else zero)%N.

(** The readers, with the value of a pixel byte and the two numbers used in
    the one-hot vectors: byte / 255 in the element's arithmetic. *)
Definition reader T := file -> file -> nat -> N -> outcome (file * file * N * dataset T T).
Definition byte (Fl : FloatOps) (b : N) : F Fl := fdiv Fl (fofN Fl b) (fofN Fl 255).
Definition cbyte (Fl : FloatOps) (b : N) : cplx (F Fl) := mkC (byte Fl b) (fzero Fl).
Inductive mnist_reader : forall T, reader T -> (N -> T) -> T -> T -> Prop :=
| Rd_f32 : forall L, mnist_reader _ (minist_as_batch (B32Ops L)) (byte (B32Ops L)) (fzero (B32Ops L)) (fone (B32Ops L))
| Rd_f64 : forall L, mnist_reader _ (minist_as_batch (B64Ops L)) (byte (B64Ops L)) (fzero (B64Ops L)) (fone (B64Ops L))
| Rd_c32 : forall L, mnist_reader _ (minist_as_complex_batch (B32Ops L)) (cbyte (B32Ops L)) (c_default (B32Ops L)) (c_unit (B32Ops L))
| Rd_c64 : forall L, mnist_reader _ (minist_as_complex_batch (B64Ops L)) (cbyte (B64Ops L)) (c_default (B64Ops L)) (c_unit (B64Ops L))
| Rd_real : mnist_reader _ (minist_as_batch ROps) (byte ROps) 0%R 1%R
| Rd_cplx : mnist_reader _ (minist_as_complex_batch ROps) (cbyte ROps) (mkC 0%R 0%R) (mkC 1%R 0%R).

(** Successive calls on the same files and the same tracker variable. *)
Fixpoint calls {T} (read : reader T) (sizes : list nat) (df lf : file) (tracker : N)
  : outcome (file * file * N * list (dataset T T)) :=
  match sizes with
  | [] => Ret (df, lf, tracker, [])
  | n :: rest =>
      '(df1, lf1, t1, d) <- read df lf n tracker ;;
      '(df2, lf2, t2, ds) <- calls read rest df1 lf1 t1 ;;
      Ret (df2, lf2, t2, d :: ds)
  end.

Definition points {T} (d : dataset T T) : list (IOType T * IOType T) :=
  combine (fst (ds_points_iter d)) (snd (ds_points_iter d)).

Definition total (sizes : list nat) : nat := fold_right Nat.add 0 sizes.
