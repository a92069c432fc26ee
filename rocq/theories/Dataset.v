(** * Model of src/dataset/mod.rs *)
From Coq Require Import String Ascii.
From Verif Require Import Base Float Matrix Cplx Random Input Dense.
Local Open Scope list_scope.
Local Notation length := List.length.

(** dataset/mod.rs:17-21 *)
Record dataset (B T : Type) := mkData {
  ds_inputs : list (IOType B);
  ds_target : list (IOType T);
}.
Arguments mkData {B T}.
Arguments ds_inputs {B T} _.
Arguments ds_target {B T} _.

Section Data.
Context {B T : Type}.

(** dataset/mod.rs:53-55 *)
Definition ds_new : dataset B T := mkData [] [].

(** dataset/mod.rs:58-60 *)
Definition ds_n_points (d : dataset B T) : nat := length (ds_inputs d).

(** dataset/mod.rs:67-69 *)
Definition ds_get_point (d : dataset B T) (i : nat) : outcome (IOType B * IOType T) :=
  a <- index (ds_inputs d) i ;; b <- index (ds_target d) i ;; Ret (a, b).

(** dataset/mod.rs:72-79 *)
Definition ds_points_iter (d : dataset B T) : list (IOType B) * list (IOType T) :=
  (ds_inputs d, ds_target d).

(** dataset/mod.rs:86-89 *)
Definition ds_add_point (d : dataset B T) (pt : IOType B * IOType T) : dataset B T :=
  mkData (ds_inputs d ++ [fst pt]) (ds_target d ++ [snd pt]).

End Data.

(** ** Text output

    A file being written is modelled by the list of strings passed to
    successive [write!] calls; [run_writes] replays them against a disk on
    which the [n]-th call (counting from 0) fails ([None]: never), returning
    what is in the file and whether an error was reported.  Simplification:
    one [write!] call is atomic, [File::create] failing is the caller's
    business.  [show] is [Display] of the element type. *)
Fixpoint run_writes (pieces : list string) (fail : option nat) : string * bool :=
  match pieces with
  | [] => (""%string, true)
  | s :: rest =>
      match fail with
      | Some O => (""%string, false)
      | Some (S n) => let '(t, ok) := run_writes rest (Some n) in (String.append s t, ok)
      | None => let '(t, ok) := run_writes rest None in (String.append s t, ok)
      end
  end.

Definition newline : string := String (ascii_of_nat 10) EmptyString.

(** src/math/matrix/mod.rs:805-820 *)
Definition matrix_csv_pieces {T : Type} (show : T -> string) (m : matrix T) : outcome (list string) :=
  rows <- chunks (sh1 m) (body m) ;;
  Ret (flat_map (fun r => map (fun v => String.append (show v) ",") r ++ [newline]) rows).

(** src/math/matrix/mod.rs:793-802, [Display]; [showd] is [Debug] of a slice of
    elements and [show_shape] of the two [usize] arrays. *)
Definition matrix_display {T : Type} (showd : list T -> string) (show_shape : nat -> nat -> string)
    (m : matrix T) : outcome (list string) :=
  rows <- chunks (sh1 m) (body m) ;;
  Ret (map (fun r => String.append (showd r) newline) rows ++
       [String.append "shape: " (String.append (show_shape (sh0 m) (sh1 m))
          (String.append ", capacity: " (show_shape (cap0 m) (cap1 m))))]).

(** dataset/mod.rs:25-48.  A panic leaves in the file what was written before
    it, so the pieces written so far are returned with a flag. *)
Definition ds_csv_row {T : Type} (show : T -> string) (input target : IOType T) : list string * bool :=
  match input with
  | IOMatrix _ => ([], false)
  | IOScalar [] => ([], false)
  | IOScalar (x :: xs) =>
      let a := show x :: map (fun v => String.append "," (show v)) xs in
      match target with
      | IOMatrix _ => (a, false)
      | IOScalar ys => (a ++ map (fun v => String.append "," (show v)) ys ++ [newline], true)
      end
  end.
Fixpoint ds_csv_rows {T : Type} (show : T -> string) (pts : list (IOType T * IOType T)) : list string * bool :=
  match pts with
  | [] => ([], true)
  | (i, t) :: rest =>
      let '(a, ok) := ds_csv_row show i t in
      if ok then let '(b, ok') := ds_csv_rows show rest in (a ++ b, ok') else (a, false)
  end.
Definition ds_csv {T : Type} (show : T -> string) (d : dataset T T) : list string * bool :=
  ds_csv_rows show (combine (ds_inputs d) (ds_target d)).

(** ** MNIST *)

(** An open file: the bytes not yet read, and for the next [read] calls the
    number of bytes the operating system is willing to hand over ([[]]: no
    further restriction).  [Read::read] may return fewer bytes than asked. *)
Record file := mkFile { f_bytes : list N; f_lens : list nat }.

(** [file.read(&mut buf)]: copies the bytes obtained over the front of the
    buffer; I/O errors are not modelled. *)
Definition read_file (f : file) (buf : list N) : file * list N * nat :=
  let lim := match f_lens f with [] => length buf | n :: _ => n end in
  let k := Nat.min (Nat.min lim (length buf)) (length (f_bytes f)) in
  (mkFile (skipn k (f_bytes f)) (tl (f_lens f)),
   firstn k (f_bytes f) ++ skipn k buf, k).

(** dataset/mod.rs:92-97 *)
Definition MINIST_DEGREE := 10.
Definition MINIST_TRAIN_LABEL_SIZE : N := 60008.
Definition MINIST_PIXELS := 784.

Section Mnist.
(** [px] turns a byte into a pixel, [pred] is [gen_pred] of the element type. *)
Context {T : Type} (px : N -> outcome T)
        (pred : nat -> nat -> PredictModel -> outcome (result (list T) PredicionError)).

(** dataset/mod.rs:121-133 = 156-168 *)
Fixpoint mnist_loop (n : nat) (df lf : file) (img lab : list N) (tracker : N) (acc : dataset T T)
  : outcome (file * file * N * dataset T T) :=
  match n with
  | O => Ret (df, lf, tracker, acc)
  | S n' =>
      let '(df1, img1, _) := read_file df img in
      let '(lf1, lab1, k) := read_file lf lab in
      let tracker1 := (tracker + N.of_nat k)%N in
      image <- mapM px img1 ;;
      lb <- index lab1 0 ;;
      y <-! pred MINIST_DEGREE (N.to_nat lb) Sparse ;;
      let acc1 := ds_add_point acc (IOMatrix [from_body image 28 28], IOScalar y) in
      if (tracker1 =? MINIST_TRAIN_LABEL_SIZE)%N then Ret (df1, lf1, tracker1, acc1)
      else mnist_loop n' df1 lf1 img1 lab1 tracker1 acc1
  end.

(** dataset/mod.rs:101-136 and 141-171.  [tracker] is an N (it only counts
    label bytes). *)
Definition mnist_batch (df lf : file) (batch_size : nat) (tracker : N)
  : outcome (file * file * N * dataset T T) :=
  let '(df1, lf1, tracker1) :=
    if (tracker =? 0)%N then
      let '(d, _, _) := read_file df (repeat 0%N 16) in
      let '(l, _, k) := read_file lf (repeat 0%N 8) in
      (d, l, (tracker + N.of_nat k)%N)
    else (df, lf, tracker) in
  mnist_loop batch_size df1 lf1 (repeat 0%N MINIST_PIXELS) (repeat 0%N 1) tracker1 ds_new.

End Mnist.

Section MnistInst.
Context (Fl : FloatOps).
(** dataset/mod.rs:124 and 159 *)
Definition px_real (b : N) : outcome (F Fl) := Ret (fdiv Fl (fofN Fl b) (fofN Fl 255)).
Definition px_cplx (b : N) : outcome (cplx (F Fl)) :=
  c_div Fl (mkC (fofN Fl b) (fzero Fl)) (mkC (fofN Fl 255) (fzero Fl)).
Definition minist_as_batch := mnist_batch px_real (r_gen_pred Fl).
Definition minist_as_complex_batch := mnist_batch px_cplx (c_gen_pred Fl).
End MnistInst.

(** ** Signal reconstruction *)
Section Signal.
Context (Fl : FloatOps) (pr : profile).
Local Notation C := (cplx (F Fl)).
Local Notation "a + b" := (fadd Fl a b).
Local Notation "a * b" := (fmul Fl a b).
Local Notation "a / b" := (fdiv Fl a b).
Local Notation rnd := (lcgf Fl pr).

(** dataset/mod.rs:202-213 = 227-236: amplitude, frequency, phase of a wave. *)
Definition draw_wave (seed : N) : outcome (N * (F Fl * F Fl * F Fl)) :=
  '(s1, u1) <- rnd seed ;;
  '(s2, u2) <- rnd s1 ;;
  '(s3, u3) <- rnd s2 ;;
  Ret (s3, (u1 * flit Fl 9 10 + flit Fl 1 10, u2 * flit Fl 9 10 + flit Fl 1 10,
            ftwo Fl * fpi Fl * u3)).

(** dataset/mod.rs:215-223 = 238-246 *)
Definition wave_sum (waves : list (F Fl * F Fl * F Fl)) (time : F Fl) : C :=
  fold_left (fun acc awp =>
               let '(a, w, phi) := awp in
               c_add Fl acc (c_newe Fl a (w * time + phi)))
            waves (c_new Fl (fzero Fl) (fzero Fl)).

(** dataset/mod.rs:254-260 = 268-274 *)
Definition normalize (sig : list C) : outcome (list C) :=
  let mx := fold_left (fun acc e => let n := c_norm Fl e in if fltb Fl acc n then n else acc)
                      sig (fzero Fl) in
  if negb (feqb Fl mx (fzero Fl))
  then mapM (fun e => c_div_assign Fl e (c_new Fl mx (fzero Fl))) sig
  else Ret sig.

(** dataset/mod.rs:279-300 = 301-322: the noise on two consecutive samples;
    [sp] is the seed the two phases are drawn from, [su] the one for the
    uniforms.  When both are the same variable they are threaded in order. *)
Definition corrupt_pair (thr intp : F Fl) (e1 e2 : C) (u1 u2 p1 p2 : F Fl) : list C :=
  let noise1 := thr + intp * c_norm Fl e1 in
  let noise2 := thr + intp * c_norm Fl e2 in
  let g := fsqrt Fl (fneg Fl (ftwo Fl) * fln Fl u1) in
  let z1 := (g * fcos Fl (ftwo Fl * fpi Fl * u2)) * noise1 in
  let z2 := (g * fsin Fl (ftwo Fl * fpi Fl * u2)) * noise2 in
  [c_add Fl e1 (c_newe Fl z1 (ftwo Fl * fpi Fl * p1));
   c_add Fl e2 (c_newe Fl z2 (ftwo Fl * fpi Fl * p2))].

(** dataset/mod.rs:279-300 (train): uniforms from the *test* seed. *)
Definition corrupt_train (thr intp : F Fl) (st : N * N * list C) (ch : list C) : outcome (N * N * list C) :=
  let '(train, test, out) := st in
  e1 <- index ch 0 ;;
  e2 <- index ch 1 ;;
  '(t1, u1) <- rnd test ;;
  '(t2, u2) <- rnd t1 ;;
  '(r1, p1) <- rnd train ;;
  '(r2, p2) <- rnd r1 ;;
  Ret (r2, t2, out ++ corrupt_pair thr intp e1 e2 u1 u2 p1 p2).

(** dataset/mod.rs:301-322 (test): everything from the test seed. *)
Definition corrupt_test (thr intp : F Fl) (st : N * list C) (ch : list C) : outcome (N * list C) :=
  let '(test, out) := st in
  e1 <- index ch 0 ;;
  e2 <- index ch 1 ;;
  '(t1, u1) <- rnd test ;;
  '(t2, u2) <- rnd t1 ;;
  '(t3, p1) <- rnd t2 ;;
  '(t4, p2) <- rnd t3 ;;
  Ret (t4, out ++ corrupt_pair thr intp e1 e2 u1 u2 p1 p2).

(** dataset/mod.rs:199-327: one iteration of the batch loop. *)
Definition signal_step (t : list (F Fl)) (thr : F Fl)
    (st : N * N * dataset C C * dataset C C) (_ : nat) : outcome (N * N * dataset C C * dataset C C) :=
  let '(train, test, dtr, dte) := st in
  '(train, k) <- lcgi pr train 8 ;;
  '(train, waves) <- gen_n draw_wave (N.to_nat k + 1)%nat train ;;
  '(test, k') <- lcgi pr test 8 ;;
  '(test, waves') <- gen_n draw_wave (N.to_nat k' + 1)%nat test ;;
  clean <- normalize (map (wave_sum waves) t) ;;
  clean' <- normalize (map (wave_sum waves') t) ;;
  let intp := thr / flit Fl 20 1 in
  ch <- chunks 2 clean ;;
  '(train, test, corr) <- foldM (corrupt_train thr intp) ch (train, test, []) ;;
  ch' <- chunks 2 clean' ;;
  '(test, corr') <- foldM (corrupt_test thr intp) ch' (test, []) ;;
  Ret (train, test, ds_add_point dtr (IOScalar corr, IOScalar clean),
       ds_add_point dte (IOScalar corr', IOScalar clean')).

(** dataset/mod.rs:179-330 *)
Definition signal_reconstruction (samples batch_size : nat) (thr : F Fl) (train test : N)
  : outcome (N * N * dataset C C * dataset C C) :=
  let t_max := flit Fl 4 1 * fpi Fl in
  let period := t_max / fofnat Fl samples in
  let t := map (fun i => period * fofnat Fl i) (seq 0 samples) in
  foldM (signal_step t thr) (seq 0 batch_size) (train, test, ds_new, ds_new).

End Signal.
