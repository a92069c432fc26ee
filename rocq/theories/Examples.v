(** * Model of examples/classification.rs and examples/regression.rs

    Printing and timing are left out. *)
From Verif Require Import Base Float Matrix Cplx Random Act Input Loss Dense Conv Layer Dataset Network.
Local Notation P32 := Float.P32.

Section Examples.
Context (Fl : FloatOps) (pr : profile).
Local Notation C := (cplx (F Fl)).
Local Notation net := (network Fl).

(** [CLayer::init(..).unwrap().wrap()] for the two layers with parameters. *)
Definition new_dense (inputs units : nat) (f : ComplexActFunc) (m : InitMethod) (seed : N) : outcome (N * clayer Fl) :=
  '(s, r) <- dense_init Fl P32 pr (ShScalar inputs) units f m seed ;;
  l <- unwrap r ;; Ret (s, LDense l).
Definition new_conv (feats filters k0 k1 : nat) (f : ComplexActFunc) (m : InitMethod) (seed : N) : outcome (N * clayer Fl) :=
  '(s, r) <- conv_init Fl P32 pr (ShMatrix feats) filters k0 k1 f m seed ;;
  l <- unwrap r ;; Ret (s, LConv l).

(** classification.rs:81-87, 133-138, regression.rs:66-71: [add_input] of the
    first layer and [add] of the others, all unwrapped. *)
Definition add_unwrap (n : net) (l : clayer Fl) : outcome net :=
  '(n', r) <- net_add Fl n l ;; _ <- unwrap r ;; Ret n'.
Definition assemble (first : clayer Fl) (rest : list (clayer Fl)) : outcome net :=
  let '(n, r) := net_add_input Fl (net_new Fl) first in
  _ <- unwrap r ;; foldM add_unwrap rest n.

(** classification.rs:36-41 *)
Definition avg_block (b : list C) : outcome C :=
  c_div Fl (fold_left (fun acc e => c_add Fl acc e) b (c_default Fl)) (c_new Fl (fofnat Fl (length b)) (fzero Fl)).

(** classification.rs:42-47 *)
Definition spread_kernel : matrix C :=
  let q := c_new Fl (flit Fl 25 100) (fzero Fl) in
  let h := c_new Fl (flit Fl 50 100) (fzero Fl) in
  let o := c_new Fl (flit Fl 100 100) (fzero Fl) in
  from_body [q; h; q; h; o; h; q; h; q] 3 3.

(** classification.rs:20-92 *)
Definition get_2conv_layer_cvcnn (seed : N) : outcome (N * (nat * net)) :=
  '(s1, input_layer) <- new_conv 1 8 3 3 RITReLU (HeInit (8 * 3 * 3)) seed ;;
  let avg_pooling_layer := LReduce (red_init Fl 8 2 2 avg_block spread_kernel) in
  '(s2, inter_conv) <- new_conv 8 16 3 3 RITReLU (HeInit (16 * 3 * 3)) s1 ;;
  let flatten_layer := LFlatten (flat_init 11 11 16) in
  '(s3, first_dense) <- new_dense (11 * 11 * 16) 16 RITSigmoid (XavierGlorotU (11 * 11 * 16 + 16)) s2 ;;
  '(s4, output_layer) <- new_dense 16 10 RITSigmoid (XavierGlorotU (16 + 10)) s3 ;;
  n <- assemble input_layer [avg_pooling_layer; inter_conv; flatten_layer; first_dense; output_layer] ;;
  Ret (s4, (2, n)).

(** classification.rs:94-143 *)
Definition get_fully_connected_cvnn (seed : N) : outcome (N * (nat * net)) :=
  let flatten_layer := LFlatten (flat_init 28 28 1) in
  '(s1, first_dense) <- new_dense (28 * 28) 28 RITSigmoid (XavierGlorotU (28 * 28 + 28)) seed ;;
  '(s2, second_dense) <- new_dense 28 16 RITSigmoid (XavierGlorotU (28 + 16)) s1 ;;
  '(s3, third_dense) <- new_dense 16 16 RITSigmoid (XavierGlorotU (16 + 16)) s2 ;;
  '(s4, forth_dense) <- new_dense 16 10 RITSigmoid (XavierGlorotU (16 + 10)) s3 ;;
  n <- assemble flatten_layer [first_dense; second_dense; third_dense; forth_dense] ;;
  Ret (s4, (0, n)).

(** regression.rs:16-76 *)
Definition get_auto_encoder (seed : N) (samples : nat) : outcome (N * (nat * net)) :=
  '(s1, first_dense) <- new_dense samples 128 RITTanh (XavierGlorotU (samples + 128)) seed ;;
  '(s2, second_dense) <- new_dense 128 32 RITTanh (XavierGlorotU (128 + 32)) s1 ;;
  '(s3, third_dense) <- new_dense 32 16 RITTanh (XavierGlorotU (32 + 16)) s2 ;;
  '(s4, forth_dense) <- new_dense 16 32 RITTanh (XavierGlorotU (16 + 32)) s3 ;;
  '(s5, output_layer) <- new_dense 32 samples ActNone (XavierGlorotU (32 + samples)) s4 ;;
  n <- assemble first_dense [second_dense; third_dense; forth_dense; output_layer] ;;
  Ret (s5, (3, n)).

(** classification.rs:151-244 (the intercepts): the values entering the layers
    [order], which must be feature maps; the images are points 18 and 58 of the
    first 60 records. *)
Definition features (n : net) (image : IOType C) (order : nat) : outcome (list (matrix C)) :=
  r <-! net_intercept Fl P32 n image order ;;
  match fst r with IOMatrix maps => Ret maps | _ => Panic end.
Definition extract_features (n : net) (df lf : file) : outcome (list (list (matrix C))) :=
  '(_, _, _, data) <- minist_as_complex_batch Fl df lf 60 0 ;;
  '(image1, _) <- ds_get_point data 18 ;;
  '(image2, _) <- ds_get_point data 58 ;;
  _ <- (match image1 with IOMatrix map => index map 0 | _ => Panic end) ;;
  _ <- (match image2 with IOMatrix map => index map 0 | _ => Panic end) ;;
  a <- features n image1 1 ;;
  b <- features n image1 3 ;;
  c <- features n image2 1 ;;
  d <- features n image2 3 ;;
  Ret [a; b; c; d].

(** classification.rs:302-324: one pass over the batches with training;
    260-277 is the same without the training step. *)
Record sweep_state := mkSweep {
  sw_net : net; sw_df : file; sw_lf : file; sw_tracker : N; sw_loss : F Fl; sw_acc : F Fl }.
Definition class_step (train : option C) (f : ComplexLossFunc) (batch_size : nat) (st : sweep_state) (_ : nat) : outcome sweep_state :=
  '(df, lf, tracker, data) <- minist_as_complex_batch Fl (sw_df st) (sw_lf st) batch_size (sw_tracker st) ;;
  inst_loss <-! net_loss Fl P32 (sw_net st) data f ;;
  inst_acc <- net_max_pred_test Fl P32 (sw_net st) data ;;
  n' <- (match train with
         | Some lr => '(n', r) <- net_gradient_opt Fl P32 (sw_net st) data f lr ;; _ <- unwrap r ;; Ret n'
         | None => Ret (sw_net st)
         end) ;;
  Ret (mkSweep n' df lf tracker (fadd Fl (sw_loss st) inst_loss) (fadd Fl (sw_acc st) inst_acc)).

(** classification.rs:246-284 and 286-331: the network afterwards and the two
    means pushed on the result vectors. *)
Definition class_sweep (train : option C) (f : ComplexLossFunc) (batches batch_size : nat) (df lf : file) (n : net)
  : outcome (net * F Fl * F Fl) :=
  st <- foldM (class_step train f batch_size) (seq 0 batches) (mkSweep n df lf 0 (fzero Fl) (fzero Fl)) ;;
  Ret (sw_net st, fdiv Fl (sw_loss st) (fofnat Fl batches), fdiv Fl (sw_acc st) (fofnat Fl batches)).

(** classification.rs:364-392: train and test sweeps, once per epoch, each on
    freshly opened files; the four learning curves. *)
Definition class_epoch (f : ComplexLossFunc) (lr : C) (train_batches test_batches batch_size : nat) (train_df train_lf test_df test_lf : file)
    (st : net * (list (F Fl) * list (F Fl)) * (list (F Fl) * list (F Fl))) (_ : nat)
  : outcome (net * (list (F Fl) * list (F Fl)) * (list (F Fl) * list (F Fl))) :=
  let '(n, (trl, tra), (tel, tea)) := st in
  '(n1, l1, a1) <- class_sweep (Some lr) f train_batches batch_size train_df train_lf n ;;
  '(n2, l2, a2) <- class_sweep None f test_batches batch_size test_df test_lf n1 ;;
  Ret (n2, (trl ++ [l1], tra ++ [a1]), (tel ++ [l2], tea ++ [a2])).
Definition class_pipeline (n : net) (f : ComplexLossFunc) (lr : C) (epochs train_batches test_batches batch_size : nat)
    (train_df train_lf test_df test_lf : file) :=
  foldM (class_epoch f lr train_batches test_batches batch_size train_df train_lf test_df test_lf) (seq 0 epochs) (n, ([], []), ([], [])).

(** regression.rs:98-128: one batch; [accu] is [(b+1) as f32]. *)
Record rec_state := mkRec { rc_net : net; rc_train : N; rc_test : N; rc_tr : F Fl; rc_te : F Fl }.
Definition rec_step (f : ComplexLossFunc) (lr : C) (samples batch_size : nat) (thr : F Fl) (st : rec_state) (b : nat) : outcome rec_state :=
  '(s1, s2, train_batch, test_batch) <- signal_reconstruction Fl pr samples batch_size thr (rc_train st) (rc_test st) ;;
  let accu := fofnat Fl (b + 1) in
  inst_loss <-! net_loss Fl P32 (rc_net st) train_batch f ;;
  let tr := fdiv Fl (fadd Fl (rc_tr st) inst_loss) accu in
  '(n', r) <- net_gradient_opt Fl P32 (rc_net st) train_batch f lr ;; _ <- unwrap r ;;
  inst_tloss <-! net_loss Fl P32 n' test_batch f ;;
  let te := fdiv Fl (fadd Fl (rc_te st) inst_tloss) accu in
  Ret (mkRec n' s1 s2 tr te).

(** regression.rs:78-134, called with copies of the seeds *)
Definition rec_sweep (f : ComplexLossFunc) (lr : C) (samples : nat) (thr : F Fl) (batches batch_size : nat) (train test : N) (n : net)
  : outcome (net * F Fl * F Fl) :=
  st <- foldM (rec_step f lr samples batch_size thr) (seq 0 batches) (mkRec n train test (fzero Fl) (fzero Fl)) ;;
  Ret (rc_net st, rc_tr st, rc_te st).

(** regression.rs:178-196 *)
Definition rec_epoch (f : ComplexLossFunc) (lr : C) (samples : nat) (thr : F Fl) (batches batch_size : nat) (train test : N)
    (st : net * list (F Fl) * list (F Fl)) (_ : nat) : outcome (net * list (F Fl) * list (F Fl)) :=
  let '(n, trl, tel) := st in
  '(n1, l1, l2) <- rec_sweep f lr samples thr batches batch_size train test n ;;
  Ret (n1, trl ++ [l1], tel ++ [l2]).
Definition rec_pipeline (n : net) (f : ComplexLossFunc) (lr : C) (samples : nat) (thr : F Fl) (epochs batches batch_size : nat) (train test : N) :=
  foldM (rec_epoch f lr samples thr batches batch_size train test) (seq 0 epochs) (n, [], []).

(** regression.rs:205-222: for each of the first ten training signals the
    corrupted one, the clean one and the prediction, as columns; what
    [to_csv] writes is in Dataset.v ([matrix_csv_pieces]). *)
Definition as_column (samples : nat) (x : IOType C) : outcome (matrix C) :=
  v <- as_slice x ;; unwrap (to_matrix v samples 1).
Definition explore_point (n : net) (samples : nat) (data : dataset C C) (b : nat) : outcome (matrix C * matrix C * matrix C) :=
  '(x, y) <- ds_get_point data b ;;
  pred <-! net_forward Fl P32 n x ;;
  mx <- as_column samples x ;;
  my <- as_column samples y ;;
  mp <- as_column samples pred ;;
  Ret (mx, my, mp).
Definition explore (n : net) (samples : nat) (thr : F Fl) (train test : N) : outcome (list (matrix C * matrix C * matrix C)) :=
  '(_, _, data, _) <- signal_reconstruction Fl pr samples 10 thr train test ;;
  mapM (explore_point n samples data) (seq 0 10).

(** classification.rs:403-418, regression.rs:225-232: a learning curve as the
    column that is written. *)
Definition curve_column (epochs : nat) (curve : list (F Fl)) : matrix (F Fl) := from_body curve epochs 1.

End Examples.
Arguments sw_net {Fl} _.
Arguments sw_df {Fl} _.
Arguments sw_lf {Fl} _.
Arguments sw_tracker {Fl} _.
Arguments sw_loss {Fl} _.
Arguments sw_acc {Fl} _.
Arguments rc_net {Fl} _.
Arguments rc_train {Fl} _.
Arguments rc_test {Fl} _.
Arguments rc_tr {Fl} _.
Arguments rc_te {Fl} _.
