(** * Properties C63 and C64: the classification example *)
From Coq Require Import NArith.
From Verif Require Import Base Float Matrix Cplx Random Act Input Loss Dense Conv Layer Dataset Network Examples BFloat
  SpecMatrix SpecLayer SpecConv SpecNet SpecGeom SpecMnist SpecExamples NetFacts GeomFacts MnistFacts PropMnist ExampleFacts.
Local Open Scope nat_scope.
Local Open Scope list_scope.
Local Notation P32 := Float.P32.

(** ** C63: the networks of the examples *)

(** From every seed the generator accepts: the builders succeed, every layer
    takes the values the previous one produces, and the networks are as large
    as announced. *)
Theorem C63_cnn : forall L pr seed, seed_ok pr seed ->
  exists seed' n, get_2conv_layer_cvcnn (B32Ops L) pr seed = Ret (seed', (2, n)) /\ seed_ok pr seed' /\
    stages (B32Ops L) n [Maps 1 28 28; Maps 8 26 26; Maps 8 13 13; Maps 16 11 11; Vec (11 * 11 * 16); Vec 16; Vec 10] /\
    Forall (trainable (B32Ops L)) n /\ N.of_nat (net_params_len (B32Ops L) n) = 32410%N.
Proof. intros L pr. exact (cnn_ok (B32Ops L) pr (avg32 L)). Qed.
Print Assumptions C63_cnn.

Theorem C63_fully_connected : forall Fl pr seed, seed_ok pr seed ->
  exists seed' n, get_fully_connected_cvnn Fl pr seed = Ret (seed', (0, n)) /\ seed_ok pr seed' /\
    stages Fl n [Maps 1 28 28; Vec (28 * 28); Vec 28; Vec 16; Vec 16; Vec 10] /\
    Forall (trainable Fl) n /\ N.of_nat (net_params_len Fl n) = 22886%N.
Proof. exact fc_ok. Qed.
Print Assumptions C63_fully_connected.

Theorem C63_auto_encoder : forall Fl pr samples seed, samples <> 0 -> seed_ok pr seed ->
  exists seed' n, get_auto_encoder Fl pr seed samples = Ret (seed', (3, n)) /\ seed_ok pr seed' /\
    stages Fl n [Vec samples; Vec 128; Vec 32; Vec 16; Vec 32; Vec samples] /\
    Forall (trainable Fl) n /\ N.of_nat (net_params_len Fl n) = (161 * N.of_nat samples + 5328)%N.
Proof. exact auto_ok. Qed.
Print Assumptions C63_auto_encoder.

(** The programs add the layers one by one and unwrap every answer: a network
    comes out exactly when every addition was accepted, and then it is the
    network those calls build. *)
Theorem C63_assembled : forall Fl first rest n, assemble Fl first rest = Ret n <->
  built Fl (AddInput Fl first :: map (Add Fl) rest) (Ok tt :: map (fun _ => Ok tt) rest) n.
Proof. exact assemble_built. Qed.
Print Assumptions C63_assembled.

(** What the stages mean: every value that [intercept] returns, and the output
    of [forward], has the geometry of its stage. *)
Theorem C63_stages : forall Fl p n gs x g, stages Fl n gs -> n <> [] -> has_geom (nth 0 gs g) x ->
  (forall k, k < length n -> exists y l, net_intercept Fl p n x k = Ret (Ok (y, l)) /\ has_geom (nth k gs g) y) /\
  exists y, net_forward Fl p n x = Ret (Ok y) /\ has_geom (nth (length n) gs g) y.
Proof. exact stages_values. Qed.
Print Assumptions C63_stages.

(** Training changes none of this: from a network with these stages, any
    sequence of batches of matching points is worked through, and the trained
    network has the same stages and as many parameters. *)
Theorem C63_trained : forall Fl p n gs g f lr ds, stages Fl n gs -> 2 <= length n -> Forall (trainable Fl) n ->
  (forall d, In d ds -> batch_for Fl (nth 0 gs g) (nth (length n) gs g) d /\ exists s, c_div Fl lr (c_of_nat Fl (length (ds_inputs d))) = Ret s) ->
  exists n', train_on Fl p n ds f lr = Ret n' /\ stages Fl n' gs /\ Forall (trainable Fl) n' /\ length n' = length n /\
    net_params_len Fl n' = net_params_len Fl n.
Proof. exact stages_trained. Qed.
Print Assumptions C63_trained.

(** Feature extraction from a network with the stages of the convolutional one:
    8 maps of 26 x 26 values and 16 maps of 11 x 11 values for each of the
    records 18 and 58. *)
Theorem C63_features : forall L n hd hl rs,
  stages (B32Ops L) n [Maps 1 28 28; Maps 8 26 26; Maps 8 13 13; Maps 16 11 11; Vec (11 * 11 * 16); Vec 16; Vec 10] ->
  length hd = 16 -> length hl = 8 -> Forall record_ok rs -> 60 <= length rs ->
  exists x1 y1 x2 y2 a b c e l1 l3 l1' l3',
    extract_features (B32Ops L) n (image_file hd rs) (label_file hl rs) = Ret [a; b; c; e] /\
    shows (cbyte (B32Ops L)) (c_default (B32Ops L)) (c_unit (B32Ops L)) (nth 18 rs black) (x1, y1) /\
    shows (cbyte (B32Ops L)) (c_default (B32Ops L)) (c_unit (B32Ops L)) (nth 58 rs black) (x2, y2) /\
    net_intercept (B32Ops L) P32 n x1 1 = Ret (Ok (IOMatrix a, l1)) /\ net_intercept (B32Ops L) P32 n x1 3 = Ret (Ok (IOMatrix b, l3)) /\
    net_intercept (B32Ops L) P32 n x2 1 = Ret (Ok (IOMatrix c, l1')) /\ net_intercept (B32Ops L) P32 n x2 3 = Ret (Ok (IOMatrix e, l3')) /\
    maps_wf 8 26 26 a /\ maps_wf 16 11 11 b /\ maps_wf 8 26 26 c /\ maps_wf 16 11 11 e.
Proof. exact cnn_features. Qed.
Print Assumptions C63_features.

(** ** C64: the classification program *)

(** One sweep over [batches] batches of [size] records: loss and accuracy are
    those of the network before its step on the batch, the batches are the
    consecutive slices of the file, and the two values recorded are means. *)
Theorem C64_sweep : forall L train f size batches hd hl rs n,
  0 < size -> 2 <= length n -> fit_all (B32Ops L) n (Maps 1 28 28) (Vec 10) -> Forall (trainable (B32Ops L)) n ->
  length hd = 16 -> length hl = 8 -> Forall record_ok rs -> batches * size <= length rs -> (N.of_nat (batches * size) <= 60000)%N ->
  exists ds n' ls accs,
    class_sweep (B32Ops L) train f batches size (image_file hd rs) (label_file hl rs) n = Ret (n', mean (B32Ops L) ls, mean (B32Ops L) accs) /\
    length ds = batches /\ slices (B32Ops L) rs size ds /\ visits (B32Ops L) train f n ds n' ls accs.
Proof. exact sweep_32. Qed.
Print Assumptions C64_sweep.

(** All epochs: each one trains on the same batches in the same order and then
    tests the trained network, which testing leaves unchanged. *)
Theorem C64_pipeline : forall L f lr size trb teb hd hl rs hd' hl' rs' epochs n,
  0 < size -> 2 <= length n -> fit_all (B32Ops L) n (Maps 1 28 28) (Vec 10) -> Forall (trainable (B32Ops L)) n ->
  length hd = 16 -> length hl = 8 -> Forall record_ok rs -> trb * size <= length rs -> (N.of_nat (trb * size) <= 60000)%N ->
  length hd' = 16 -> length hl' = 8 -> Forall record_ok rs' -> teb * size <= length rs' -> (N.of_nat (teb * size) <= 60000)%N ->
  exists tr te n' trl tra tel tea,
    class_pipeline (B32Ops L) n f lr epochs trb teb size (image_file hd rs) (label_file hl rs) (image_file hd' rs') (label_file hl' rs')
      = Ret (n', (trl, tra), (tel, tea)) /\
    length tr = trb /\ slices (B32Ops L) rs size tr /\ length te = teb /\ slices (B32Ops L) rs' size te /\
    epochs_run (B32Ops L) f lr tr te epochs n n' trl tra tel tea.
Proof. exact pipeline_32. Qed.
Print Assumptions C64_pipeline.

(** The four curves have one entry per epoch. *)
Theorem C64_curves : forall Fl f lr tr te epochs n n' trl tra tel tea, epochs_run Fl f lr tr te epochs n n' trl tra tel tea ->
  length trl = epochs /\ length tra = epochs /\ length tel = epochs /\ length tea = epochs.
Proof. exact run_lengths. Qed.
Print Assumptions C64_curves.

(** Each is written one value a line, followed by a comma. *)
Theorem C64_files : forall Fl (show : F Fl -> String.string) epochs curve,
  matrix_csv_pieces show (curve_column Fl epochs curve) =
    Ret (flat_map (fun v => [String.append (show v) (String.String (Ascii.ascii_of_nat 44) String.EmptyString); line_feed]) curve).
Proof. exact curve_file. Qed.
Print Assumptions C64_files.

(** The whole program, with either of its networks, from every legal seed. *)
Theorem C64_program : forall L pr seed f lr epochs hd hl rs hd' hl' rs', seed_ok pr seed ->
  length hd = 16 -> length hl = 8 -> Forall record_ok rs -> N.of_nat (length rs) = 60000%N ->
  length hd' = 16 -> length hl' = 8 -> Forall record_ok rs' -> N.of_nat (length rs') = 10000%N ->
  let run n := class_pipeline (B32Ops L) n f lr epochs 600 100 100 (image_file hd rs) (label_file hl rs) (image_file hd' rs') (label_file hl' rs') in
  (exists seed' n r, get_fully_connected_cvnn (B32Ops L) pr seed = Ret (seed', (0, n)) /\ run n = Ret r) /\
  (exists seed' n n' curves tcurves maps, get_2conv_layer_cvcnn (B32Ops L) pr seed = Ret (seed', (2, n)) /\ run n = Ret (n', curves, tcurves) /\
     extract_features (B32Ops L) n' (image_file hd rs) (label_file hl rs) = Ret maps).
Proof. exact program_32. Qed.
Print Assumptions C64_program.

(** The seeds and the sizes of the program meet the hypotheses; the networks are
    those of C63. *)
Example C63_ex : forall L,
  (exists seed' n, get_2conv_layer_cvcnn (B32Ops L) Dev 224783561 = Ret (seed', (2, n)) /\ length n = 6) /\
  (exists seed' n, get_fully_connected_cvnn (B32Ops L) Dev 224783561 = Ret (seed', (0, n)) /\ length n = 5 /\
     exists y, net_forward (B32Ops L) P32 n (IOMatrix [from_body (repeat (c_unit (B32Ops L)) (28 * 28)) 28 28]) = Ret (Ok y) /\ has_geom (Vec 10) y) /\
  (exists seed' n, get_auto_encoder (B32Ops L) Dev 328557473 512 = Ret (seed', (3, n)) /\ N.of_nat (net_params_len (B32Ops L) n) = 87760%N).
Proof.
  intros L. split; [|split].
  - destruct (C63_cnn L Dev 224783561) as (s & n & E & _ & ST & _); [right; reflexivity|]. exists s, n. split; [exact E|].
    apply stages_length in ST. cbn [length] in ST. lia.
  - destruct (C63_fully_connected (B32Ops L) Dev 224783561) as (s & n & E & _ & ST & _); [right; reflexivity|]. exists s, n. split; [exact E|].
    pose proof (stages_length (B32Ops L) _ _ ST) as LN. cbn [length] in LN. assert (L5 : length n = 5) by lia. split; [exact L5|].
    destruct (C63_stages (B32Ops L) P32 n _ (IOMatrix [from_body (repeat (c_unit (B32Ops L)) (28 * 28)) 28 28]) (Vec 0) ST) as (_ & y & E1 & G).
    + clear - L5. intros ->. discriminate L5.
    + cbn [nth has_geom]. split; [reflexivity|]. intros m [<-|[]]. split; [|split; reflexivity]. unfold wf. cbn [body from_body sh0 sh1]. now rewrite repeat_length.
    + exists y. split; [exact E1|]. rewrite L5 in G. exact G.
  - destruct (C63_auto_encoder (B32Ops L) Dev 512 328557473) as (s & n & E & _ & _ & _ & P); [discriminate|right; reflexivity|]. exists s, n. split; [exact E|].
    rewrite P. vm_compute. reflexivity.
Qed.

Example C64_ex_files : forall k : N, exists rs, Forall record_ok rs /\ N.of_nat (length rs) = k.
Proof.
  intros k. exists (repeat black (N.to_nat k)). split; [|now rewrite repeat_length, N2Nat.id].
  apply Forall_forall. intros r Hr. apply repeat_spec in Hr. subst. split; [|reflexivity].
  split; [apply repeat_length|]. apply Forall_forall. intros b Hb. apply repeat_spec in Hb. now subst.
Qed.

Example C64_ex : forall L, exists rs rs' seed' n r, get_fully_connected_cvnn (B32Ops L) Dev 224783561 = Ret (seed', (0, n)) /\
  class_pipeline (B32Ops L) n MeanSquare (c_unit (B32Ops L)) 3 600 100 100
    (image_file (repeat 7%N 16) rs) (label_file (repeat 7%N 8) rs) (image_file (repeat 7%N 16) rs') (label_file (repeat 7%N 8) rs') = Ret r.
Proof.
  intros L. destruct (C64_ex_files 60000) as (rs & H1 & H2). destruct (C64_ex_files 10000) as (rs' & H3 & H4). exists rs, rs'.
  destruct (C64_program L Dev 224783561 MeanSquare (c_unit (B32Ops L)) 3 (repeat 7%N 16) (repeat 7%N 8) rs (repeat 7%N 16) (repeat 7%N 8) rs') as (A & _);
    [right; reflexivity|reflexivity|reflexivity|exact H1|exact H2|reflexivity|reflexivity|exact H3|exact H4|]. exact A.
Qed.
