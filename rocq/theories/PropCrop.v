(** * Windows of feature maps (C74)

    All theorems hold for every float type, bit for bit. *)
From Verif Require Import Base BaseFacts Float Matrix Cplx Act Input Dense Conv Layer Network SpecMatrix SpecConv LayerFacts ConvFacts SpecNet NetFacts
  SpecCrop CropFacts ExOps.

(** The maps that a stack of convolutional and reduce layers computes from a
    window of an image are a window of the maps it computes from the image, if
    the window starts at a multiple of the block sizes.  Whatever the image is
    accepted for, the window is. *)
Theorem C74_crop : forall Fl p (ls : network Fl) s0 s1 r' c' r1 c1 x' x y,
  ls <> [] -> spatial Fl ls r' c' r1 c1 ->
  window (c_default Fl) (s0 * stride0 Fl ls) (s1 * stride1 Fl ls) r' c' x' x ->
  net_forward Fl p ls (IOMatrix x) = Ret (Ok y) ->
  exists ms ms', y = IOMatrix ms /\ net_forward Fl p ls (IOMatrix x') = Ret (Ok (IOMatrix ms')) /\
    window (c_default Fl) s0 s1 r1 c1 ms' ms.
Proof.
  intros Fl p ls s0 s1 r' c' r1 c1 x' x y NE SP W E. rewrite forward_fold in E by exact NE. apply obind_inv in E as (v & E & Ev). injection Ev as <-.
  destruct (stack_window Fl p ls s0 s1 r' c' r1 c1 x' x v SP W E) as (ms & ms' & E1 & E2 & E3).
  exists ms, ms'. split; [exact E1|]. split; [|exact E3]. rewrite forward_fold, E2 by exact NE. reflexivity.
Qed.
Print Assumptions C74_crop.

(** Two images that show the same [r' x c'] pixels, at possibly different
    places: the outputs show the same [r1 x c1] values at the corresponding
    places.  With equal places this says that pixels outside the window have no
    influence. *)
Theorem C74_shift : forall Fl p (ls : network Fl) s0 s1 t0 t1 r' c' r1 c1 n ra ca rb cb xa xb ya yb,
  let z := c_default Fl in let S0 := stride0 Fl ls in let S1 := stride1 Fl ls in
  ls <> [] -> spatial Fl ls r' c' r1 c1 -> 1 <= n -> maps_wf n ra ca xa -> maps_wf n rb cb xb ->
  s0 * S0 + r' <= ra -> s1 * S1 + c' <= ca -> t0 * S0 + r' <= rb -> t1 * S1 + c' <= cb ->
  (forall ch i j, ch < n -> i < r' -> j < c' -> px z xa ch (s0 * S0 + i) (s1 * S1 + j) = px z xb ch (t0 * S0 + i) (t1 * S1 + j)) ->
  net_forward Fl p ls (IOMatrix xa) = Ret (Ok (IOMatrix ya)) -> net_forward Fl p ls (IOMatrix xb) = Ret (Ok (IOMatrix yb)) ->
  length ya = length yb /\
  forall o i j, o < length ya -> i < r1 -> j < c1 -> px z ya o (s0 + i) (s1 + j) = px z yb o (t0 + i) (t1 + j).
Proof.
  intros Fl p ls s0 s1 t0 t1 r' c' r1 c1 n ra ca rb cb xa xb ya yb z S0 S1 NE SP N1 MA MB A0 A1 B0 B1 AG EA EB.
  set (x' := map (fun o => mat r' c' (fun i j => px z xa o (s0 * S0 + i) (s1 * S1 + j))) (seq 0 n)).
  assert (PX : forall ch i j, ch < n -> i < r' -> j < c' -> px z x' ch i j = px z xa ch (s0 * S0 + i) (s1 * S1 + j)).
  { intros ch i j Hc Hi Hj. apply (px_mats Fl n r' c' (fun o i j => px z xa o (s0 * S0 + i) (s1 * S1 + j))); auto. }
  assert (MX : maps_wf n r' c' x') by apply (maps_wf_mats Fl n r' c' (fun o i j => px z xa o (s0 * S0 + i) (s1 * S1 + j))).
  assert (WA : window z (s0 * S0) (s1 * S1) r' c' x' xa) by (exists n, ra, ca; repeat (split; [assumption|]); exact PX).
  assert (WB : window z (t0 * S0) (t1 * S1) r' c' x' xb).
  { exists n, rb, cb. repeat (split; [assumption|]). intros ch i j Hc Hi Hj. rewrite PX by auto. now apply AG. }
  destruct (C74_crop Fl p ls s0 s1 r' c' r1 c1 x' xa _ NE SP WA EA) as (ma & ma' & E1 & E2 & W1).
  destruct (C74_crop Fl p ls t0 t1 r' c' r1 c1 x' xb _ NE SP WB EB) as (mb & mb' & E3 & E4 & W2).
  injection E1 as <-. injection E3 as <-. rewrite E2 in E4. injection E4 as <-.
  destruct W1 as (n1 & ? & ? & _ & (L1 & _) & (L1' & _) & _ & _ & V1). destruct W2 as (n2 & ? & ? & _ & (L2 & _) & (L2' & _) & _ & _ & V2).
  split; [congruence|]. intros o i j Ho Hi Hj. rewrite <- V1 by (auto; congruence). apply V2; auto; congruence.
Qed.
Print Assumptions C74_shift.

(** A shift that is not a multiple of the block size is not followed: 2 x 2
    sums of an image and of the same image moved by one pixel. *)
Definition sum_pool : red ZFl := mkRed ZFl 1 2 2 (fun b => Ret (fold_left (c_add ZFl) b (mkC 0 0)%Z)) (from_body [] 0 0).
Theorem C74_odd_shift_refuted : exists xa xb ya yb,
  let z := c_default ZFl in
  maps_wf 1 2 4 xa /\ maps_wf 1 2 4 xb /\ spatial ZFl [LReduce sum_pool] 2 2 1 1 /\
  (forall i j, i < 2 -> j < 3 -> px z xb 0 i (1 + j) = px z xa 0 i j) /\
  net_forward ZFl Float.P32 [LReduce sum_pool] (IOMatrix xa) = Ret (Ok (IOMatrix ya)) /\
  net_forward ZFl Float.P32 [LReduce sum_pool] (IOMatrix xb) = Ret (Ok (IOMatrix yb)) /\
  forall i j k, i < 1 -> j < 2 -> k < 2 -> px z yb 0 i j <> px z ya 0 i k.
Proof.
  exists [from_body (map (fun n => mkC n 0) [1; 2; 4; 8; 0; 0; 0; 0])%Z 2 4], [from_body (map (fun n => mkC n 0) [16; 1; 2; 4; 0; 0; 0; 0])%Z 2 4].
  do 2 eexists. split; [|split; [|split; [|split; [|split; [|split; [|]]]]]].
  - split; [reflexivity|]. intros m [<-|[]]. repeat split.
  - split; [reflexivity|]. intros m [<-|[]]. repeat split.
  - cbn. repeat split; lia.
  - intros [|[|i]] [|[|[|j]]] Hi Hj; try lia; reflexivity.
  - reflexivity.
  - reflexivity.
  - intros [|i] [|[|j]] [|[|k]] Hi Hj Hk; try lia; cbv; congruence.
Qed.
Print Assumptions C74_odd_shift_refuted.

(** A convolution and a pooling layer, a 4 x 5 image and its 2 x 3 window at
    row 2, column 2. *)
Definition crop_net : network ZFl :=
  [LConv (mkConv ZFl 1 (from_body [from_body [mkC 1 0; mkC 0 1] 1 2] 1 1) [mkC 3 0] ActNone)%Z; LReduce sum_pool].
Definition crop_image : list (matrix (cplx Z)) := [from_body (map (fun n => mkC (Z.of_nat (n * n)) (Z.of_nat n)) (seq 0 20)) 4 5].
Definition crop_part : list (matrix (cplx Z)) := [from_body (map (fun n => mkC (Z.of_nat (n * n)) (Z.of_nat n)) [12; 13; 14; 17; 18; 19]) 2 3].
Example C74_ex : spatial ZFl crop_net 2 3 1 1 /\ window (c_default ZFl) (1 * stride0 ZFl crop_net) (1 * stride1 ZFl crop_net) 2 3 crop_part crop_image /\
  net_forward ZFl Float.P32 crop_net (IOMatrix crop_part) = Ret (Ok (IOMatrix [from_body [mkC 874 1110]%Z 1 1])) /\
  (exists a b c, net_forward ZFl Float.P32 crop_net (IOMatrix crop_image) = Ret (Ok (IOMatrix [from_body [a; b; c; mkC 874 1110]%Z 2 2]))).
Proof.
  split; [|split; [|split]].
  - exists 1, 2. split; [|cbn; repeat split; lia]. repeat split; try (cbn; lia); destruct H as [<-|[]]; reflexivity.
  - exists 1, 4, 5. split; [lia|]. split; [split; [reflexivity|intros m [<-|[]]; repeat split]|]. split; [split; [reflexivity|intros m [<-|[]]; repeat split]|].
    split; [cbn; lia|]. split; [cbn; lia|]. intros [|ch] [|[|i]] [|[|[|j]]] Hc Hi Hj; try lia; reflexivity.
  - vm_compute. reflexivity.
  - do 3 eexists. vm_compute. reflexivity.
Qed.
