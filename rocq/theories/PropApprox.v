(** * Property C99: continuous functions of one variable can be approximated *)
From Coq Require Import Reals Lra Rtrigo_reg.
From Verif Require Import Base Float Matrix Cplx Act Input Loss Dense Conv Layer Dataset Network RFloat CFacts
  SpecMatrix SpecLayer SpecConv SpecNet SpecEval SpecGeom SpecRound SpecPlain SpecMemory ApproxFacts.
Local Open Scope nat_scope.

(** Exact arithmetic.  For every curve of M complex coordinates that is
    continuous on an interval, and every tolerance, there is a dense network with
    one hidden layer of rectifier units that follows the curve on the whole
    interval, in the real and the imaginary part of every coordinate. *)
Theorem C99_approx : forall p M (f : nat -> R -> RC) a b (e : R), (a < b)%R -> (0 < e)%R ->
  (forall o t, o < M -> (a <= t <= b)%R -> continuity_pt (fun s => re (f o s)) t /\ continuity_pt (fun s => im (f o s)) t) ->
  exists H n, two_layers 1 H M n /\ forall t, (a <= t <= b)%R -> exists y, predicts ROps p n (IOScalar [mkC t 0%R]) y /\ length y = M /\
    forall o, o < M -> (Rabs (re (nth o y 0%RC) - re (f o t)) <= e /\ Rabs (im (nth o y 0%RC) - im (f o t)) <= e)%R.
Proof. exact approx_net. Qed.
Print Assumptions C99_approx.

(** How many hidden units are needed: when both parts of every coordinate change
    at most L times as fast as the input, H units bring the error down to
    L (b - a) / H. *)
Theorem C99_rate : forall p M (f : nat -> R -> RC) a b (L : R) H, (a < b)%R -> 0 < H ->
  (forall o x y, o < M -> (a <= x <= b)%R -> (a <= y <= b)%R -> (Rabs (re (f o x) - re (f o y)) <= L * Rabs (x - y) /\ Rabs (im (f o x) - im (f o y)) <= L * Rabs (x - y))%R) -> (0 <= L)%R ->
  exists n, two_layers 1 H M n /\ forall t, (a <= t <= b)%R -> exists y, predicts ROps p n (IOScalar [mkC t 0%R]) y /\ length y = M /\
    forall o, o < M -> (Rabs (re (nth o y 0%RC) - re (f o t)) <= L * (b - a) / INR H /\ Rabs (im (nth o y 0%RC) - im (f o t)) <= L * (b - a) / INR H)%R.
Proof. exact rate_net. Qed.
Print Assumptions C99_rate.

(** The rectifier is needed: no network without activations, of whatever depth
    and layers, comes closer than 1/2 to the absolute value on [-1, 1]. *)
Theorem C99_plain_refuted : forall p n (e : R), fit_all ROps n (Vec 1) (Vec 1) -> Forall plain n -> n <> [] ->
  (forall t, (-1 <= t <= 1)%R -> exists y, predicts ROps p n (IOScalar [mkC t 0%R]) y /\ (Rabs (re (nth 0 y 0%RC) - Rabs t) <= e)%R) -> (1 / 2 <= e)%R.
Proof. exact plain_far. Qed.
Print Assumptions C99_plain_refuted.

(** ** The hypotheses are met: sine and cosine on [0, 10], the absolute value on
    [-1, 1], and a network without activations that is off by exactly 1/2 *)
Example C99_ex : forall p, exists H n, two_layers 1 H 2 n /\ forall t, (0 <= t <= 10)%R -> exists y, predicts ROps p n (IOScalar [mkC t 0%R]) y /\ length y = 2 /\
  (Rabs (re (nth 0 y 0%RC) - sin t) <= 1 / 100 /\ Rabs (im (nth 0 y 0%RC) - cos t) <= 1 / 100 /\ Rabs (re (nth 1 y 0%RC) - t * t) <= 1 / 100)%R.
Proof.
  intros p. destruct (C99_approx p 2 (fun o t => match o with 0 => mkC (sin t) (cos t) | _ => mkC (t * t)%R 0%R end) 0%R 10%R (1 / 100)%R) as (H & n & W & A); [lra | lra | |].
  - intros [|[|o]] t O T; [| |lia]; cbn [re im].
    + split; [apply continuity_sin | apply continuity_cos].
    + split; apply derivable_continuous_pt; [apply derivable_pt_mult; apply derivable_pt_id | apply derivable_pt_const].
  - exists H, n. split; [exact W|]. intros t T. destruct (A t T) as (y & P & Y & Q). exists y. split; [exact P|]. split; [exact Y|].
    pose proof (Q 0 ltac:(lia)) as (Q1 & Q2). pose proof (Q 1 ltac:(lia)) as (Q3 & _). cbn [re im] in *. auto.
Qed.

Example C99_ex_rate : forall p, exists n, two_layers 1 200 1 n /\ forall t, (-1 <= t <= 1)%R -> exists y, predicts ROps p n (IOScalar [mkC t 0%R]) y /\ (Rabs (re (nth 0 y 0%RC) - Rabs t) <= 1 / 100)%R.
Proof.
  intros p. destruct (C99_rate p 1 (fun _ t => mkC (Rabs t) 0%R) (-1)%R 1%R 1%R 200) as (n & W & A); [lra | lia | | lra |].
  - intros o x y _ _ _. cbn [re im]. split; [rewrite Rmult_1_l; apply Rabs_triang_inv2|]. rewrite Rminus_0_r, Rabs_R0, Rmult_1_l. apply Rabs_pos.
  - exists n. split; [exact W|]. intros t T. destruct (A t T) as (y & P & _ & Q). exists y. split; [exact P|]. destruct (Q 0 ltac:(lia)) as (Q1 & _). cbn [re] in Q1.
    eapply Rle_trans; [exact Q1|]. replace (INR 200) with 200%R by (rewrite INR_IZR_INZ; reflexivity). lra.
Qed.

Example C99_ex_plain : forall p, let n := [LDense (mkDense ROps (from_body [0%RC] 1 1) [mkC (1 / 2)%R 0%R] ActNone)] in fit_all ROps n (Vec 1) (Vec 1) /\ Forall plain n /\
  forall t, (-1 <= t <= 1)%R -> exists y, predicts ROps p n (IOScalar [mkC t 0%R]) y /\ (Rabs (re (nth 0 y 0%RC) - Rabs t) <= 1 / 2)%R.
Proof.
  intros p n. split; [|split].
  - refine (fit_cons ROps _ _ _ _ _ (fits_dense ROps (mkDense ROps (from_body [0%RC] 1 1) [mkC (1 / 2)%R 0%R] ActNone) _ _) (fit_nil ROps _)); [repeat split; discriminate | discriminate].
  - repeat (constructor; try reflexivity).
  - intros t T. exists [mkC (1 / 2)%R 0%R]. split; [|cbn [nth re]; unfold Rabs; repeat destruct Rcase_abs; lra].
    unfold predicts, n. cbn. do 5 f_equal; apply c_ext; cbn; ring.
Qed.
