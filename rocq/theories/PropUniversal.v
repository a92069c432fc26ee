(** * Property C100: rectifier networks approximate every continuous function *)
From Coq Require Import Reals Lra.
From Verif Require Import Base Float Matrix Cplx Act Input Loss Dense Conv Layer Dataset Network RFloat CFacts
  SpecMatrix SpecLayer SpecConv SpecNet SpecEval SpecApprox UniversalFacts.
Local Open Scope nat_scope.

(** Exact arithmetic.  For M functions of N complex variables that are continuous
    on a box, and every tolerance, there is a dense network of rectifier units
    that gives all of them on the whole box, in the real and the imaginary part. *)
Theorem C100_universal : forall p N M (f : nat -> list RC -> RC) (B e : R), 0 < N -> 0 < M -> (0 <= B)%R -> (0 < e)%R ->
  (forall o x, o < M -> in_box B N x -> continuous_at B N (f o) x) ->
  exists n, rectifier_net N M n /\ forall x, in_box B N x -> exists y, predicts ROps p n (IOScalar x) y /\ length y = M /\
    forall o, o < M -> (Rabs (re (nth o y 0%RC) - re (f o x)) <= e /\ Rabs (im (nth o y 0%RC) - im (f o x)) <= e)%R.
Proof. exact universal_net. Qed.
Print Assumptions C100_universal.

(** Continuity is needed: no such network, however wide and deep, comes closer
    than 1/2 to the step from 0 to 1 at 0. *)
Theorem C100_jump_refuted : forall p n (e : R), rectifier_net 1 1 n ->
  (forall t, (-1 <= t <= 1)%R -> exists y, predicts ROps p n (IOScalar [mkC t 0%R]) y /\ (Rabs (re (nth 0 y 0%RC) - if Rlt_dec t 0 then 0 else 1) <= e)%R) -> (1 / 2 <= e)%R.
Proof. exact jump_far. Qed.
Print Assumptions C100_jump_refuted.

(** ** The hypotheses are met: the product of two complex inputs and the
    conjugate of the first, up to 1/1000 on [-3, 3]^4; a network that misses the
    step by exactly 1/2 *)
Example C100_ex : forall p, exists n, rectifier_net 2 2 n /\ forall a b : RC, in_box 3%R 2 [a; b] -> exists u v, predicts ROps p n (IOScalar [a; b]) [u; v] /\
  (Rabs (re u - re (a * b)%RC) <= 1 / 1000 /\ Rabs (im u - im (a * b)%RC) <= 1 / 1000 /\ Rabs (re v - re a) <= 1 / 1000 /\ Rabs (im v + im a) <= 1 / 1000)%R.
Proof.
  intros p. pose (f := fun o (x : list RC) => match o with 0 => (nth 0 x 0 * nth 1 x 0)%RC | _ => conj (nth 0 x 0%RC) end).
  destruct (C100_universal p 2 2 f 3%R (1 / 1000)%R) as (n & W & H); [lia | lia | lra | lra | | ].
  - intros o x O (_ & X). destruct (X 0 ltac:(lia)) as (X1 & X2). destruct (X 1 ltac:(lia)) as (X3 & X4). intros e E. exists (Rmin e (e / 14)). split; [apply Rmin_pos; lra|]. intros y (_ & Y) NR.
    assert (M1 : (Rmin e (e / 14) <= e / 14)%R) by apply Rmin_r. destruct (NR 0 ltac:(lia)) as (N1 & N2). destruct (NR 1 ltac:(lia)) as (N3 & N4).
    destruct (Y 0 ltac:(lia)) as (Y1 & Y2). destruct (Y 1 ltac:(lia)) as (Y3 & Y4). revert X1 X2 X3 X4 N1 N2 N3 N4 Y1 Y2 Y3 Y4. unfold f.
    destruct (nth 0 x 0%RC) as [a b], (nth 1 x 0%RC) as [c d], (nth 0 y 0%RC) as [a' b'], (nth 1 y 0%RC) as [c' d']. cbn [re im]. intros.
    assert (D : forall u v u' v' : R, (Rabs v <= 3 -> Rabs u' <= 3 -> Rabs (u - u') < Rmin e (e / 14) -> Rabs (v - v') < Rmin e (e / 14) -> Rabs (u' * v' - u * v) <= 6 * (e / 14))%R).
    { intros u v u' v' V U' D1 D2. replace (u' * v' - u * v)%R with (- (u' * (v - v')) + - (v * (u - u')))%R by ring. eapply Rle_trans; [apply Rabs_triang|]. rewrite !Rabs_Ropp, !Rabs_mult.
      pose proof (Rmult_le_compat (Rabs u') 3 (Rabs (v - v')) (e / 14) (Rabs_pos _) (Rabs_pos _) U' ltac:(lra)). pose proof (Rmult_le_compat (Rabs v) 3 (Rabs (u - u')) (e / 14) (Rabs_pos _) (Rabs_pos _) V ltac:(lra)). lra. }
    destruct o as [|[|o]]; [| | lia].
    + pose proof (D a c a' c' X3 Y1 N1 N3) as D1. pose proof (D b d b' d' X4 Y2 N2 N4) as D2. pose proof (D a d a' d' X4 Y1 N1 N4) as D3. pose proof (D b c b' c' X3 Y2 N2 N3) as D4. cbn. split.
      * replace (a' * c' - b' * d' - (a * c - b * d))%R with ((a' * c' - a * c) + - (b' * d' - b * d))%R by ring. eapply Rle_lt_trans; [apply Rabs_triang|]. rewrite Rabs_Ropp. lra.
      * match goal with |- (Rabs ?z < _)%R => replace z with ((a' * d' - a * d) + (b' * c' - b * c))%R by ring end. eapply Rle_lt_trans; [apply Rabs_triang|]. lra.
    + cbn. split.
      * rewrite Rabs_minus_sym. lra.
      * match goal with |- (Rabs ?z < _)%R => replace z with (b - b')%R by ring end. lra.
  - exists n. split; [exact W|]. intros a b X. destruct (H _ X) as (y & P & Y & Q). destruct y as [|u [|v [|? ?]]]; try discriminate. exists u, v. split; [exact P|].
    destruct (Q 0 ltac:(lia)) as (Q1 & Q2). destruct (Q 1 ltac:(lia)) as (Q3 & Q4). cbn [nth f] in *. split; [exact Q1|]. split; [exact Q2|]. revert Q3 Q4. destruct a as [a1 a2], v as [v1 v2]. cbn. intros. split; [exact Q3|].
    replace (v2 + a2)%R with (v2 - - a2)%R by ring. exact Q4.
Qed.

Example C100_ex_jump : forall p, let n := [LDense (mkDense ROps (from_body [0%RC] 1 1) [mkC (1 / 2)%R 0%R] ActNone)] in rectifier_net 1 1 n /\
  forall t, (-1 <= t <= 1)%R -> exists y, predicts ROps p n (IOScalar [mkC t 0%R]) y /\ (Rabs (re (nth 0 y 0%RC) - if Rlt_dec t 0 then 0 else 1) <= 1 / 2)%R.
Proof.
  intros p n. split.
  - exists [], (mkDense ROps (from_body [0%RC] 1 1) [mkC (1 / 2)%R 0%R] ActNone). repeat split; discriminate || constructor.
  - intros t T. exists [mkC (1 / 2)%R 0%R]. split; [|cbn [nth re]; destruct (Rlt_dec t 0); unfold Rabs; destruct Rcase_abs; lra].
    unfold predicts, n. cbn. do 5 f_equal; apply c_ext; cbn; ring.
Qed.
