(** * Property C24: convolution, pad and flip form an adjoint pair *)
From Coq Require Import Reals Lra Ring.
From Verif Require Import Base BaseFacts Float Matrix Cplx RFloat SpecMatrix MatrixFacts CFacts Adjoint.
Local Open Scope nat_scope.

(** [inner m g] (Adjoint.v) is the sum over all positions of m(i,j) * g(i,j). *)
Theorem C24_adjoint : forall m k g : matrix RC,
  wf m -> wf k -> wf g -> 1 <= sh0 k <= sh0 m -> 1 <= sh1 k <= sh1 m ->
  sh0 g = sh0 m - sh0 k + 1 -> sh1 g = sh1 m - sh1 k + 1 ->
  exists y gp kf dm dk : matrix RC,
    convolution (cops ROps) m k = Ret (Ok y) /\
    pad (cops ROps) g (sh0 k - 1) (sh1 k - 1) = Ret gp /\
    flip k = Ret (Ok kf) /\
    convolution (cops ROps) gp kf = Ret (Ok dm) /\ sh0 dm = sh0 m /\ sh1 dm = sh1 m /\
    convolution (cops ROps) m g = Ret (Ok dk) /\ sh0 dk = sh0 k /\ sh1 dk = sh1 k /\
    inner y g = inner m dm /\ inner y g = inner k dk.
Proof.
  intros m k g Wm Wk Wg [A1 A2] [B1 B2] G0 G1.
  set (r := sh0 m) in *. set (c := sh1 m) in *. set (a := sh0 k) in *. set (b := sh1 k) in *.
  set (R := sh0 g) in *. set (C := sh1 g) in *.
  eexists. eexists. eexists. eexists. eexists.
  split; [apply convolution_ok; auto|].
  split; [apply pad_ok; auto|].
  split; [apply (flip_ok 0%RC); auto|].
  split; [apply convolution_ok; try apply wf_mat; cbn [mat sh0 sh1]; fold a b R C; lia|].
  split; [cbn [mat sh0 sh1]; fold a b R C; lia|].
  split; [cbn [mat sh0 sh1]; fold a b R C; lia|].
  split; [apply convolution_ok; auto; fold R C r c; lia|].
  split; [cbn [mat sh0 sh1]; fold R C r c; lia|].
  split; [cbn [mat sh0 sh1]; fold R C r c; lia|].
  set (em := entry (dflt (cops ROps)) m). set (ek := entry (dflt (cops ROps)) k).
  set (eg := entry (dflt (cops ROps)) g).
  assert (Y : forall X, X = tri R C a b em ek eg -> inner (mat (r - a + 1) (c - b + 1) (corr (cops ROps) a b em ek)) g = X).
  { intros X ->. rewrite <- G0, <- G1, <- tri_out. unfold inner.
    change (sh0 (mat R C _)) with R. change (sh1 (mat R C _)) with C. apply dsum_ext.
    intros i j Hi Hj. now rewrite entry_mat by auto. }
  split; apply Y.
  - unfold inner. fold r c. rewrite <- (tri_input R C a b) by lia.
    replace (R + a - 1) with r by lia. replace (C + b - 1) with c by lia.
    apply dsum_ext. intros x y Hx Hy. f_equal. cbn [mat sh0 sh1]. fold a b R C.
    rewrite entry_mat by lia. rewrite !corr_dsum. apply dsum_ext. intros u v Hu Hv.
    f_equal; [|now rewrite entry_mat by lia].
    rewrite entry_mat by lia. reflexivity.
  - unfold inner. fold a b. rewrite <- tri_kernel. apply dsum_ext. intros u v Hu Hv. f_equal.
    fold r c R C. rewrite entry_mat by lia. reflexivity.
Qed.
Print Assumptions C24_adjoint.

(** Linear in the matrix and in the kernel. *)
Theorem C24_bilinear : forall (m m1 m2 k k1 k2 : matrix RC) (s t : RC),
  wf m -> wf m1 -> wf m2 -> wf k -> wf k1 -> wf k2 ->
  1 <= sh0 k <= sh0 m -> 1 <= sh1 k <= sh1 m ->
  sh0 m1 = sh0 m -> sh1 m1 = sh1 m -> sh0 m2 = sh0 m -> sh1 m2 = sh1 m ->
  sh0 k1 = sh0 k -> sh1 k1 = sh1 k -> sh0 k2 = sh0 k -> sh1 k2 = sh1 k ->
  (forall i j, i < sh0 m -> j < sh1 m ->
     entry 0%RC m i j = (s * entry 0%RC m1 i j + t * entry 0%RC m2 i j)%RC) ->
  (forall i j, i < sh0 k -> j < sh1 k ->
     entry 0%RC k i j = (s * entry 0%RC k1 i j + t * entry 0%RC k2 i j)%RC) ->
  exists y y1 y2 x x1 x2 : matrix RC,
    convolution (cops ROps) m k = Ret (Ok y) /\
    convolution (cops ROps) m1 k = Ret (Ok y1) /\ convolution (cops ROps) m2 k = Ret (Ok y2) /\
    convolution (cops ROps) m k = Ret (Ok x) /\
    convolution (cops ROps) m k1 = Ret (Ok x1) /\ convolution (cops ROps) m k2 = Ret (Ok x2) /\
    forall i j, i < sh0 m - sh0 k + 1 -> j < sh1 m - sh1 k + 1 ->
      entry 0%RC y i j = (s * entry 0%RC y1 i j + t * entry 0%RC y2 i j)%RC /\
      entry 0%RC x i j = (s * entry 0%RC x1 i j + t * entry 0%RC x2 i j)%RC.
Proof.
  intros m m1 m2 k k1 k2 s t Wm Wm1 Wm2 Wk Wk1 Wk2 [A1 A2] [B1 B2] E1 E2 E3 E4 E5 E6 E7 E8 Hm Hk.
  do 6 eexists.
  split; [apply convolution_ok; auto|].
  split; [apply convolution_ok; auto; lia|].
  split; [apply convolution_ok; auto; lia|].
  split; [apply convolution_ok; auto|].
  split; [apply convolution_ok; auto; lia|].
  split; [apply convolution_ok; auto; lia|].
  intros i j Hi Hj. rewrite E1, E2, E3, E4, E5, E6, E7, E8. rewrite !entry_mat by auto.
  rewrite !corr_dsum. rewrite <- !dsum_mul_l, <- !dsum_add. cbn [dflt cops].
  split; apply dsum_ext; intros u v Hu Hv.
  - rewrite Hm by lia. ring.
  - rewrite Hk by lia. ring.
Qed.
Print Assumptions C24_bilinear.

(** A 2 x 3 matrix, a 2 x 2 kernel and a 1 x 2 gradient meet the hypotheses. *)
Example C24_ex : exists m k g : matrix RC, wf m /\ wf k /\ wf g /\ 1 <= sh0 k <= sh0 m /\ 1 <= sh1 k <= sh1 m /\
  sh0 g = sh0 m - sh0 k + 1 /\ sh1 g = sh1 m - sh1 k + 1 /\ inner g g = mkC 2%R 0%R.
Proof.
  exists (mkM (repeat (mkC 1%R 2%R) 6) 2 3 2 3), (mkM (repeat (mkC 3%R 1%R) 4) 2 2 2 2), (mkM (repeat (mkC 1%R 0%R) 2) 1 2 1 2).
  repeat split; cbn [sh0 sh1]; try lia. apply c_ext; cbn; ring.
Qed.
