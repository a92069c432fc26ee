(** * Property C101: single and double precision agree *)
From Coq Require Import ZArith Reals Lra Lia.
From Flocq Require Import Core BinarySingleNaN.
From Verif Require Import Base BaseFacts Float Matrix Cplx Act Input Loss Dense Conv Layer Dataset Network Examples RFloat BFloat CFacts
  SpecMatrix SpecLayer SpecConv SpecNet SpecGeom SpecEval SpecRound RoundFacts RoundNet SpecLip SpecClass ClassEx SpecWiden WidenFacts.
Local Notation re := Cplx.re. Local Notation im := Cplx.im.
Local Notation P32 := Float.P32. Local Notation P64 := Float.P64.
Local Open Scope nat_scope.

(** Converting a single to a double changes nothing. *)
Theorem C101_conversion : forall x, B2R (wide x) = B2R x /\ is_finite (wide x) = is_finite x.
Proof. exact wide_value. Qed.
Print Assumptions C101_conversion.

(** If the single-precision pass has room, both passes return, and their results
    differ by at most twice the budget of the single-precision pass. *)
Theorem C101_outputs : forall (L : libm (binary_float 24 128)) (L' : libm (binary_float 53 1024)) et ee et' ee' (n : network (B32Ops L)) g g' x,
  (et' <= et)%R -> (Exists (uses_libm 24 128 prec24 emax128 L) n -> libm_within 24 128 L et ee /\ libm_within 53 1024 L' et' ee') -> n <> [] ->
  fit_all (B32Ops L) n g g' -> Forall (covered 24 128 prec24 emax128 L) n -> Forall (no_sigmoid L) n -> has_geom g x -> Forall cfinite (vals x) ->
  net_headroom 24 128 prec24 emax128 L P32 et ee n g (input_budget 24 128 x) ->
  let b := net_budget 24 128 prec24 emax128 L P32 et ee n g (input_budget 24 128 x) in
  exists y y', net_forward (B32Ops L) P32 n x = Ret (Ok y) /\ net_forward (B64Ops L') P64 (map (wide_layer L L') n) (iowide x) = Ret (Ok y') /\
    has_geom g' y /\ has_geom g' y' /\
    forall i, i < gsize g' ->
      let u := nth i (vals y) (c_default (B32Ops L)) in let v := nth i (vals y') (c_default (B64Ops L')) in
      let w := ((1 + uu 24) ^ order b)%R in let m := nth i (mag b) 0%RC in let s := nth i (slack b) 0%RC in
      cfinite u /\ cfinite v /\
      (Rabs (B2R (re u) - B2R (re v)) <= 2 * ((w - 1) * re m + w * re s))%R /\ (Rabs (B2R (im u) - B2R (im v)) <= 2 * ((w - 1) * im m + w * im s))%R.
Proof.
  intros L L' et ee et' ee' n g g' x ET HL NE HF CV NS G FX HR b.
  destruct (side_by_side L L' et ee et' ee' ET n g g' x HL NE HF CV NS G FX HR) as (y & y' & r & E & E' & _ & GY & GY' & _ & W & W' & O).
  exists y, y'. repeat (split; [assumption|]). intros i I u v w m s. destruct (W i I) as (F1 & A1 & A2). destruct (W' i I) as (F2 & B1 & B2). destruct (O i I) as (_ & (O1 & O2)).
  split; [exact F1|]. split; [exact F2|]. unfold off in O1, O2. cbn [Cplx.re Cplx.im] in O1, O2. cbv zeta in *. fold b in A1, A2, O1, O2. fold w m s in A1, A2, O1, O2. fold u in A1, A2. fold v in B1, B2.
  clearbody u v w m s. clear -A1 A2 B1 B2 O1 O2. set (rr := nth i (vals r) 0%RC) in *. clearbody rr. destruct rr as [p q]. cbn [Cplx.re Cplx.im] in *.
  split.
  - replace (B2R (re u) - B2R (re v))%R with ((B2R (re u) - p) - (B2R (re v) - p))%R by ring. eapply Rle_trans; [apply Rabs_triang|]. rewrite Rabs_Ropp.
    pose proof (Rle_trans _ _ _ B1 O1) as H. pose proof (Rplus_le_compat _ _ _ _ A1 H) as K. eapply Rle_trans; [exact K|]. right. ring.
  - replace (B2R (im u) - B2R (im v))%R with ((B2R (im u) - q) - (B2R (im v) - q))%R by ring. eapply Rle_trans; [apply Rabs_triang|]. rewrite Rabs_Ropp.
    pose proof (Rle_trans _ _ _ B2 O2) as H. pose proof (Rplus_le_compat _ _ _ _ A2 H) as K. eapply Rle_trans; [exact K|]. right. ring.
Qed.
Print Assumptions C101_outputs.

(** Where the class is clear in single precision, double precision predicts the
    same one. *)
Theorem C101_class : forall (L : libm (binary_float 24 128)) (L' : libm (binary_float 53 1024)) et ee et' ee' (n : network (B32Ops L)) g k x,
  (et' <= et)%R -> (Exists (uses_libm 24 128 prec24 emax128 L) n -> libm_within 24 128 L et ee /\ libm_within 53 1024 L' et' ee') -> n <> [] ->
  fit_all (B32Ops L) n g (Vec k) -> Forall (covered 24 128 prec24 emax128 L) n -> Forall (no_sigmoid L) n ->
  clear_input 24 128 prec24 emax128 L P32 et ee n g x ->
  exists y y', predicts (B32Ops L) P32 n x y /\ predicts (B64Ops L') P64 (map (wide_layer L L') n) (iowide x) y' /\ length y = k /\ length y' = k /\
    max_index (B32Ops L) y = max_index (B64Ops L') y'.
Proof. intros L L' et ee et' ee' n g k x ET. exact (class_wide L L' et ee et' ee' ET n g k x). Qed.
Print Assumptions C101_class.

(** And so are accuracies on data sets: the same fraction, rounded once in
    either precision. *)
Theorem C101_accuracy : forall (L : libm (binary_float 24 128)) (L' : libm (binary_float 53 1024)) et ee et' ee' (n : network (B32Ops L)) g k d targs,
  (et' <= et)%R -> (Exists (uses_libm 24 128 prec24 emax128 L) n -> libm_within 24 128 L et ee /\ libm_within 53 1024 L' et' ee') -> n <> [] ->
  fit_all (B32Ops L) n g (Vec k) -> Forall (covered 24 128 prec24 emax128 L) n -> Forall (no_sigmoid L) n ->
  Forall (clear_input 24 128 prec24 emax128 L P32 et ee n g) (ds_inputs d) ->
  ds_target d = map (@IOScalar _) targs -> Forall (clear_target 24 128) targs -> length targs = length (ds_inputs d) -> 1 <= length targs <= Z.to_nat (2 ^ 24) ->
  exists a a' e, net_max_pred_test (B32Ops L) P32 n d = Ret a /\ net_max_pred_test (B64Ops L') P64 (map (wide_layer L L') n) (data_wide d) = Ret a' /\
    is_finite a = true /\ is_finite a' = true /\ B2R a = round radix2 (SpecFloat.fexp 24 128) ZnearestE e /\ B2R a' = round radix2 (SpecFloat.fexp 53 1024) ZnearestE e.
Proof. intros L L' et ee et' ee' n g k d targs ET. exact (accuracy_wide L L' et ee et' ee' ET n g k d targs). Qed.
Print Assumptions C101_accuracy.

Lemma scalar_case : forall {A E} (o : outcome (result (IOType A) E)) (P : list A -> bool),
  match o with Ret (Ok (IOScalar y)) => P y | _ => false end = true -> exists y, o = Ret (Ok (IOScalar y)) /\ P y = true.
Proof. intros A E [[[y|y]|e]|] P H; try discriminate. now exists y. Qed.

(** Without a clear lead the two precisions may predict different classes... *)
Theorem C101_class_refuted : forall (L : libm (binary_float 24 128)) (L' : libm (binary_float 53 1024)), exists (n : network (B32Ops L)) x y y',
  fit_all (B32Ops L) n (Vec 1) (Vec 2) /\ Forall (covered 24 128 prec24 emax128 L) n /\ Forall (no_sigmoid L) n /\ has_geom (Vec 1) x /\ Forall cfinite (vals x) /\
  predicts (B32Ops L) P32 n x y /\ predicts (B64Ops L') P64 (map (wide_layer L L') n) (iowide x) y' /\
  max_index (B32Ops L) y = 0 /\ max_index (B64Ops L') y' = 1.
Proof.
  intros L L'. set (n := two_units L one32 bit32). set (x := IOScalar [one32]).
  assert (X : exists y, net_forward (B32Ops L) P32 n x = Ret (Ok (IOScalar y)) /\ (max_index (B32Ops L) y =? 0) = true)
    by (apply (scalar_case _ (fun y => max_index (B32Ops L) y =? 0)); vm_compute; reflexivity).
  assert (X' : exists y, net_forward (B64Ops L') P64 (map (wide_layer L L') n) (iowide x) = Ret (Ok (IOScalar y)) /\ (max_index (B64Ops L') y =? 1) = true)
    by (apply (scalar_case _ (fun y => max_index (B64Ops L') y =? 1)); vm_compute; reflexivity).
  destruct X as (y & E & H). destruct X' as (y' & E' & H'). exists n, x, y, y'. split; [apply two_units_fit|]. split; [apply two_units_covered; repeat constructor|]. split; [repeat constructor; discriminate|].
  split; [reflexivity|]. split; [repeat constructor|]. split; [exact E|]. split; [exact E'|]. now apply Nat.eqb_eq in H, H'.
Qed.
Print Assumptions C101_class_refuted.

(** ... and without room a single-precision pass overflows where double
    precision returns finite numbers. *)
Definition big32 : cplx (binary_float 24 128) := mkC (@B754_finite 24 128 false 8388608 77 eq_refl) (B754_zero false).

Theorem C101_overflow_refuted : forall (L : libm (binary_float 24 128)) (L' : libm (binary_float 53 1024)), exists (n : network (B32Ops L)) x y y',
  fit_all (B32Ops L) n (Vec 1) (Vec 2) /\ Forall (covered 24 128 prec24 emax128 L) n /\ Forall (no_sigmoid L) n /\ has_geom (Vec 1) x /\ Forall cfinite (vals x) /\
  predicts (B32Ops L) P32 n x y /\ predicts (B64Ops L') P64 (map (wide_layer L L') n) (iowide x) y' /\
  ~ Forall cfinite y /\ Forall cfinite y'.
Proof.
  intros L L'. set (n := two_units L big32 big32). set (x := IOScalar [big32]).
  set (fin32 := forallb (fun c : cplx (binary_float 24 128) => (is_finite (re c) && is_finite (im c))%bool)).
  set (fin64 := forallb (fun c : cplx (binary_float 53 1024) => (is_finite (re c) && is_finite (im c))%bool)).
  assert (X : exists y, net_forward (B32Ops L) P32 n x = Ret (Ok (IOScalar y)) /\ negb (fin32 y) = true)
    by (apply (scalar_case _ (fun y => negb (fin32 y))); vm_compute; reflexivity).
  assert (X' : exists y, net_forward (B64Ops L') P64 (map (wide_layer L L') n) (iowide x) = Ret (Ok (IOScalar y)) /\ fin64 y = true)
    by (apply (scalar_case _ fin64); vm_compute; reflexivity).
  destruct X as (y & E & H). destruct X' as (y' & E' & H'). apply Bool.negb_true_iff in H. exists n, x, y, y'. split; [apply two_units_fit|]. split; [apply two_units_covered; repeat constructor|]. split; [repeat constructor; discriminate|].
  split; [reflexivity|]. split; [repeat constructor|]. split; [exact E|]. split; [exact E'|]. split.
  - intros N. assert (X : forallb (fun c : cplx (binary_float 24 128) => (is_finite (re c) && is_finite (im c))%bool) y = true); [|exact (Bool.eq_true_false_abs _ X H)].
    apply forallb_forall. intros c I. destruct (proj1 (Forall_forall _ _) N c I) as (A & B). apply andb_true_intro. now split.
  - apply Forall_forall. intros c I. pose proof (proj1 (forallb_forall _ _) H' c I) as A. now apply andb_prop in A.
Qed.
Print Assumptions C101_overflow_refuted.

(** Two units with the weights (-3 + 3i)/2 and 0 at the input (3 - 3i)/2. *)
Example C101_ex : forall (L : libm (binary_float 24 128)) et ee, let n := two_units L (v32 true) o32 in
  fit_all (B32Ops L) n (Vec 1) (Vec 2) /\ Forall (covered 24 128 prec24 emax128 L) n /\ Forall (no_sigmoid L) n /\ ~ Exists (uses_libm 24 128 prec24 emax128 L) n /\
  clear_input 24 128 prec24 emax128 L P32 et ee n (Vec 1) (IOScalar [v32 false]) /\ clear_target 24 128 [one32; o32].
Proof.
  intros L et ee n. split; [apply two_units_fit|]. split; [apply two_units_covered; repeat constructor|]. split; [repeat constructor; discriminate|].
  split; [intros H; inversion H as [? ? [A|A]|? ? A]; subst; [discriminate | discriminate | inversion A]|]. split; [apply apparent | exact one_hot].
Qed.
