(** * Rectifiers that are switched off: exact and IEEE arithmetic *)
From Coq Require Import ZArith Reals Lra.
From Flocq Require Import Core BinarySingleNaN.
From Verif Require Import Base BaseFacts Float Matrix Cplx Act Input Loss Dense Conv Layer Dataset Network RFloat BFloat CFacts SpecMatrix MatrixFacts
  SpecLayer SpecConv SpecNet SpecGeom SpecNan NanFacts DeadFacts SpecDead.
Local Open Scope nat_scope.
Local Notation re := Cplx.re. Local Notation im := Cplx.im.

Lemma Forall2_eq : forall {A} (l l' : list A), Forall2 eq l l' -> l' = l.
Proof. intros A l l' H. induction H; congruence. Qed.

(** ** Exact arithmetic *)
Lemma exact_eq : forall l l' : list RC, Forall2 (keptc ROps eq) l l' -> l' = l.
Proof. intros l l' H. apply Forall2_eq. induction H as [|a b l l' (H1 & H2) _ IH]; constructor; [now apply c_ext | exact IH]. Qed.

Lemma exact_same : forall l l' : list RC, Exists (badc ROps (fun _ => False)) l' \/ Forall2 (samec ROps eq) l l' -> l' = l.
Proof. intros l l' [H|H]; [exfalso; induction H as [a m [[]|[]]|]; auto | now apply exact_eq]. Qed.

Section Exact.
Context (p : Float.prec).
Local Notation nilx := (fun x : R => x = 0%R).
Lemma rx0 : nilx (fzero ROps). Proof. vm_compute. lra. Qed.
Lemma rxadd : forall x y, nilx x -> nilx y -> nilx (fadd ROps x y). Proof. intros x y -> ->. exact (Rplus_0_r 0). Qed.
Lemma rxsub : forall x y, nilx x -> nilx y -> nilx (fsub ROps x y). Proof. intros x y -> ->. exact (Rminus_0_r 0). Qed.
Lemma rxneg : forall x, nilx x -> nilx (fneg ROps x). Proof. intros x ->. exact Ropp_0. Qed.
Lemma rxmul : forall x y, nilx x \/ nilx y -> nilx (fmul ROps x y). Proof. intros x y [->| ->]; [exact (Rmult_0_l y) | exact (Rmult_0_r x)]. Qed.
Lemma rxkeep : forall a x, nilx x -> a = fsub ROps a x. Proof. intros a x ->. exact (eq_sym (Rminus_0_r a)). Qed.
Lemma rxsign : forall a, fltb ROps a (fzero ROps) = true -> fsignneg ROps a = true. Proof. intros a. rewrite rx0. exact (fun H => H). Qed.

Lemma rcadd : forall a b c d, a = b -> c = d -> fadd ROps a c = fadd ROps b d. Proof. congruence. Qed.
Lemma rcsub : forall a b c d, a = b -> c = d -> fsub ROps a c = fsub ROps b d. Proof. congruence. Qed.
Lemma rcmul : forall a b c d, a = b -> c = d -> fmul ROps a c = fmul ROps b d. Proof. congruence. Qed.
Lemma rclt : forall a b, a = b -> fltb ROps a (fzero ROps) = true -> fltb ROps b (fzero ROps) = true. Proof. congruence. Qed.

Theorem exact_unit_step : forall n data f lr n' r k (l : dense ROps) i, nth_error n k = Some (LDense l) -> dense_wf ROps l -> i < units ROps l ->
  (forall x v, In x (ds_inputs data) -> arrives ROps p n k x (IOScalar v) -> off ROps (d_func l) (pre ROps l v i)) ->
  net_gradient_opt ROps p n data f lr = Ret (n', Ok r) ->
  exists l', nth_error n' k = Some (LDense l') /\ unit_params ROps l' i = unit_params ROps l i.
Proof.
  intros n data f lr n' r k l i K W Hi O E.
  destruct (dead_unit_step ROps p (fun x => x = 0%R) eq rx0 rxadd rxsub rxneg rxmul rxkeep n data f lr n' r k l i K W Hi O E) as (l' & K' & _ & H).
  exists l'. split; [exact K' | now apply exact_eq].
Qed.

Theorem exact_filter_step : forall n g g' data f lr n' r k a b (l : conv ROps) o, fit_all ROps n g g' -> Forall (trainable ROps) n -> batch_for ROps g g' data ->
  nth_error n k = Some (LConv l) -> conv_wf ROps a b l -> o < filters ROps l ->
  (forall x ms i j, In x (ds_inputs data) -> arrives ROps p n k x (IOMatrix ms) ->
     i < sh0 (nth 0 ms m_new) - a + 1 -> j < sh1 (nth 0 ms m_new) - b + 1 -> off ROps (k_func l) (cpre ROps a b l ms o i j)) ->
  net_gradient_opt ROps p n data f lr = Ret (n', Ok r) ->
  exists l', nth_error n' k = Some (LConv l') /\ filter_params ROps a b l' o = filter_params ROps a b l o.
Proof.
  intros n g g' data f lr n' r k a b l o FA TR BF K W Ho O E.
  destruct (dead_filter_step ROps p (fun x => x = 0%R) eq rx0 rxadd rxsub rxneg rxmul rxkeep n g g' data f lr n' r k a b l o FA TR BF K W Ho O E) as (l' & K' & _ & H).
  exists l'. split; [exact K' | now apply exact_eq].
Qed.

Theorem exact_unit_forever : forall steps n n' (l : dense ROps) i, nth_error n 0 = Some (LDense l) -> dense_wf ROps l -> i < units ROps l ->
  (forall d f lr v, In (d, f, lr) steps -> In (IOScalar v) (ds_inputs d) -> below ROps (d_func l) (pre ROps l v i)) ->
  train_steps ROps p n steps = Ret n' ->
  exists l', nth_error n' 0 = Some (LDense l') /\ unit_params ROps l' i = unit_params ROps l i /\
    forall v, below ROps (d_func l) (pre ROps l v i) -> below ROps (d_func l') (pre ROps l' v i).
Proof.
  intros steps n n' l i K W Hi H E.
  destruct (dead_unit_forever ROps p (fun x => x = 0%R) eq rx0 rxadd rxsub rxneg rxmul rxkeep (fun _ => False) eq
    (fun a b H => or_intror H) (fun a x H => H) (@eq_refl R) (@eq_trans R) rcadd rcsub rcmul rclt rxsign steps n n' l i K W Hi H E) as (l' & K' & _ & S).
  exists l'. split; [exact K'|]. destruct S as [S|(S & B)]; (split; [apply exact_same; auto|]); [|exact B].
  exfalso. clear - S. induction S as [x m [[]|[]]|]; auto.
Qed.

Theorem exact_filter_forever : forall steps n n' g g' a b (l : conv ROps) o, fit_all ROps n g g' -> Forall (trainable ROps) n ->
  nth_error n 0 = Some (LConv l) -> conv_wf ROps a b l -> o < filters ROps l ->
  (forall d f lr, In (d, f, lr) steps -> batch_for ROps g g' d) ->
  (forall d f lr ms, In (d, f, lr) steps -> In (IOMatrix ms) (ds_inputs d) -> filter_below ROps a b l o ms) ->
  train_steps ROps p n steps = Ret n' ->
  exists l', nth_error n' 0 = Some (LConv l') /\ filter_params ROps a b l' o = filter_params ROps a b l o /\
    forall ms, filter_below ROps a b l o ms -> filter_below ROps a b l' o ms.
Proof.
  intros steps n n' g g' a b l o FA TR K W Ho HB H E.
  destruct (dead_filter_forever ROps p (fun x => x = 0%R) eq rx0 rxadd rxsub rxneg rxmul rxkeep (fun _ => False) eq
    (fun a b H => or_intror H) (fun a x H => H) (@eq_refl R) (@eq_trans R) rcadd rcsub rcmul rclt rxsign steps n n' g g' a b l o FA TR K W Ho HB H E) as (l' & K' & _ & S).
  exists l'. split; [exact K'|]. destruct S as [S|(S & B)]; (split; [apply exact_same; auto|]); [|exact B].
  exfalso. clear - S. induction S as [x m [[]|[]]|]; auto.
Qed.
End Exact.

(** ** IEEE arithmetic *)
Section IEEE.
Context (prec emax : Z) (Hp : Prec_gt_0 prec) (He : Prec_lt_emax prec emax) (L : libm (binary_float prec emax)) (p : Float.prec).
Local Notation B := (binary_float prec emax).
Local Notation Fl := (BOps prec emax Hp He L).

Definition nilb (x : B) : Prop := is_nan x = true \/ exists s, x = B754_zero s.
Definition keptb (a b : B) : Prop := same_number a b \/ is_nan b = true.

Lemma bx0 : nilb (fzero Fl). Proof. right. exists false. reflexivity. Qed.
Ltac nb H := let s := fresh "s" in destruct H as [H|(s & ->)].
Lemma bxadd : forall x y, nilb x -> nilb y -> nilb (fadd Fl x y).
Proof.
  intros x y X Y. nb X; [left; apply nan_plus; auto|]. nb Y; [left; apply nan_plus; auto|]. right. destruct s, s0; eexists; reflexivity.
Qed.
Lemma bxsub : forall x y, nilb x -> nilb y -> nilb (fsub Fl x y).
Proof.
  intros x y X Y. nb X; [left; apply nan_minus; auto|]. nb Y; [left; apply nan_minus; auto|]. right. destruct s, s0; eexists; reflexivity.
Qed.
Lemma bxneg : forall x, nilb x -> nilb (fneg Fl x).
Proof. intros x X. nb X; [left; now apply nan_opp | right; eexists; reflexivity]. Qed.
Lemma bxmul : forall x y, nilb x \/ nilb y -> nilb (fmul Fl x y).
Proof.
  intros x y [X|Y].
  - nb X; [left; apply nan_mult; auto|]. destruct y; try (right; eexists; reflexivity); left; reflexivity.
  - nb Y; [left; apply nan_mult; auto|]. destruct x; try (right; eexists; reflexivity); left; reflexivity.
Qed.
Lemma bxkeep : forall a x, nilb x -> keptb a (fsub Fl a x).
Proof.
  intros a x X. nb X; [right; apply nan_minus; auto|]. destruct a; try (left; left; reflexivity). left. right. destruct s0, s; do 2 eexists; split; reflexivity.
Qed.
Lemma bsrefl : forall a : B, same_number a a. Proof. intros a. now left. Qed.
Lemma bstrans : forall a b c : B, same_number a b -> same_number b c -> same_number a c.
Proof. intros a b c [->|(s & t & -> & ->)] [<-|(s' & t' & E & ->)]; try (left; reflexivity); right; eauto. Qed.
Lemma bsadd : forall a b c d : B, same_number a b -> same_number c d -> same_number (fadd Fl a c) (fadd Fl b d).
Proof.
  intros a b c d [->|(s & t & -> & ->)] [->|(s' & t' & -> & ->)].
  - now left.
  - destruct b; try (left; reflexivity). destruct s, s', t'; (left; reflexivity) || (right; do 2 eexists; split; reflexivity).
  - destruct d as [s'|s'| |s' m e H]; try (left; reflexivity). destruct s, s', t; (left; reflexivity) || (right; do 2 eexists; split; reflexivity).
  - destruct s, t, s', t'; (left; reflexivity) || (right; do 2 eexists; split; reflexivity).
Qed.
Lemma bssub : forall a b c d : B, same_number a b -> same_number c d -> same_number (fsub Fl a c) (fsub Fl b d).
Proof.
  intros a b c d [->|(s & t & -> & ->)] [->|(s' & t' & -> & ->)].
  - now left.
  - destruct b; try (left; reflexivity). destruct s, s', t'; (left; reflexivity) || (right; do 2 eexists; split; reflexivity).
  - destruct d as [s'|s'| |s' m e H]; try (left; reflexivity). destruct s, s', t; (left; reflexivity) || (right; do 2 eexists; split; reflexivity).
  - destruct s, t, s', t'; (left; reflexivity) || (right; do 2 eexists; split; reflexivity).
Qed.
Lemma bsmul : forall a b c d : B, same_number a b -> same_number c d -> same_number (fmul Fl a c) (fmul Fl b d).
Proof.
  intros a b c d [->|(s & t & -> & ->)] [->|(s' & t' & -> & ->)].
  - now left.
  - destruct b; (left; reflexivity) || (right; do 2 eexists; split; reflexivity).
  - destruct d; (left; reflexivity) || (right; do 2 eexists; split; reflexivity).
  - right; do 2 eexists; split; reflexivity.
Qed.
Lemma bslt : forall a b : B, same_number a b -> fltb Fl a (fzero Fl) = true -> fltb Fl b (fzero Fl) = true.
Proof. intros a b [->|(s & t & -> & ->)] H; [exact H | destruct s; discriminate]. Qed.
Lemma bxsign : forall a : B, fltb Fl a (fzero Fl) = true -> fsignneg Fl a = true.
Proof. intros a H. destruct a as [s|s| |s m e E]; try destruct s; try discriminate; reflexivity. Qed.

Lemma ieee_step_all : forall l l' : list (cplx B), Forall2 (keptc Fl keptb) l l' -> Forall2 same_or_nan l l'.
Proof. intros l l' H. induction H as [|a b l l' H _ IH]; constructor; auto. Qed.

Theorem ieee_unit_step : forall n data f lr n' r k (l : dense Fl) i, nth_error n k = Some (LDense l) -> dense_wf Fl l -> i < units Fl l ->
  (forall x v, In x (ds_inputs data) -> arrives Fl p n k x (IOScalar v) -> off Fl (d_func l) (pre Fl l v i)) ->
  net_gradient_opt Fl p n data f lr = Ret (n', Ok r) ->
  exists l', nth_error n' k = Some (LDense l') /\ Forall2 same_or_nan (unit_params Fl l i) (unit_params Fl l' i).
Proof.
  intros n data f lr n' r k l i K W Hi O E.
  destruct (dead_unit_step Fl p nilb keptb bx0 bxadd bxsub bxneg bxmul bxkeep n data f lr n' r k l i K W Hi O E) as (l' & K' & _ & H).
  exists l'. split; [exact K' | now apply ieee_step_all].
Qed.

Theorem ieee_filter_step : forall n g g' data f lr n' r k a b (l : conv Fl) o, fit_all Fl n g g' -> Forall (trainable Fl) n -> batch_for Fl g g' data ->
  nth_error n k = Some (LConv l) -> conv_wf Fl a b l -> o < filters Fl l ->
  (forall x ms i j, In x (ds_inputs data) -> arrives Fl p n k x (IOMatrix ms) ->
     i < sh0 (nth 0 ms m_new) - a + 1 -> j < sh1 (nth 0 ms m_new) - b + 1 -> off Fl (k_func l) (cpre Fl a b l ms o i j)) ->
  net_gradient_opt Fl p n data f lr = Ret (n', Ok r) ->
  exists l', nth_error n' k = Some (LConv l') /\ Forall2 same_or_nan (filter_params Fl a b l o) (filter_params Fl a b l' o).
Proof.
  intros n g g' data f lr n' r k a b l o FA TR BF K W Ho O E.
  destruct (dead_filter_step Fl p nilb keptb bx0 bxadd bxsub bxneg bxmul bxkeep n g g' data f lr n' r k a b l o FA TR BF K W Ho O E) as (l' & K' & _ & H).
  exists l'. split; [exact K' | now apply ieee_step_all].
Qed.

Lemma kcase : forall a b : B, keptb a b -> is_nan b = true \/ same_number a b. Proof. intros a b [H|H]; auto. Qed.
Lemma bbad : forall a x : B, is_nan a = true -> is_nan (fsub Fl a x) = true. Proof. intros a x H. apply nan_minus. now left. Qed.

Theorem ieee_unit_forever : forall steps n n' (l : dense Fl) i, nth_error n 0 = Some (LDense l) -> dense_wf Fl l -> i < units Fl l ->
  (forall d f lr v, In (d, f, lr) steps -> In (IOScalar v) (ds_inputs d) -> below Fl (d_func l) (pre Fl l v i)) ->
  train_steps Fl p n steps = Ret n' ->
  exists l', nth_error n' 0 = Some (LDense l') /\
    (Exists tainted (unit_params Fl l' i) \/
     Forall2 csame (unit_params Fl l i) (unit_params Fl l' i) /\ forall v, below Fl (d_func l) (pre Fl l v i) -> below Fl (d_func l') (pre Fl l' v i)).
Proof.
  intros steps n n' l i K W Hi H E.
  destruct (dead_unit_forever Fl p nilb keptb bx0 bxadd bxsub bxneg bxmul bxkeep (fun x : B => is_nan x = true) same_number kcase bbad bsrefl bstrans bsadd bssub bsmul bslt bxsign
    steps n n' l i K W Hi H E) as (l' & K' & _ & S). exists l'. auto.
Qed.

Theorem ieee_filter_forever : forall steps n n' g g' a b (l : conv Fl) o, fit_all Fl n g g' -> Forall (trainable Fl) n ->
  nth_error n 0 = Some (LConv l) -> conv_wf Fl a b l -> o < filters Fl l ->
  (forall d f lr, In (d, f, lr) steps -> batch_for Fl g g' d) ->
  (forall d f lr ms, In (d, f, lr) steps -> In (IOMatrix ms) (ds_inputs d) -> filter_below Fl a b l o ms) ->
  train_steps Fl p n steps = Ret n' ->
  exists l', nth_error n' 0 = Some (LConv l') /\
    (Exists tainted (filter_params Fl a b l' o) \/
     Forall2 csame (filter_params Fl a b l o) (filter_params Fl a b l' o) /\ forall ms, filter_below Fl a b l o ms -> filter_below Fl a b l' o ms).
Proof.
  intros steps n n' g g' a b l o FA TR K W Ho HB H E.
  destruct (dead_filter_forever Fl p nilb keptb bx0 bxadd bxsub bxneg bxmul bxkeep (fun x : B => is_nan x = true) same_number kcase bbad bsrefl bstrans bsadd bssub bsmul bslt bxsign
    steps n n' g g' a b l o FA TR K W Ho HB H E) as (l' & K' & _ & S). exists l'. auto.
Qed.
End IEEE.
