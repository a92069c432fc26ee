(** * Fitting any training set exactly *)
From Coq Require Import Reals Lra Psatz Classical Permutation.
From Verif Require Import Base BaseFacts Float Matrix Cplx Act Input Loss Dense Conv Layer Dataset Network RFloat CFacts
  SpecMatrix MatrixFacts SpecLayer SpecConv SpecNet SpecGeom SpecEval SpecLoss SpecGrad DenseFacts NetFacts TrainFacts LossFacts PropDense PropLoss PropEval PropTrain PropLaws GeomFacts GradFacts2 SpecMemory.
Local Open Scope nat_scope.

(** ** A direction that keeps finitely many vectors apart *)
Lemma beyond : forall bad : list R, exists e, (0 < e)%R /\ forall b, In b bad -> (b < e)%R.
Proof.
  induction bad as [|b bad (e & P & H)]; [exists 1%R; split; [lra | intros b []]|].
  exists (Rmax e (b + 1))%R. pose proof (Rmax_l e (b + 1)). pose proof (Rmax_r e (b + 1)). split; [lra|]. intros c [<-|I]; [lra|]. specialize (H c I). lra.
Qed.

Section Apart.
Context (N : nat).
Definition along (w v : nat -> RC) : RC := csum (fun j => w j * v j)%RC N.
Definition nonzero (v : nat -> RC) : Prop := exists j, j < N /\ v j <> 0%RC.

Lemma re_csum : forall (f : nat -> RC) n, re (csum f n) = rsum (fun i => re (f i)) n.
Proof. intros f n. induction n as [|n IH]; [reflexivity|]. rewrite csum_S, rsum_S, <- IH. reflexivity. Qed.

Lemma along_self : forall v, nonzero v -> (0 < re (along (fun j => conj (v j)) v))%R.
Proof.
  intros v (j & Hj & NZ). unfold along. rewrite re_csum. set (e := fun i => re (conj (v i) * v i)%RC).
  assert (E : forall i, (e i = re (v i) * re (v i) + im (v i) * im (v i))%R) by (intros i; unfold e; cbn; ring).
  assert (EN : forall i, (0 <= e i)%R) by (intros i; rewrite E; nra). pose proof (rsum_ge e N j ltac:(auto) Hj) as G.
  assert (P : (0 < e j)%R); [|lra]. rewrite E. destruct (v j) as [a b]. cbn [re im]. destruct (Req_dec a 0) as [->|A]; [destruct (Req_dec b 0) as [->|B]; [now destruct NZ|]|]; nra.
Qed.

Lemma along_move : forall (w q v : nat -> RC) (e : R), re (along (fun j => w j + mkC e 0%R * q j)%RC v) = (re (along w v) + e * re (along q v))%R.
Proof.
  intros w q v e. unfold along. rewrite (csum_ext (fun j => (w j + mkC e 0%R * q j) * v j)%RC (fun j => w j * v j + mkC e 0%R * (q j * v j))%RC) by (intros; ring).
  rewrite csum_add, csum_mul_l. cbn. ring.
Qed.

Lemma apart : forall vs : list (nat -> RC), exists w, forall v, In v vs -> nonzero v -> re (along w v) <> 0%R.
Proof.
  induction vs as [|v vs (w & H)]; [exists (fun _ => 0%RC); intros v []|].
  destruct (classic (nonzero v)) as [NZ|Z]; [|exists w; intros u [<-|I] Q; [contradiction | auto]].
  set (q := fun j => conj (v j)). destruct (beyond (map (fun u => - re (along w u) / re (along q u))%R (v :: vs))) as (e & EP & EB).
  exists (fun j => w j + mkC e 0%R * q j)%RC. intros u I Q. rewrite along_move. intros C.
  destruct (Req_dec (re (along q u)) 0) as [B|B].
  - rewrite B in C. destruct I as [<-|I]; [pose proof (along_self v NZ); unfold q in B; lra|]. apply (H u I Q). lra.
  - specialize (EB (- re (along w u) / re (along q u))%R (in_map (fun u => - re (along w u) / re (along q u))%R _ u I)). assert (e = - re (along w u) / re (along q u))%R by (field_simplify_eq; [lra | exact B]). lra.
Qed.
End Apart.

(** ** Ramps through given points of the line *)
Lemma largest : forall {B} (l : list (R * B)), l <> [] -> NoDup (map fst l) -> exists a l', Permutation l (a :: l') /\ forall b, In b l' -> (fst b < fst a)%R.
Proof.
  intros B l. induction l as [|x l IH]; intros NE ND; [congruence|]. inversion ND as [|? ? NI ND']; subst. destruct l as [|y l].
  - exists x, []. split; [apply Permutation_refl | intros b []].
  - destruct (IH ltac:(discriminate) ND') as (a & l' & P & H). assert (X : fst x <> fst a) by (intros E; apply NI; rewrite E; apply in_map, (Permutation_in a (Permutation_sym P)); now left).
    destruct (Rlt_dec (fst x) (fst a)).
    + exists a, (x :: l'). split; [rewrite P; apply perm_swap|]. intros b [<-|I]; auto.
    + exists x, (a :: l'). split; [now rewrite P|]. intros b [<-|I]; [lra|]. specialize (H b I). lra.
Qed.

Lemma between : forall (l : list R) t, (forall b, In b l -> (b < t)%R) -> exists m, (m < t)%R /\ forall b, In b l -> (b <= m)%R.
Proof.
  intros l t. induction l as [|x l IH]; intros H; [exists (t - 1)%R; split; [lra | intros b []]|].
  destruct IH as (m & M & L); [intros; apply H; now right|]. exists (Rmax m x). pose proof (Rmax_l m x). pose proof (Rmax_r m x). split.
  - apply Rmax_lub_lt; [exact M | apply H; now left].
  - intros b [<-|I]; [lra|]. specialize (L b I). lra.
Qed.

Definition ramp (t : R) : RC := mkC (relu ROps t) 0%R.
Lemma relu_neg : forall t : R, (t <= 0)%R -> relu ROps t = 0%R.
Proof. intros t H. unfold relu. cbn [fsignneg ROps]. destruct (Rltb t 0) eqn:Q; [reflexivity|]. apply Rltb_ge in Q. now apply Rle_antisym. Qed.
Lemma relu_pos : forall t : R, (0 <= t)%R -> relu ROps t = t.
Proof. intros t H. unfold relu. cbn [fsignneg ROps]. destruct (Rltb t 0) eqn:Q; [apply Rltb_lt in Q; lra | reflexivity]. Qed.

Lemma ramps : forall n (l : list (R * (nat -> RC))), length l = n -> NoDup (map fst l) ->
  exists (m : nat -> R) (c : nat -> nat -> RC), forall t y, In (t, y) l -> forall o, csum (fun k => c o k * ramp (t - m k))%RC n = y o.
Proof.
  induction n as [|n IH]; intros l LN ND.
  - destruct l; [|discriminate]. exists (fun _ => 0%R), (fun _ _ => 0%RC). intros t y [].
  - destruct (largest l) as ((ta, ya) & l' & P & H); [intros ->; discriminate | exact ND|].
    assert (LN' : length l' = n) by (apply eq_add_S; exact (eq_trans (eq_sym (Permutation_length P)) LN)).
    assert (ND' : NoDup (map fst l')) by (apply (Permutation_NoDup (Permutation_map fst P)) in ND; now inversion ND).
    destruct (IH l' LN' ND') as (m & c & E). destruct (between (map fst l') ta) as (mm & M & L).
    { intros b I. apply in_map_iff in I as ((t, y) & <- & I). exact (H _ I). }
    set (f := fun o => csum (fun k => c o k * ramp (ta - m k))%RC n).
    exists (fun k => if k =? n then mm else m k), (fun o k => if k =? n then ((ya o - f o) * mkC (/ (ta - mm))%R 0%R)%RC else c o k).
    intros t y I o. rewrite csum_S, Nat.eqb_refl.
    rewrite (csum_ext _ (fun k => c o k * ramp (t - m k))%RC) by (intros k Hk; destruct (Nat.eqb_spec k n); [lia | reflexivity]).
    apply (Permutation_in _ P) in I as [I|I].
    + injection I as <- <-. fold (f o). unfold ramp. rewrite relu_pos by lra. assert (D : (ta - mm <> 0)%R) by lra.
      assert (X : forall a b : RC, (b + (a - b) * mkC (/ (ta - mm))%R 0%R * mkC (ta - mm)%R 0%R = a)%RC) by (intros [a1 a2] [b1 b2]; apply c_ext; cbn; field; exact D). apply X.
    + rewrite (E t y I). unfold ramp. rewrite relu_neg; [|specialize (L t (in_map fst _ _ I)); cbn in L; lra]. change (mkC 0%R 0%R) with 0%RC. ring.
Qed.

(** ** The network *)
Section Memory.
Context (p : prec) (N M : nat) (pts : list (list RC * list RC)).
Context (NN : N <> 0) (NE : pts <> []) (HL : forall x t, In (x, t) pts -> length x = N /\ length t = M) (ND : NoDup (map fst pts)).

Lemma direction : exists w, forall x t x' t', In (x, t) pts -> In (x', t') pts ->
  re (along N w (fun j => nth j x 0%RC)) = re (along N w (fun j => nth j x' 0%RC)) -> x = x'.
Proof.
  pose (diff := fun q : (list RC * list RC) * (list RC * list RC) => fun j => (nth j (fst (fst q)) 0 + mkC (-1)%R 0%R * nth j (fst (snd q)) 0)%RC).
  destruct (apart N (map diff (list_prod pts pts))) as (w & H). exists w. intros x t x' t' I I' E.
  apply NNPP. intros NQ. apply (H (diff ((x, t), (x', t')))).
  - apply in_map, in_prod; auto.
  - destruct (HL _ _ I) as (L & _). destruct (HL _ _ I') as (L' & _). apply NNPP. intros Q. apply NQ. apply (nth_ext _ _ 0%RC 0%RC); [congruence|]. intros j Hj.
    apply NNPP. intros D. apply Q. exists j. split; [lia|]. unfold diff. cbn [fst snd]. intros Z. apply D.
    revert Z. generalize (nth j x 0%RC) (nth j x' 0%RC). intros [a b] [c d] Z. pose proof (f_equal re Z) as Z1. pose proof (f_equal im Z) as Z2. cbn in Z1, Z2. apply c_ext; cbn; lra.
  - unfold diff. cbn [fst snd]. 
    assert (A : along N w (fun j => nth j x 0 + mkC (-1)%R 0%R * nth j x' 0)%RC = (along N w (fun j => nth j x 0) + mkC (-1)%R 0%R * along N w (fun j => nth j x' 0))%RC).
    { unfold along. rewrite <- csum_mul_l, <- csum_add. apply csum_ext. intros j _. ring. }
    rewrite A. revert E. generalize (along N w (fun j => nth j x 0%RC)) (along N w (fun j => nth j x' 0%RC)). intros [a b] [c d] E. cbn in *. lra.
Qed.

Lemma memory : exists l1 l2 : dense ROps, dense_wf ROps l1 /\ inputs ROps l1 = N /\ units ROps l1 = length pts /\ d_func l1 = RITReLU /\
  dense_wf ROps l2 /\ inputs ROps l2 = length pts /\ units ROps l2 = M /\ d_func l2 = ActNone /\
  forall x t, In (x, t) pts -> predicts ROps p [LDense l1; LDense l2] (IOScalar x) t.
Proof.
  destruct direction as (w & W). pose (tt := fun x : list RC => re (along N w (fun j => nth j x 0%RC))).
  destruct (ramps (length pts) (map (fun q => (tt (fst q), fun o => nth o (snd q) 0%RC)) pts)) as (m & c & R).
  { apply map_length. }
  { rewrite map_map. cbn [fst]. clear c R NE || clear NE. revert W ND. clear - pts. intros W ND. induction pts as [|q l IH]; [constructor|]. cbn [map]. inversion ND as [|? ? NI ND']; subst. constructor.
    - intros I. apply in_map_iff in I as (q' & E & I). apply NI. destruct q as (x, t), q' as (x', t'). cbn [fst] in *. rewrite (W x t x' t'); [exact (in_map fst _ _ I) | now left | now right | exact (eq_sym E)].
    - apply IH; [intros; eapply W; try (right; eassumption); assumption | exact ND']. }
  destruct (beyond (map (fun q => im (along N w (fun j => nth j (fst q) 0%RC))) pts)) as (B & _ & HB).
  pose (l1 := mkDense ROps (mat (length pts) N (fun _ j => w j)) (map (fun k => mkC (- m k)%R (- B)%R : RC) (seq 0 (length pts))) RITReLU).
  pose (l2 := mkDense ROps (mat M (length pts) c) (map (fun _ => 0%RC) (seq 0 M)) ActNone).
  assert (W1 : dense_wf ROps l1) by (split; [apply wf_mat|]; split; [cbn; now rewrite map_length, seq_length | exact NN]).
  assert (W2 : dense_wf ROps l2) by (split; [apply wf_mat|]; split; [cbn; now rewrite map_length, seq_length | cbn; destruct pts; [congruence | discriminate]]).
  exists l1, l2. split; [exact W1|]. do 3 (split; [reflexivity|]). split; [exact W2|]. do 3 (split; [reflexivity|]). intros x t I. destruct (HL x t I) as (LX & LT).
  pose (h := map (fun k => ramp (tt x - m k)) (seq 0 (length pts))). unfold predicts. rewrite forward_fold by discriminate. cbn [foldM].
  assert (E1 : dense_forward ROps p l1 (IOScalar x) = Ret (Ok (IOScalar h))).
  { apply C40_forward; [exact W1 | exact LX|]. unfold h. rewrite map_length, seq_length. split; [reflexivity|]. intros k Hk. change (units ROps l1) with (length pts) in Hk. cbn [d_func l1 activate].
    f_equal. change (c_default ROps) with 0%RC. rewrite nth_map_seq by exact Hk.
    assert (P : pre ROps l1 x k = (along N w (fun j => nth j x 0) + mkC (- m k)%R (- B)%R)%RC).
    { change (pre ROps l1 x k) with (csum (fun j => weight ROps l1 k j * nth j x 0)%RC N + nth k (d_biases l1) 0)%RC. f_equal.
      - apply csum_ext. intros j Hj. f_equal. unfold weight. cbn [d_weights l1]. now rewrite entry_mat.
      - cbn [d_biases l1]. now rewrite nth_map_seq. }
    rewrite P. unfold ramp, ritrelu. apply c_ext.
    - cbn [re c_add]. reflexivity.
    - cbn [im]. apply relu_neg. pose proof (HB _ (in_map (fun q => im (along N w (fun j => nth j (fst q) 0%RC))) _ _ I)) as Q. cbn [fst] in Q. cbn [im c_add fadd ROps]. lra. }
  rewrite (fwd_ok ROps p (LDense l1) _ _ E1). cbn [obind].
  assert (E2 : dense_forward ROps p l2 (IOScalar h) = Ret (Ok (IOScalar t))).
  { apply C40_forward; [exact W2 | unfold h; now rewrite map_length, seq_length|]. split; [exact LT|]. intros o Ho. change (units ROps l2) with M in Ho. cbn [d_func l2 activate]. f_equal.
    change (c_default ROps) with 0%RC. rewrite <- (R (tt x) (fun o => nth o t 0%RC)) by exact (in_map (fun q => (tt (fst q), fun o => nth o (snd q) 0%RC)) _ _ I).
    change (pre ROps l2 h o) with (csum (fun k => weight ROps l2 o k * nth k h 0)%RC (length pts) + nth o (d_biases l2) 0)%RC. cbn [d_biases l2]. rewrite nth_map_seq by exact Ho.
    transitivity (csum (fun k => c o k * ramp (tt x - m k))%RC (length pts) + 0)%RC; [|ring]. f_equal. apply csum_ext. intros k Hk. unfold h. rewrite nth_map_seq by exact Hk. f_equal.
    unfold weight. cbn [d_weights l2]. now rewrite entry_mat. }
  rewrite (fwd_ok ROps p (LDense l2) _ _ E2). reflexivity.
Qed.
End Memory.

Lemma memory_net : forall p N M pts, consistent N M pts -> exists n, two_layers N (length pts) M n /\ forall x t, In (x, t) pts -> predicts ROps p n (IOScalar x) t.
Proof.
  intros p N M pts (NN & NE & HL & ND). destruct (memory p N M pts NN NE HL ND) as (l1 & l2 & A1 & A2 & A3 & A4 & A5 & A6 & A7 & A8 & H).
  exists [LDense l1; LDense l2]. split; [|exact H]. exists l1, l2. auto 10.
Qed.

(** ** What a perfect fit means for the reported figures and for training *)
Section Perfect.
Context (p : prec) (n : network ROps) (pts : list (list RC * list RC)) (H : forall x t, In (x, t) pts -> predicts ROps p n (IOScalar x) t).

Lemma perfect_forward : Forall2 (predicts ROps p n) (ds_inputs (samples pts)) (map snd pts).
Proof.
  cbn [samples ds_inputs]. assert (G : forall l, (forall q, In q l -> In q pts) -> Forall2 (predicts ROps p n) (map (fun q => IOScalar (fst q)) l) (map snd l)); [|apply G; auto].
  induction l as [|(x, t) l IH]; intros I; [constructor|]. cbn [map fst snd]. constructor; [apply H, I; now left | apply IH; intros; apply I; now right].
Qed.

Lemma loss_self : forall t : list RC, 2 <= length t -> loss ROps (IOScalar t) (IOScalar t) MeanSquare = Ok 0%R.
Proof.
  intros t L. destruct (C33_exact t t) as (l & E & _ & _ & Z); [now rewrite Nat.min_id|]. rewrite E. f_equal. apply Z. auto.
Qed.

Lemma perfect_loss : pts <> [] -> (forall x t, In (x, t) pts -> 2 <= length t) -> net_loss ROps p n (samples pts) MeanSquare = Ret (Ok 0%R).
Proof.
  intros NE LT. pose proof perfect_forward as F. destruct pts as [|q l] eqn:EP; [congruence|].
  rewrite (C57_mean ROps p n (samples (q :: l)) MeanSquare (map (@IOScalar _) (map snd (q :: l))) 0%R (map (fun _ => 0%R) l)).
  - f_equal. f_equal. assert (Z : forall (k : list (list RC * list RC)), fold_left (fadd ROps) (map (fun _ => 0%R) k) 0%R = 0%R).
    { induction k as [|x k IH]; [reflexivity|]. cbn [map fold_left fadd ROps]. replace (0 + 0)%R with 0%R by ring. exact IH. }
    rewrite Z. exact (Rmult_0_l _).
  - clear - F. induction F; cbn [map]; constructor; auto.
  - cbn [samples ds_inputs ds_target]. now rewrite !map_length.
  - cbn [samples ds_target]. change (0%R :: map (fun _ => 0%R) l) with (map (fun _ : list RC * list RC => 0%R) (q :: l)).
    assert (G : forall k, (forall x t, In (x, t) k -> 2 <= length t) -> Forall2 (fun q v => loss ROps (fst q) (snd q) MeanSquare = Ok v)
       (combine (map (fun q => IOScalar (snd q)) k) (map (@IOScalar RC) (map snd k))) (map (fun _ : list RC * list RC => 0%R) k)).
    { clear. induction k as [|(x, t) k IH]; intros L; cbn [map combine]; [constructor|]. constructor; [apply loss_self, (L x t); now left | apply IH; intros; eapply L; right; eassumption]. }
    apply G. exact LT.
Qed.

Lemma agreements_self : forall l, agreements l l = length l.
Proof. induction l as [|x l IH]; [reflexivity|]. cbn [agreements length]. rewrite Nat.eqb_refl, IH. reflexivity. Qed.
Lemma perfect_accuracy : pts <> [] -> net_max_pred_test ROps p n (samples pts) = Ret 1%R.
Proof.
  intros NE. rewrite (C56_accuracy ROps p n (samples pts) (map snd pts) (map snd pts) perfect_forward); [| |reflexivity].
  - rewrite agreements_self, !map_length, !fofnat_R. f_equal. cbn [fdiv ROps]. apply Rinv_r. apply not_0_INR. destruct pts; [congruence | discriminate].
  - cbn [samples ds_target]. now rewrite map_map.
Qed.

Lemma perfect_still : Forall (layer_full ROps) n -> forall b f lr n' r, (forall q, In q b -> In q pts) -> net_gradient_opt ROps p n (samples b) f lr = Ret (n', r) -> n' = n.
Proof.
  intros FU b f lr n' r S E. apply (C68_solved p n n' (map (fun q => (IOScalar (fst q), IOScalar (snd q))) b) f lr r FU).
  - intros x t I. apply in_map_iff in I as ((x0, t0) & I & IN). injection I as <- <-. exists (IOScalar t0). split; [apply H, S, IN | reflexivity].
  - unfold batch. rewrite !map_map. exact E.
Qed.
End Perfect.

Lemma two_fit : forall N H M n, two_layers N H M n -> fit_all ROps n (Vec N) (Vec M) /\ Forall (layer_full ROps) n /\ Forall (trainable ROps) n /\ length n = 2.
Proof.
  intros N H M n (l1 & l2 & -> & W1 & <- & E1 & A1 & W2 & E2 & <- & A2). split; [|split; [|split; [|reflexivity]]].
  - apply fit_cons with (Vec (units ROps l1)); [apply fits_dense; [exact W1 | congruence]|]. rewrite E1, <- E2. eapply fit_cons; [apply fits_dense; [exact W2 | congruence] | constructor].
  - constructor; [exact (proj1 W1)|]. constructor; [exact (proj1 W2) | constructor].
  - repeat constructor.
Qed.

Lemma memory_all : forall p N M pts, consistent N M pts -> 2 <= M -> exists n, two_layers N (length pts) M n /\
  (forall x t, In (x, t) pts -> predicts ROps p n (IOScalar x) t) /\
  net_loss ROps p n (samples pts) MeanSquare = Ret (Ok 0%R) /\ net_max_pred_test ROps p n (samples pts) = Ret 1%R /\
  forall b f (lr : R), b <> [] -> (forall q, In q b -> In q pts) -> net_gradient_opt ROps p n (samples b) f (mkC lr 0%R) = Ret (n, Ok tt).
Proof.
  intros p N M pts C M2. pose proof C as (NN & NE & HL & ND). destruct (memory_net p N M pts C) as (n & T & H). exists n. split; [exact T|]. split; [exact H|].
  split; [apply perfect_loss; [exact H | exact NE|]; intros x t I; destruct (HL x t I) as (_ & ->); exact M2|]. split; [now apply perfect_accuracy|].
  intros b f lr NB S. destruct (two_fit _ _ _ _ T) as (F & FU & TR & L2).
  destruct (training_total ROps p n (Vec N) (Vec M) (samples b) f (mkC lr 0%R) (mkC (lr * / INR (length (ds_inputs (samples b))))%R 0%R)) as (n' & E & _).
  - rewrite L2. lia.
  - exact F.
  - exact TR.
  - split; [cbn; now rewrite !map_length|]. split; intros z I; apply in_map_iff in I as ((x, t) & <- & I); destruct (HL x t (S _ I)) as (L & L').
    + exact L.
    + exact (Nat.eq_le_incl _ _ (eq_sym L')).
  - apply div_real. cbn [samples ds_inputs]. rewrite map_length. destruct b; [congruence | discriminate].
  - rewrite E. f_equal. f_equal. exact (perfect_still p n pts H FU b f _ n' _ S E).
Qed.
