(** * What the evaluation of the classification program reports *)
From Coq Require Import Reals Lra.
From Flocq Require Import Core BinarySingleNaN.
From Verif Require Import Base BaseFacts Float Matrix Cplx Random Act Input Loss Dense Conv Layer Dataset Network Examples SpecMatrix SpecLayer SpecConv SpecNet SpecGeom SpecMnist SpecExamples
  RFloat BFloat CFacts LossFacts SpecEval SpecRound RoundFacts RoundAct LossFloatFacts PropData PropEval PropTrain PropGeom MnistFacts PropMnist ExampleFacts PropLoss SpecLoss SpecError ErrorFacts ErrorEx SpecPooled PooledFacts.
Local Notation P32 := Float.P32.
Local Open Scope nat_scope.

(** ** Batches of the same size *)
Lemma pooled_equal : forall s ls k, 0 < s -> ls <> [] -> k = length ls -> pooled (repeat s k) ls = mean ROps ls.
Proof.
  intros s ls k S0 NE ->. unfold pooled, mean. rewrite fofnat_R. change (fadd ROps) with Rplus. change (fdiv ROps) with Rdiv. change (fzero ROps) with 0%R.
  pose proof (fold_plus ls 0%R) as E. cbn [F ROps] in *. rewrite E. clear E.
  assert (E1 : forall l : list R, fold_right Rplus 0%R (map (fun q => (INR (fst q) * snd q)%R) (combine (repeat s (length l)) l)) = (INR s * fold_right Rplus 0 l)%R).
  { induction l as [|x l IH]; [cbn; ring|]. cbn [length repeat combine map fold_right fst snd]. rewrite IH. ring. }
  assert (E2 : forall k, fold_right Nat.add 0 (repeat s k) = k * s) by (induction k as [|k IH]; [reflexivity|]; cbn [repeat fold_right]; rewrite IH; lia).
  rewrite E1, E2, mult_INR. assert (P : (0 < INR s)%R) by (apply lt_0_INR; lia). assert (Q : (0 < INR (length ls))%R) by (apply lt_0_INR; destruct ls; [congruence | cbn; lia]). field. split; lra.
Qed.

Section Cuts.
Context (Fl : FloatOps).
Local Notation C := (cplx (F Fl)).
Local Notation pt := (MnistFacts.pt (cbyte Fl) (c_default Fl) (c_unit Fl)).

Fixpoint cuts (size b : nat) (rs : list mrec) : list (list mrec) :=
  match b with 0 => [] | S b => firstn size rs :: cuts size b (skipn size rs) end.
Lemma cut_cuts : forall size b rs, cut Fl size b rs = map (fun q => batch (map pt q)) (cuts size b rs).
Proof. intros size. induction b as [|b IH]; intros rs; [reflexivity|]. cbn [cut cuts map]. rewrite IH. now rewrite ds_of_lists. Qed.
Lemma cuts_length : forall size b rs, length (cuts size b rs) = b.
Proof. intros size. induction b as [|b IH]; intros rs; cbn; [reflexivity|]. now rewrite IH. Qed.
Lemma firstn_both : forall {A} a b (l : list A), firstn a l ++ firstn b (skipn a l) = firstn (a + b) l.
Proof. intros A. induction a as [|a IH]; intros b l; [reflexivity|]. destruct l as [|x l]; [cbn; now rewrite firstn_nil|]. cbn [firstn skipn app Nat.add]. now rewrite IH. Qed.
Lemma cuts_concat : forall size b rs, concat (cuts size b rs) = firstn (b * size) rs.
Proof. intros size. induction b as [|b IH]; intros rs; [reflexivity|]. cbn [cuts concat Nat.mul]. now rewrite IH, firstn_both. Qed.
Lemma cuts_sizes : forall size b rs, b * size <= length rs -> Forall (fun q => length q = size) (cuts size b rs).
Proof. intros size. induction b as [|b IH]; intros rs L; [constructor|]. cbn [cuts]. constructor; [rewrite firstn_length; lia|]. apply IH. rewrite skipn_length. lia. Qed.

Lemma visits_none : forall f n ds n' ls accs, visits Fl None f n ds n' ls accs ->
  Forall2 (fun d l => net_loss Fl P32 n d f = Ret (Ok l)) ds ls /\ Forall2 (fun d a => net_max_pred_test Fl P32 n d = Ret a) ds accs.
Proof. intros f n ds n' ls accs H. induction H as [|n d l a n1 ds n' ls accs E1 E2 E3 H IH]; [split; constructor|]. subst n1. destruct IH. split; constructor; assumption. Qed.
End Cuts.

(** ** Exact arithmetic *)
Lemma pxR : forall b, (b < 256)%N -> px_cplx ROps b = Ret (cbyte ROps b).
Proof.
  intros b Hb. unfold px_cplx, c_div, cbyte, byte. cbn -[IZR]. unfold Reqb. destruct (Req_EM_T _ _) as [E|N]; [exfalso; lra|]. f_equal. f_equal; field; lra.
Qed.
Lemma predR : forall k, k < 10 -> c_gen_pred ROps 10 k Sparse = Ret (Ok (set_nth (repeat (c_default ROps) 10) k (c_unit ROps))).
Proof. apply (pred_generic (c_default ROps) (c_unit ROps) (c_unit ROps) (c_add_assign ROps)). apply c_ext; cbn; ring. Qed.
Lemma rateR : forall k (lr : cplx (F ROps)), k <> 0 -> exists s, c_div ROps lr (c_of_nat ROps k) = Ret s.
Proof. intros k lr H. destruct (C62_rate k H) as (R & _). apply R. Qed.

Theorem sweep_exact : forall f size batches hd hl rs n,
  0 < size -> 0 < batches -> 2 <= length n -> fit_all ROps n (Maps 1 28 28) (Vec 10) -> Forall (trainable ROps) n ->
  length hd = 16 -> length hl = 8 -> Forall record_ok rs -> batches * size <= length rs -> (N.of_nat (batches * size) <= 60000)%N ->
  exists d l a, class_sweep ROps None f batches size (image_file hd rs) (label_file hl rs) n = Ret (n, l, a) /\
    length (ds_inputs d) = batches * size /\ length (ds_target d) = batches * size /\ Forall2 (shows (cbyte ROps) (c_default ROps) (c_unit ROps)) (firstn (batches * size) rs) (points d) /\
    net_loss ROps P32 n d f = Ret (Ok l) /\ net_max_pred_test ROps P32 n d = Ret a.
Proof.
  intros f size batches hd hl rs n SZ B0 L2 FA TR H1 H2 G B1 B2.
  destruct (class_sweep_ok ROps pxR predR rateR None f size batches hd hl rs n) as (n' & ls & accs & E & V & _); auto. { repeat split; assumption. }
  pose proof (visits_same _ _ _ _ _ _ _ V). subst n'. destruct (visits_length _ _ _ _ _ _ _ _ V) as (LL & LA). rewrite cut_length in LL, LA.
  destruct (visits_none _ _ _ _ _ _ _ V) as (VL & VA). rewrite cut_cuts in VL, VA.
  set (pt := MnistFacts.pt (cbyte ROps) (c_default ROps) (c_unit ROps)) in *. set (bs := map (map pt) (cuts size batches rs)).
  assert (NE : bs <> []). { intros Q. apply (f_equal (@length _)) in Q. unfold bs in Q. rewrite map_length, cuts_length in Q. cbn in Q. lia. }
  pose proof (cuts_sizes size batches rs B1) as CS.
  assert (SB : map (@length _) bs = repeat size batches).
  { unfold bs. rewrite map_map. rewrite <- (cuts_length size batches rs) at 2. clear - CS. induction CS as [|q qs E _ IH]; [reflexivity|]. cbn [map length repeat]. rewrite map_length, E. now f_equal. }
  assert (NB : Forall (fun b => b <> []) bs).
  { unfold bs. apply Forall_map. eapply Forall_impl; [|exact CS]. intros q Q Z. apply map_eq_nil in Z. subst q. cbn in Q. lia. }
  assert (VL' : Forall2 (fun b l => net_loss ROps P32 n (batch b) f = Ret (Ok l)) bs ls).
  { unfold bs. clear - VL. revert VL. generalize (cuts size batches rs) ls. induction l as [|q qs IH]; intros l' H; inversion H; subst; constructor; auto. }
  assert (VA' : Forall2 (fun b l => net_max_pred_test ROps P32 n (batch b) = Ret l) bs accs).
  { unfold bs. clear - VA. revert VA. generalize (cuts size batches rs) accs. induction l as [|q qs IH]; intros l' H; inversion H; subst; constructor; auto. }
  assert (CB : concat bs = map pt (firstn (batches * size) rs)) by (unfold bs; rewrite <- concat_map, cuts_concat; reflexivity).
  pose proof (proj1 (pooled_loss P32 n f bs NE NB) ls VL') as EL. pose proof (proj1 (pooled_accuracy P32 n bs NE NB) accs VA') as EA.
  rewrite SB, CB in EL, EA. rewrite pooled_equal in EL, EA by (try assumption; try (destruct ls, accs; cbn in *; try discriminate; lia); congruence).
  exists (batch (map pt (firstn (batches * size) rs))), (mean ROps ls), (mean ROps accs). split; [exact E|]. cbn [batch ds_inputs ds_target]. rewrite !map_length, firstn_length. split; [lia|]. split; [lia|].
  split; [|split; [exact EL | exact EA]].
  unfold points, ds_points_iter. cbn [fst snd]. rewrite batch_points. apply pts_show. apply Forall_firstn. now apply rec_good.
Qed.

(** ** Single precision *)
Lemma agreements_app : forall a b c d, length a = length c -> agreements (a ++ b) (c ++ d) = agreements a c + agreements b d.
Proof. induction a as [|x a IH]; intros b [|y c] d L; try discriminate; [reflexivity|]. cbn [app agreements]. rewrite IH by (now injection L). lia. Qed.
Lemma agreements_le : forall a b, agreements a b <= length a.
Proof. induction a as [|x a IH]; intros [|y b]; cbn [agreements length]; try lia. specialize (IH b). destruct (x =? y); lia. Qed.

Lemma pow_slow : forall (u : R) k, (0 <= u)%R -> ((1 + u) ^ k * (1 - INR k * u) <= 1)%R.
Proof.
  intros u k U. induction k as [|k IH]; [cbn; lra|]. rewrite S_INR. cbn [pow]. assert (P : (0 <= (1 + u) ^ k)%R) by (apply pow_le; lra).
  assert (Q : ((1 + u) * (1 - (INR k + 1) * u) <= 1 - INR k * u)%R) by (pose proof (pos_INR k); nra).
  replace ((1 + u) * (1 + u) ^ k * (1 - (INR k + 1) * u))%R with ((1 + u) ^ k * ((1 + u) * (1 - (INR k + 1) * u)))%R by ring.
  eapply Rle_trans; [apply Rmult_le_compat_l; [exact P | exact Q] | exact IH].
Qed.

Section Single.
Context (L : libm (binary_float 24 128)).
Local Notation Fl := (B32Ops L).
Local Notation B := (binary_float 24 128).
Local Notation pt := (MnistFacts.pt (cbyte Fl) (c_default Fl) (c_unit Fl)).
Local Notation uu := (uu 24).
Local Notation eta := (eta 24 128).
Local Notation close := (close 24 128).

Lemma max_label : forall k, k < 10 -> max_index Fl (set_nth (repeat (c_default Fl) 10) k (c_unit Fl)) = k.
Proof. intros k H. do 10 (destruct k as [|k]; [vm_compute; reflexivity|]). lia. Qed.

Lemma judge : forall n r, n <> [] -> fit_all Fl n (Maps 1 28 28) (Vec 10) -> good_rec r -> exists v, predicts Fl P32 n (fst (pt r)) v.
Proof.
  intros n r NE FA G. destruct (C62_forward Fl P32 n _ _ (fst (pt r)) NE FA (proj1 (pt_geom Fl r G))) as (y & E & Y). destruct y as [v|m]; [now exists v | destruct Y].
Qed.

Lemma batch_hits : forall n q, n <> [] -> fit_all Fl n (Maps 1 28 28) (Vec 10) -> Forall good_rec q ->
  exists ks, Forall2 (judged Fl P32 n) q ks /\
    net_max_pred_test Fl P32 n (batch (map pt q)) = Ret (fdiv Fl (fofnat Fl (agreements ks (labels q))) (fofnat Fl (length q))).
Proof.
  intros n q NE FA G.
  assert (X : exists vs, Forall2 (predicts Fl P32 n) (map fst (map pt q)) vs).
  { induction G as [|r q R G IH]; [exists []; constructor|]. destruct IH as (vs & IH). destruct (judge n r NE FA R) as (v & V). exists (v :: vs). now constructor. }
  destruct X as (vs & X). exists (map (max_index Fl) vs). split.
  - clear - X G. revert vs X. induction G as [|r q R G IH]; intros vs X; inversion X as [|a b c d V W]; subst; [constructor|]. cbn [map]. constructor; [|now apply IH].
    exists (pt r), b. split; [now apply pt_shows | now split].
  - rewrite (C56_accuracy Fl P32 n (batch (map pt q)) vs (map (fun r => set_nth (repeat (c_default Fl) 10) (N.to_nat (snd r)) (c_unit Fl)) q) X).
    + rewrite map_length. do 4 f_equal. unfold labels. rewrite map_map. apply map_ext_in. intros r R. apply max_label. destruct (proj1 (Forall_forall _ _) G r R) as (_ & _ & H). lia.
    + cbn [batch ds_target]. now rewrite !map_map.
    + apply Forall2_len in X. rewrite !map_length in X. now rewrite map_length.
Qed.

Lemma all_hits : forall n size, n <> [] -> fit_all Fl n (Maps 1 28 28) (Vec 10) -> forall qs accs, Forall (Forall good_rec) qs -> Forall (fun q => length q = size) qs ->
  Forall2 (fun d a => net_max_pred_test Fl P32 n d = Ret a) (map (fun q => batch (map pt q)) qs) accs ->
  exists ks cs, Forall2 (judged Fl P32 n) (concat qs) ks /\ accs = map (fun c => fdiv Fl (fofnat Fl c) (fofnat Fl size)) cs /\ Forall (fun c => c <= size) cs /\
    fold_right Nat.add 0 cs = agreements ks (labels (concat qs)).
Proof.
  intros n size NE FA. induction qs as [|q qs IH]; intros accs G S H; inversion H as [|x a xs as' E H']; subst.
  - exists [], []. repeat split; constructor.
  - inversion G; inversion S; subst. destruct (IH as') as (ks & cs & J & A & C & T); try assumption. destruct (batch_hits n q NE FA) as (k & K & EK); [assumption|].
    exists (k ++ ks), (agreements k (labels q) :: cs). cbn [concat]. split; [now apply Forall2_app|]. split; [cbn [map]; f_equal; [|exact A]; pose proof (eq_trans (eq_sym E) EK) as Q0; now injection Q0|].
    pose proof (Forall2_len _ _ _ K) as LK. split; [constructor; [rewrite LK; apply agreements_le | exact C]|]. cbn [fold_right]. rewrite T. unfold labels at 3. rewrite map_app. rewrite agreements_app; [reflexivity|]. unfold labels. now rewrite map_length.
Qed.

Lemma uu24 : uu = (/ 16777216)%R.
Proof. unfold SpecRound.uu. cbn. lra. Qed.
Lemma pow_two : forall k, (INR k <= 2097152)%R -> (1 <= (1 + uu) ^ k <= 2)%R.
Proof.
  intros k K. pose proof (pw1 24 k) as P. split; [exact P|]. pose proof (pow_slow uu k) as S. rewrite uu24 in *. specialize (S ltac:(lra)). set (w := ((1 + / 16777216) ^ k)%R) in *. clearbody w.
  assert (H : (/ 2 <= 1 - INR k * / 16777216)%R) by lra. nra.
Qed.
Lemma eta_one : (0 < eta <= / 1000000)%R.
Proof.
  split; [apply eta_pos|]. unfold SpecRound.eta. assert (H : (bpow radix2 (SpecFloat.emin 24 128) <= bpow radix2 (-30))%R) by (apply bpow_le; cbn; lia).
  assert (E : bpow radix2 (-30) = (/ 1073741824)%R) by (cbn; lra). rewrite E in H. lra.
Qed.
Lemma omega_big : (16777216 < SpecRound.omega 128)%R.
Proof. unfold SpecRound.omega. assert (E : bpow radix2 24 = 16777216%R) by (cbn; lra). rewrite <- E. apply bpow_lt. lia. Qed.

Section Shares.
Context (size : nat) (S0 : 0 < size) (S1 : (Z.of_nat size <= 2 ^ 24)%Z).
Local Notation q := (fun c => fdiv Fl (fofnat Fl c) (fofnat Fl size) : B).
Let SP : (1 <= INR size)%R.
Proof. apply (le_INR 1). exact S0. Qed.
Local Notation sumN := (fold_right Nat.add 0).

Lemma one_share : forall c, c <= size -> close 1 (INR c / INR size) eta (q c) (INR c / INR size).
Proof.
  intros c Hc. destruct (nat_exact 24 128 prec24 emax128 L size S1) as (F1 & V1). destruct (nat_exact 24 128 prec24 emax128 L c ltac:(lia)) as (F2 & V2).
  pose proof (close_exact 24 128 _ F2) as C0. rewrite V2, Rabs_pos_eq in C0 by apply pos_INR.
  pose proof (close_div 24 128 prec24 emax128 0 _ _ _ _ _ F1 ltac:(rewrite V1; lra) C0) as D. rewrite V1 in D.
  replace (0 / INR size + eta)%R with eta in D by (unfold Rdiv; ring). apply D.
  assert (Q : (0 <= INR c / INR size <= 1)%R).
  { pose proof (pos_INR c). pose proof (le_INR _ _ Hc). split; [apply Rmult_le_pos; [assumption | apply Rlt_le, Rinv_0_lt_compat; lra]|]. apply (Rmult_le_reg_r (INR size)); [lra|]. unfold Rdiv. rewrite Rmult_assoc, Rinv_l by lra. lra. }
  pose proof (pow_two 1 ltac:(cbn; lra)). pose proof eta_one. pose proof omega_big. set (w := ((1 + uu) ^ 1)%R) in *. set (z := (INR c / INR size)%R) in *. clearbody w z. nra.
Qed.

Lemma sum_shares : forall cs, Forall (fun c => c <= size) cs -> (INR (length cs) <= 1048576)%R ->
  (0 <= INR (sumN cs) / INR size <= INR (length cs))%R /\
  close (S (length cs)) (INR (sumN cs) / INR size) (INR (length cs) * eta) (fold_left (fadd Fl) (map q cs) (fzero Fl)) (INR (sumN cs) / INR size).
Proof.
  induction cs as [|c cs IH] using rev_ind; intros H K.
  - cbn [map fold_left fold_right length INR]. replace (0 / INR size)%R with 0%R by (unfold Rdiv; ring). rewrite Rmult_0_l. split; [lra|].
    destruct (zero_val 24 128 prec24 emax128) as (ZV & ZF). pose proof (close_exact 24 128 _ ZF) as C0. rewrite ZV, Rabs_R0 in C0. eapply close_weaken; [exact C0 | lia | lra | lra].
  - apply Forall_app in H as (H1 & H2). inversion H2 as [|x y Hc _]. subst. rewrite app_length in *. cbn [length] in *. replace (length cs + 1) with (S (length cs)) in * by lia. rewrite S_INR in *.
    destruct (IH H1 ltac:(lra)) as (Q & I). rewrite map_app, fold_left_app. cbn [map fold_left].
    assert (ES : (INR (sumN (cs ++ [c])) / INR size = INR (sumN cs) / INR size + INR c / INR size)%R).
    { assert (X : sumN (cs ++ [c]) = sumN cs + c) by (rewrite fold_right_app; cbn [fold_right]; rewrite Nat.add_0_r; clear; induction cs as [|x cs IH]; cbn [fold_right]; [reflexivity|]; rewrite IH; lia). rewrite X, plus_INR. unfold Rdiv. ring. }
    rewrite ES. replace ((INR (length cs) + 1) * eta)%R with (INR (length cs) * eta + eta)%R by ring.
    assert (Q' : (0 <= INR c / INR size <= 1)%R).
    { pose proof (pos_INR c). pose proof (le_INR _ _ Hc). split; [apply Rmult_le_pos; [assumption | apply Rlt_le, Rinv_0_lt_compat; lra]|]. apply (Rmult_le_reg_r (INR size)); [lra|]. unfold Rdiv. rewrite Rmult_assoc, Rinv_l by lra. lra. }
    split; [lra|]. apply (close_plus 24 128 prec24 emax128).
    + exact I.
    + eapply close_weaken; [exact (one_share c Hc) | lia | apply Rle_refl | apply Rle_refl].
    + pose proof (pow_two (S (S (length cs))) ltac:(rewrite !S_INR; lra)) as PW. pose proof eta_one as E1. pose proof omega_big as OB. pose proof (pos_INR (length cs)) as P0.
      set (w := ((1 + uu) ^ S (S (length cs)))%R) in *. set (z := (INR c / INR size)%R) in *. set (y := (INR (sumN cs) / INR size)%R) in *. set (k := INR (length cs)) in *. clearbody w z y k.
      assert (k * eta <= k)%R by nra. assert (y + z + (k * eta + eta) <= 3 * 1048576)%R by lra. nra.
Qed.

Lemma shares_close : forall cs, cs <> [] -> (INR (length cs) <= 1048576)%R -> Forall (fun c => c <= size) cs ->
  let share := (INR (sumN cs) / INR (length cs * size))%R in
  close (length cs + 2) share (2 * eta) (mean Fl (map q cs) : B) share.
Proof.
  intros cs NE K H share. destruct (sum_shares cs H K) as (Q & C0). assert (K1 : (1 <= INR (length cs))%R) by (apply (le_INR 1); destruct cs; [congruence | cbn; lia]).
  destruct (nat_exact 24 128 prec24 emax128 L (length cs)) as (F1 & V1). { apply le_IZR. rewrite <- INR_IZR_INZ. cbn. lra. }
  pose proof (close_div 24 128 prec24 emax128 _ _ _ _ _ _ F1 ltac:(rewrite V1; lra) C0) as D. rewrite V1 in D.
  assert (E : (INR (sumN cs) / INR size / INR (length cs) = share)%R) by (unfold share; rewrite mult_INR; field; lra). rewrite E in D.
  assert (E2 : (INR (length cs) * eta / INR (length cs) + eta = 2 * eta)%R) by (field; lra). rewrite E2 in D.
  replace (length cs + 2) with (S (S (length cs))) by lia. unfold mean. rewrite map_length. apply D.
  assert (SB : (0 <= share <= 1)%R).
  { rewrite <- E. set (y := (INR (sumN cs) / INR size)%R) in *. split; [apply Rmult_le_pos; [lra | apply Rlt_le, Rinv_0_lt_compat; lra]|]. apply (Rmult_le_reg_r (INR (length cs))); [lra|]. unfold Rdiv. rewrite Rmult_assoc, Rinv_l by lra. lra. }
  pose proof (pow_two (S (S (length cs))) ltac:(rewrite !S_INR; lra)) as PW. pose proof eta_one as E1. pose proof omega_big as OB.
  set (w := ((1 + uu) ^ S (S (length cs)))%R) in *. clearbody w share. nra.
Qed.
End Shares.

Theorem sweep_reported : forall f size batches hd hl rs n,
  0 < size -> 0 < batches -> 2 <= length n -> fit_all Fl n (Maps 1 28 28) (Vec 10) -> Forall (trainable Fl) n ->
  length hd = 16 -> length hl = 8 -> Forall record_ok rs -> batches * size <= length rs -> (N.of_nat (batches * size) <= 60000)%N ->
  exists (l a : B) ks, class_sweep Fl None f batches size (image_file hd rs) (label_file hl rs) n = Ret (n, l, a) /\ Forall2 (judged Fl P32 n) (firstn (batches * size) rs) ks /\
    let share := (INR (agreements ks (labels (firstn (batches * size) rs))) / INR (batches * size))%R in
    is_finite a = true /\ (0 <= share <= 1)%R /\ (Rabs (B2R a - share) <= ((1 + uu) ^ (batches + 2) - 1) * share + (1 + uu) ^ (batches + 2) * (2 * eta))%R.
Proof.
  intros f size batches hd hl rs n SZ B0 L2 FA TR H1 H2 G B1 B2.
  destruct (class_sweep_ok Fl (px32 L) (pred32 L) (rate32 L) None f size batches hd hl rs n) as (n' & ls & accs & E & V & _); auto. { repeat split; assumption. }
  pose proof (visits_same _ _ _ _ _ _ _ V). subst n'. destruct (visits_length _ _ _ _ _ _ _ _ V) as (LL & LA). rewrite cut_length in LL, LA.
  destruct (visits_none _ _ _ _ _ _ _ V) as (_ & VA). rewrite cut_cuts in VA. assert (NE : n <> []) by (intros ->; cbn in L2; lia).
  destruct (all_hits n size NE FA (cuts size batches rs) accs) as (ks & cs & J & A & C & T).
  { apply rec_good in G. clear - G. revert rs G. induction batches as [|b IH]; intros rs G; [constructor|]. cbn [cuts]. constructor; [now apply Forall_firstn | apply IH; now apply Forall_skipn]. }
  { now apply cuts_sizes. }
  { exact VA. }
  rewrite cuts_concat in J, T. exists (mean Fl ls), (mean Fl accs), ks. split; [exact E|]. split; [exact J|].
  assert (LC : length cs = batches) by (rewrite A, map_length in LA; exact LA).
  assert (ZB : (Z.of_nat batches * Z.of_nat size <= 60000)%Z) by lia.
  assert (BB : (Z.of_nat batches <= 60000)%Z) by nia. assert (SB : (Z.of_nat size <= 60000)%Z) by nia.
  assert (KB : (INR (length cs) <= 1048576)%R) by (rewrite LC, INR_IZR_INZ; apply IZR_le in BB; lra).
  assert (NC : cs <> []) by (intros ->; cbn in LC; lia).
  pose proof (shares_close size SZ ltac:(lia) cs NC KB C) as SC. cbv zeta in SC. rewrite LC, T in SC. subst accs. cbv zeta. set (share := (_ / _)%R) in *. destruct SC as (F1 & M & _ & W).
  assert (S01 : (0 <= share <= 1)%R).
  { destruct (sum_shares size SZ ltac:(lia) cs C KB) as (Q & _). assert (E3 : share = (INR (fold_right Nat.add 0%nat cs) / INR size / INR (length cs))%R).
    { unfold share. rewrite T, LC, mult_INR. pose proof (lt_0_INR _ SZ). pose proof (lt_0_INR _ B0). field. lra. }
    rewrite E3. assert (K1 : (0 < INR (length cs))%R) by (rewrite LC; apply lt_0_INR, B0). set (y := (_ / INR size)%R) in *. split; [apply Rmult_le_pos; [lra | apply Rlt_le, Rinv_0_lt_compat; lra]|].
    apply (Rmult_le_reg_r (INR (length cs))); [lra|]. unfold Rdiv. rewrite Rmult_assoc, Rinv_l by lra. lra. }
  split; [exact F1|]. split; [exact S01|]. rewrite (Rmult_comm ((1 + uu) ^ (batches + 2)) (2 * eta)). exact W.
Qed.
End Single.

(** ** The setting of the program: 100 batches of 100 *)
Theorem sweep_program : forall (L : libm (binary_float 24 128)) f hd hl rs n,
  2 <= length n -> fit_all (B32Ops L) n (Maps 1 28 28) (Vec 10) -> Forall (trainable (B32Ops L)) n ->
  length hd = 16 -> length hl = 8 -> Forall record_ok rs -> length rs = 100 * 100 ->
  exists (l a : binary_float 24 128) ks, class_sweep (B32Ops L) None f 100 100 (image_file hd rs) (label_file hl rs) n = Ret (n, l, a) /\
    Forall2 (judged (B32Ops L) P32 n) rs ks /\ is_finite a = true /\ (Rabs (B2R a - INR (agreements ks (labels rs)) / 10000) <= / 100000)%R.
Proof.
  intros L f hd hl rs n L2 FA TR H1 H2 G LR.
  destruct (sweep_reported L f 100 100 hd hl rs n ltac:(lia) ltac:(lia) L2 FA TR H1 H2 G ltac:(rewrite LR; lia) ltac:(vm_compute; discriminate)) as (l & a & ks & E & J & F1 & S & W).
  rewrite <- LR, firstn_all in J, S, W. exists l, a, ks. split; [exact E|]. split; [exact J|]. split; [exact F1|].
  assert (N : INR (length rs) = 10000%R) by (rewrite LR, mult_INR, (INR_IZR_INZ 100); cbn; lra). rewrite N in *.
  eapply Rle_trans; [exact W|]. pose proof (pow_slow (uu 24) (100 + 2)) as P. rewrite uu24 in *. specialize (P ltac:(lra)). pose proof eta_one as E1.
  replace (INR (100 + 2)) with 102%R in P by (rewrite INR_IZR_INZ; cbn; lra). set (w := ((1 + / 16777216) ^ (100 + 2))%R) in *. set (sh := (_ / 10000)%R) in *.
  assert (w1 : (1 <= w)%R) by (unfold w; rewrite <- uu24; apply pw1). assert (E2 : (eta 24 128 <= / 1073741824 * / 1024)%R).
  { unfold eta. assert (H : (bpow radix2 (SpecFloat.emin 24 128) <= bpow radix2 (-40))%R) by (apply bpow_le; cbn; lia). assert (E3 : bpow radix2 (-40) = (/ 1073741824 * / 1024)%R) by (cbn; lra). rewrite E3 in H. pose proof (eta_pos 24 128) as X. unfold eta in X. lra. }
  clearbody w sh. assert (w2 : (w <= 1 + / 150000)%R) by lra. set (e := eta 24 128) in *. clearbody e. nra.
Qed.

(** ** Batches of different sizes *)
Definition told (k : nat) : IOType RC * IOType RC := (IOScalar [0%RC], IOScalar (one_hot 2 k)).
Definition flat_net : network ROps := fixed (mkC 1%R 0%R) 0%RC.
Lemma flat_rate : forall p ks (h : nat), (forall k, In k ks -> k < 2) -> agreements (map (fun _ => 0) ks) ks = h ->
  net_max_pred_test ROps p flat_net (batch (map told ks)) = Ret (INR h / INR (length ks))%R.
Proof.
  intros p ks h B H. rewrite (C56_accuracy ROps p flat_net (batch (map told ks)) (map (fun _ => [mkC 1%R 0%R; 0%RC]) ks) (map (one_hot 2) ks)).
  - rewrite !map_map, map_length, !fofnat_R. f_equal. change (fdiv ROps) with Rdiv. do 2 f_equal. rewrite <- H. f_equal.
    + apply map_ext. intros _. exact (max_one_hot 2 0 ltac:(lia)).
    + rewrite <- (map_id ks) at 2. apply map_ext_in. intros k K. apply max_one_hot. now apply B.
  - cbn [batch ds_inputs]. rewrite map_map. clear. induction ks as [|k ks IH]; constructor; [apply fixed_forward | exact IH].
  - cbn [batch ds_target]. now rewrite !map_map.
  - now rewrite !map_length.
Qed.

Lemma flat_loss : forall p k, k < 2 -> net_loss ROps p flat_net (batch [told k]) MeanSquare = Ret (Ok (INR (2 * k))).
Proof.
  intros p k K. rewrite (C57_mean ROps p flat_net (batch [told k]) MeanSquare [IOScalar [mkC 1%R 0%R; 0%RC]] (INR (2 * k)) []).
  - do 2 f_equal. cbn [fold_left]. rewrite fofnat_R. cbn [length batch map ds_inputs ds_target]. change (INR (2 * k) / 1 = INR (2 * k))%R. lra.
  - constructor; [apply fixed_forward | constructor].
  - reflexivity.
  - constructor; [|constructor]. cbn [batch told map snd ds_target fst]. destruct (C33_exact (one_hot 2 k) [mkC 1%R 0%R; 0%RC]) as (l & E & EL & _); [cbn; lia|]. refine (eq_trans E _). apply (f_equal (@Ok R LossCalcError)). rewrite EL. unfold sse.
    destruct k as [|[|k]]; [| |lia]; cbn [length Nat.min one_hot map seq]; rewrite !rsum_S, rsum_0; cbn [nth Nat.eqb]; unfold c_norm_sq, fsq; cbn; field.
Qed.

Theorem unequal_differs : exists n b1 b2, forall p,
  (exists l1 l2 l, net_loss ROps p n (batch b1) MeanSquare = Ret (Ok l1) /\ net_loss ROps p n (batch b2) MeanSquare = Ret (Ok l2) /\
    net_loss ROps p n (batch (b1 ++ b2)) MeanSquare = Ret (Ok l) /\ l <> mean ROps [l1; l2]) /\
  (exists a1 a2 a, net_max_pred_test ROps p n (batch b1) = Ret a1 /\ net_max_pred_test ROps p n (batch b2) = Ret a2 /\
    net_max_pred_test ROps p n (batch (b1 ++ b2)) = Ret a /\ a <> mean ROps [a1; a2]).
Proof.
  exists flat_net, (map told [1]), (map told [0; 0]). intros p.
  assert (M2 : forall a b : R, mean ROps [a; b] = ((a + b) / 2)%R) by (intros; unfold mean; rewrite fofnat_R; cbn; lra). split.
  - pose proof (flat_loss p 0 ltac:(lia)) as L0. pose proof (flat_loss p 1 ltac:(lia)) as L1.
    exists (INR (2 * 1)), (pooled [1; 1] [INR (2 * 0); INR (2 * 0)]), (pooled [1; 1; 1] [INR (2 * 1); INR (2 * 0); INR (2 * 0)]). split; [exact L1|]. split; [|split].
    + refine (proj1 (pooled_loss p flat_net MeanSquare [[told 0]; [told 0]] ltac:(discriminate) _) _ _); repeat constructor; try discriminate; exact L0.
    + refine (proj1 (pooled_loss p flat_net MeanSquare [[told 1]; [told 0]; [told 0]] ltac:(discriminate) _) _ _); repeat constructor; try discriminate; first [exact L0 | exact L1].
    + rewrite M2. unfold pooled. cbn. lra.
  - exists (INR 0 / INR 1)%R, (INR 2 / INR 2)%R, (INR 2 / INR 3)%R. rewrite <- map_app. split; [|split; [|split]].
    1-3: apply (flat_rate p); [cbn; intros k K; repeat (destruct K as [<-|K]; [lia|]); destruct K | reflexivity].
    rewrite M2. cbn. lra.
Qed.
