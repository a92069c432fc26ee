(** * Two runs of the model with related numbers stay related

    [R] relates the numbers of one run to those of another, which may use
    another arithmetic.  If the elementary operations keep [R], so does every
    function of the model. *)
From Verif Require Import Base BaseFacts Float Matrix SpecRel.

Create HintDb rel.
#[export] Hint Constructors orel rrel mrel Forall2 : rel.

Section Lists.
Context {A B : Type} (R : A -> B -> Prop).
Local Notation L := (Forall2 R).

Lemma len_rel : forall l l', L l l' -> length l' = length l.
Proof. intros l l' H. induction H; cbn; congruence. Qed.
Lemma app_rel : forall a a' b b', L a a' -> L b b' -> L (a ++ b) (a' ++ b').
Proof. intros. now apply Forall2_app. Qed.
Lemma repeat_rel : forall a b n, R a b -> L (repeat a n) (repeat b n).
Proof. intros a b n H. induction n; cbn; auto. Qed.
Lemma firstn_rel : forall l l' n, L l l' -> L (firstn n l) (firstn n l').
Proof. intros l l' n H. revert n. induction H; intros [|n]; cbn; auto. Qed.
Lemma skipn_rel : forall l l' n, L l l' -> L (skipn n l) (skipn n l').
Proof. intros l l' n H. revert n. induction H; intros [|n]; cbn; auto. Qed.
Lemma rev_rel : forall l l', L l l' -> L (rev l) (rev l').
Proof. intros l l' H. induction H; cbn; auto. apply app_rel; auto. Qed.
Lemma concat_rel : forall l l', Forall2 L l l' -> L (concat l) (concat l').
Proof. intros l l' H. induction H; cbn; auto. apply app_rel; auto. Qed.
Lemma nth_error_rel : forall l l' i, L l l' ->
  match nth_error l i, nth_error l' i with Some a, Some b => R a b | None, None => True | _, _ => False end.
Proof. intros l l' i H. revert i. induction H; intros [|i]; cbn; auto. apply IHForall2. Qed.
Lemma index_rel : forall l l' i, L l l' -> orel R (index l i) (index l' i).
Proof. intros l l' i H. unfold index. pose proof (nth_error_rel l l' i H). destruct (nth_error l i), (nth_error l' i); cbn; try contradiction; constructor; auto. Qed.
Lemma slice_rel : forall l l' a b, L l l' -> orel L (slice l a b) (slice l' a b).
Proof. intros l l' a b H. unfold slice. rewrite (len_rel l l' H). destruct (_ && _); constructor. now apply firstn_rel, skipn_rel. Qed.
Lemma chunks_fuel_rel : forall f n l l', L l l' -> Forall2 L (chunks_fuel f n l) (chunks_fuel f n l').
Proof. induction f; intros n l l' H; cbn [chunks_fuel]; [constructor|]. destruct H; [constructor|]. constructor; [now apply firstn_rel; constructor|]. apply IHf. apply skipn_rel. now constructor. Qed.
Lemma chunks_rel : forall n l l', L l l' -> orel (Forall2 L) (chunks n l) (chunks n l').
Proof. intros n l l' H. unfold chunks. destruct (n =? 0); constructor. rewrite (len_rel l l' H). now apply chunks_fuel_rel. Qed.
Lemma windows_rel : forall n l l', L l l' -> orel (Forall2 L) (windows n l) (windows n l').
Proof.
  intros n l l' H. unfold windows. rewrite (len_rel l l' H). destruct (n =? 0); [constructor|]. destruct (length l <? n); constructor; [constructor|].
  generalize (seq 0 (length l - n + 1)). intros s. induction s; cbn; constructor; auto. now apply firstn_rel, skipn_rel.
Qed.
Lemma set_nth_rel : forall l l' i a b, L l l' -> R a b -> L (set_nth l i a) (set_nth l' i b).
Proof. intros l l' i a b H. revert i. induction H; intros [|i] K; cbn; auto. Qed.
Lemma reduce_rel : forall f f' l l', (forall a b c d, R a b -> R c d -> R (f a c) (f' b d)) -> L l l' ->
  orel R (unwrap_opt (reduce f l)) (unwrap_opt (reduce f' l')).
Proof.
  intros f f' l l' HF H. destruct H as [|a b l l' K H]; cbn; constructor. revert a b K. induction H; intros u v K; cbn; auto.
Qed.
End Lists.

Section Monad.
Context {A B : Type} (R : A -> B -> Prop).
Lemma obind_rel : forall {C D} (S : C -> D -> Prop) m m' k k', orel R m m' -> (forall a b, R a b -> orel S (k a) (k' b)) -> orel S (obind m k) (obind m' k').
Proof. intros C D S m m' k k' [a b H|] K; cbn; [auto | constructor]. Qed.
Lemma unwrap_rel : forall {E} (r : result A E) r', rrel R r r' -> orel R (unwrap r) (unwrap r').
Proof. intros E r r' [a b H|e]; constructor. exact H. Qed.
Lemma map_rel : forall {C D} (S : C -> D -> Prop) f g l l', (forall a b, R a b -> S (f a) (g b)) -> Forall2 R l l' -> Forall2 S (map f l) (map g l').
Proof. intros C D S f g l l' HF H. induction H; cbn; auto. Qed.
Lemma mapM_rel : forall {C D} (S : C -> D -> Prop) f g l l', (forall a b, R a b -> orel S (f a) (g b)) -> Forall2 R l l' -> orel (Forall2 S) (mapM f l) (mapM g l').
Proof.
  intros C D S f g l l' HF H. induction H as [|a b l l' K H IH]; cbn [mapM]; [repeat constructor|].
  destruct (HF a b K); cbn [obind]; [|constructor]. destruct IH; cbn [obind]; constructor. now constructor.
Qed.
Lemma flat_mapM_rel : forall {C D} (S : C -> D -> Prop) f g l l', (forall a b, R a b -> orel (Forall2 S) (f a) (g b)) -> Forall2 R l l' ->
  orel (Forall2 S) (flat_mapM f l) (flat_mapM g l').
Proof.
  intros C D S f g l l' HF H. unfold flat_mapM. destruct (mapM_rel (Forall2 S) f g l l' HF H); cbn [obind]; constructor. now apply concat_rel.
Qed.
Lemma flat_map_rel : forall {C D} (S : C -> D -> Prop) f g l l', (forall a b, R a b -> Forall2 S (f a) (g b)) -> Forall2 R l l' -> Forall2 S (flat_map f l) (flat_map g l').
Proof. intros C D S f g l l' HF H. induction H; cbn; auto. apply app_rel; auto. Qed.
Lemma foldM_rel : forall {C D} (S : C -> D -> Prop) f g l l' s s', (forall u v a b, S u v -> R a b -> orel S (f u a) (g v b)) -> Forall2 R l l' -> S s s' ->
  orel S (foldM f l s) (foldM g l' s').
Proof.
  intros C D S f g l l' s s' HF H. revert s s'. induction H as [|a b l l' K H IH]; intros s s' HS; cbn [foldM]; [now constructor|].
  destruct (HF s s' a b HS K); cbn [obind]; [auto | constructor].
Qed.
Lemma fold_left_rel : forall {C D} (S : C -> D -> Prop) f g l l' s s', (forall u v a b, S u v -> R a b -> S (f u a) (g v b)) -> Forall2 R l l' -> S s s' ->
  S (fold_left f l s) (fold_left g l' s').
Proof. intros C D S f g l l' s s' HF H. revert s s'. induction H; intros s s' HS; cbn; auto. Qed.
Lemma combine_rel : forall {C D} (S : C -> D -> Prop) l l' k k', Forall2 R l l' -> Forall2 S k k' -> Forall2 (prel R S) (combine l k) (combine l' k').
Proof. intros C D S l l' k k' H. revert k k'. induction H; intros k k' K; cbn; [constructor|]. destruct K; constructor; [now split|]. auto. Qed.
Lemma zip_rel : forall {C D} (S : C -> D -> Prop) f g l l' k k', (forall a b c d, R a b -> S c d -> R (f a c) (g b d)) -> Forall2 R l l' -> Forall2 S k k' ->
  Forall2 R (zip_assign f l k) (zip_assign g l' k').
Proof. intros C D S f g l l' k k' HF H. revert k k'. induction H; intros k k' K; cbn; [constructor|]. destruct K; constructor; auto. Qed.
End Monad.

Lemma seq_rel : forall l : list nat, Forall2 eq l l.
Proof. induction l; auto. Qed.
Lemma oeq : forall {A} (m : outcome A), orel eq m m.
Proof. intros A [a|]; constructor; reflexivity. Qed.

#[export] Hint Resolve app_rel repeat_rel firstn_rel skipn_rel rev_rel concat_rel index_rel slice_rel chunks_rel windows_rel set_nth_rel seq_rel oeq : rel.

(** Taking a computation apart step by step. *)
Ltac rbind := match goal with
  | |- orel _ (obind _ _) (obind _ _) => eapply obind_rel; [solve [eauto with rel] | let a := fresh "a" in let b := fresh "b" in let H := fresh "H" in intros a b H; cbv beta]
  end.

Section Mat.
Context {A B : Type} (R : A -> B -> Prop) (O : BasicOps A) (O' : BasicOps B).
Local Notation L := (Forall2 R).
Local Notation M := (mrel R).
Context (R0 : R (dflt O) (dflt O'))
  (Ra : forall a b c d, R a b -> R c d -> R (add O a c) (add O' b d))
  (Raa : forall a b c d, R a b -> R c d -> R (add_assign O a c) (add_assign O' b d))
  (Rm : forall a b c d, R a b -> R c d -> R (mul O a c) (mul O' b d))
  (Rma : forall a b c d, R a b -> R c d -> R (mul_assign O a c) (mul_assign O' b d)).

Lemma body_rel : forall m m', M m m' -> L (body m) (body m').
Proof. intros m m' []. exact H. Qed.
Lemma sh_rel : forall m m', M m m' -> sh0 m' = sh0 m /\ sh1 m' = sh1 m /\ cap0 m' = cap0 m /\ cap1 m' = cap1 m.
Proof. intros m m' []. auto. Qed.
Lemma from_body_rel : forall b b' r c, L b b' -> M (from_body b r c) (from_body b' r c).
Proof. intros. now constructor. Qed.
Lemma with_body_rel : forall m m' b b', M m m' -> L b b' -> M (with_body m b) (with_body m' b').
Proof. intros m m' b b' [] K. now constructor. Qed.
Lemma elm_rel : forall m m' i j, M m m' -> orel (rrel R) (elm m i j) (elm m' i j).
Proof.
  intros m m' i j [b b' r c x y H]. unfold elm. cbn [sh0 sh1 body]. destruct (_ || _); [repeat constructor|].
  destruct (index_rel R b b' (i * c + j) H); cbn [obind]; repeat constructor. exact H0.
Qed.
Lemma rows_rel : forall m m', M m m' -> orel (Forall2 L) (rows_as_iter m) (rows_as_iter m').
Proof. intros m m' []. unfold rows_as_iter. cbn [sh1 body]. auto with rel. Qed.
Lemma slider_rel : forall m m' i n, M m m' -> orel (Forall2 L) (get_slider m i n) (get_slider m' i n).
Proof. intros m m' i n []. unfold get_slider. cbn [sh1 body]. rbind. auto with rel. Qed.
Lemma flip_rel : forall m m', M m m' -> orel (rrel M) (flip m) (flip m').
Proof.
  intros m m' H. unfold flip. destruct (sh_rel m m' H) as (-> & -> & _).
  eapply (obind_rel (Forall2 L)).
  - apply (mapM_rel eq); auto with rel. intros i ? <-. apply (mapM_rel eq); auto with rel. intros j ? <-.
    eapply obind_rel; [apply elm_rel, H|]. intros r r' K. eapply obind_rel; [apply unwrap_rel, K|]. intros. now constructor.
  - intros. repeat constructor. auto with rel.
Qed.
Lemma to_matrix_rel : forall l l' r c, L l l' -> rrel M (to_matrix l r c) (to_matrix l' r c).
Proof. intros l l' r c H. unfold to_matrix. rewrite (len_rel R l l' H). destruct (negb _); repeat constructor. exact H. Qed.
Lemma pad_rel : forall m m' p q, M m m' -> orel M (pad O m p q) (pad O' m' p q).
Proof.
  intros m m' p q H. unfold pad. destruct (sh_rel m m' H) as (E0 & E1 & _). rewrite E0, E1.
  eapply (obind_rel (prel L L)).
  - apply (foldM_rel eq); auto with rel; [|split; [constructor | now apply body_rel]]. intros [u v] [u' v'] i ? (K1 & K2) <-. unfold pad_row. cbn [fst snd] in *. rewrite E0, E1.
    destruct (i <? p); [constructor; split; cbn; auto with rel|]. destruct (_ <=? i); [constructor; split; cbn; auto with rel|].
    rbind. constructor. split; cbn; auto 6 with rel.
  - intros a b (K & _). constructor. now apply from_body_rel.
Qed.
Lemma add_slice_mut_rel : forall l l' r r', L l l' -> L r r' -> rrel L (add_slice_mut O l r) (add_slice_mut O' l' r').
Proof.
  intros l l' r r' H K. unfold add_slice_mut. rewrite (len_rel R l l' H), (len_rel R r r' K). destruct (negb _); constructor.
  apply (zip_rel R R); auto.
Qed.
Lemma pairs_map_rel : forall (f : A -> A -> A) (g : B -> B -> B) l l' r r', (forall a b c d, R a b -> R c d -> R (f a c) (g b d)) -> L l l' -> L r r' ->
  L (map (fun lr => f (fst lr) (snd lr)) (combine l r)) (map (fun lr => g (fst lr) (snd lr)) (combine l' r')).
Proof. intros f g l l' r r' HF H K. apply (map_rel (prel R R)); [|now apply combine_rel]. intros a b (X & Y). auto. Qed.
Lemma add_slice_rel : forall l l' r r', L l l' -> L r r' -> rrel L (add_slice O l r) (add_slice O' l' r').
Proof.
  intros l l' r r' H K. unfold add_slice. rewrite (len_rel R l l' H), (len_rel R r r' K). destruct (_ =? 0); [now constructor|]. destruct (negb _); constructor.
  now apply pairs_map_rel.
Qed.
Lemma mul_slice_mut_rel : forall l l' r r', L l l' -> L r r' -> rrel L (mul_slice_mut O l r) (mul_slice_mut O' l' r').
Proof.
  intros l l' r r' H K. unfold mul_slice_mut. rewrite (len_rel R l l' H), (len_rel R r r' K). destruct (negb _); constructor.
  apply (zip_rel R R); auto.
Qed.
Lemma mul_slices_rel : forall l l' r r', L l l' -> L r r' -> rrel L (mul_slices O l r) (mul_slices O' l' r').
Proof.
  intros l l' r r' H K. unfold mul_slices. rewrite (len_rel R l l' H), (len_rel R r r' K). destruct (negb _); constructor.
  now apply pairs_map_rel.
Qed.
Lemma m_is_empty_rel : forall m m', M m m' -> m_is_empty m' = m_is_empty m.
Proof. intros m m' [b b' r c x y H]. unfold m_is_empty. cbn [body sh0 sh1]. now rewrite (len_rel R b b' H). Qed.
Lemma add_mut_rel : forall m m' r r', M m m' -> M r r' -> rrel M (add_mut O m r) (add_mut O' m' r').
Proof.
  intros m m' r r' H K. unfold add_mut. rewrite (m_is_empty_rel _ _ H), (m_is_empty_rel _ _ K). destruct H as [b b' r0 c x y H], K as [d d' r1 c1 x1 y1 K]. cbn [sh0 sh1 body cap0 cap1].
  destruct (_ && _); [constructor|]. destruct (m_is_empty _); [repeat constructor; exact K|]. destruct (m_is_empty _); [repeat constructor; exact H|].
  repeat constructor. cbn [body]. apply (zip_rel R R); auto.
Qed.
Lemma add_mut_scalar_rel : forall m m' s s', M m m' -> R s s' -> M (add_mut_scalar O m s) (add_mut_scalar O' m' s').
Proof. intros m m' s s' H K. apply with_body_rel; [exact H|]. apply (map_rel R); [auto | now apply body_rel]. Qed.
Lemma mul_mut_scalar_rel : forall m m' s s', M m m' -> R s s' -> M (mul_mut_scalar O m s) (mul_mut_scalar O' m' s').
Proof. intros m m' s s' H K. apply with_body_rel; [exact H|]. apply (map_rel R); [auto | now apply body_rel]. Qed.
Lemma slice_mul_mut_scalar_rel : forall m m' s s', L m m' -> R s s' -> L (slice_mul_mut_scalar O m s) (slice_mul_mut_scalar O' m' s').
Proof. intros m m' s s' H K. apply (map_rel R); auto. Qed.
Lemma scalar_prod_rel : forall l l' r r', L l l' -> L r r' -> R (scalar_prod O l r) (scalar_prod O' l' r').
Proof.
  intros l l' r r' H K. unfold scalar_prod. apply (fold_left_rel (prel R R)); [|now apply combine_rel|exact R0]. intros u v a b U (X & Y). auto.
Qed.
Lemma mul_slice_rel : forall m m' v v', M m m' -> L v v' -> orel (rrel L) (mul_slice O m v) (mul_slice O' m' v').
Proof.
  intros m m' v v' H K. unfold mul_slice. destruct (sh_rel m m' H) as (_ & -> & _). rewrite (len_rel R v v' K). destruct (negb _); [repeat constructor|].
  eapply obind_rel; [apply rows_rel, H|]. intros a b X. repeat constructor. apply (map_rel L); [|exact X]. intros r r' Y.
  apply (fold_left_rel (prel R R)); [|now apply combine_rel|exact R0]. intros u w c d U (P & Q). auto.
Qed.
Lemma mul_vec_rel : forall m m' v v', M m m' -> L v v' -> orel (rrel L) (mul_vec O m v) (mul_vec O' m' v').
Proof. exact mul_slice_rel. Qed.
Lemma conv_rows_rel : forall kc s s' kr kr' f1, Forall2 L s s' -> Forall2 L kr kr' ->
  orel L (foldM (fun acc fk => ws <- windows kc (fst fk) ;; let reduced := map (fun section => scalar_prod O section (snd fk)) ws in unwrap (add_slice_mut O acc reduced))
            (combine s kr) (repeat (dflt O) f1))
         (foldM (fun acc fk => ws <- windows kc (fst fk) ;; let reduced := map (fun section => scalar_prod O' section (snd fk)) ws in unwrap (add_slice_mut O' acc reduced))
            (combine s' kr') (repeat (dflt O') f1)).
Proof.
  intros kc s s' kr kr' f1 H K. apply (foldM_rel (prel L L)); [|now apply combine_rel|auto with rel]. intros u v a b U (X & Y). rbind.
  apply unwrap_rel, add_slice_mut_rel; [exact U|]. apply (map_rel L); [|assumption]. intros. now apply scalar_prod_rel.
Qed.
Lemma convolution_rel : forall m m' k k', M m m' -> M k k' -> orel (rrel M) (convolution O m k) (convolution O' m' k').
Proof.
  intros m m' k k' H K. unfold convolution. destruct (sh_rel _ _ H) as (-> & -> & _), (sh_rel _ _ K) as (E0 & E1 & _). rewrite E0, E1.
  destruct (_ || _); [repeat constructor|].
  do 4 (eapply obind_rel; [apply oeq|]; intros ? ? <-).
  eapply obind_rel.
  - apply (flat_mapM_rel eq R); [|apply seq_rel]. intros i ? <-. unfold conv_row. rewrite E0, E1. eapply obind_rel; [apply slider_rel, H|]. intros s s' HS.
    eapply obind_rel; [apply rows_rel, K|]. intros r r' HR. now apply conv_rows_rel.
  - intros b b' HB. eapply obind_rel; [apply unwrap_rel, to_matrix_rel, HB|]. intros. repeat constructor. assumption.
Qed.
Lemma cconvolution_rel : forall cj cj' m m' k k', (forall a b, R a b -> R (cj a) (cj' b)) -> M m m' -> M k k' -> orel (rrel M) (cconvolution O cj m k) (cconvolution O' cj' m' k').
Proof.
  intros cj cj' m m' k k' HC H K. unfold cconvolution. destruct (sh_rel _ _ H) as (-> & -> & _), (sh_rel _ _ K) as (E0 & E1 & _). rewrite E0, E1.
  do 4 (eapply obind_rel; [apply oeq|]; intros ? ? <-).
  eapply obind_rel; [apply unwrap_rel, to_matrix_rel, (map_rel R); [exact HC | apply body_rel, K]|]. intros ck ck' HK.
  eapply obind_rel.
  - apply (flat_mapM_rel eq R); [|apply seq_rel]. intros i ? <-. eapply obind_rel; [apply slider_rel, H|]. intros s s' HS.
    eapply obind_rel; [apply rows_rel, HK|]. intros r r' HR. now apply conv_rows_rel.
  - intros b b' HB. eapply obind_rel; [apply unwrap_rel, to_matrix_rel, HB|]. intros. repeat constructor. assumption.
Qed.
Lemma take_heads_rel : forall s s', Forall2 (Forall2 L) s s' -> orel (prel L (Forall2 (Forall2 L))) (take_heads s) (take_heads s').
Proof.
  intros s s' H. unfold take_heads. apply (foldM_rel (Forall2 L)); [|exact H|split; constructor]. intros u v a b (U & V) K. destruct K; constructor. split; cbn; auto 6 with rel.
Qed.
Lemma block_row_rel : forall f f' n s s', (forall l l', L l l' -> orel R (f l) (f' l')) -> Forall2 (Forall2 L) s s' -> orel L (block_row f n s) (block_row f' n s').
Proof.
  intros f f' n s s' HF H. unfold block_row. eapply (obind_rel (prel L (Forall2 (Forall2 L)))).
  - apply (foldM_rel eq); [|apply seq_rel|split; [constructor | exact H]]. intros u v i ? (U & V) _. eapply obind_rel; [apply take_heads_rel, V|].
    intros e q (X & Y). eapply obind_rel; [apply HF, X|]. intros c d Z. constructor. split; cbn; auto with rel.
  - intros a b (X & _). now constructor.
Qed.
Lemma block_reduce_rel : forall m m' b0 b1 f f', (forall l l', L l l' -> orel R (f l) (f' l')) -> M m m' -> orel (rrel M) (block_reduce m b0 b1 f) (block_reduce m' b0 b1 f').
Proof.
  intros m m' b0 b1 f f' HF H. unfold block_reduce. destruct (sh_rel _ _ H) as (-> & -> & _).
  eapply obind_rel; [apply oeq|]; intros ? ? <-. eapply obind_rel; [apply oeq|]; intros bad ? <-. destruct bad; [repeat constructor|]. destruct (_ || _); [repeat constructor|].
  eapply obind_rel; [apply rows_rel, H|]. intros rw rw' HR. eapply obind_rel; [apply oeq|]; intros nr ? <-. eapply obind_rel; [apply oeq|]; intros nc ? <-.
  eapply (obind_rel (prel L (Forall2 L))).
  - apply (foldM_rel eq); [|apply seq_rel|split; [constructor | exact HR]]. intros u v i ? (U & V) _.
    eapply (obind_rel (prel (Forall2 (Forall2 L)) (Forall2 L))).
    + apply (foldM_rel eq); [|apply seq_rel|split; [constructor | exact V]]. intros c d j ? (P & Q) _. destruct Q as [|x y l l' Q1 Q2]; [constructor|].
      rbind. constructor. split; cbn; auto with rel.
    + intros c d (P & Q). eapply obind_rel; [apply block_row_rel; [exact HF | exact P]|]. intros. constructor. split; cbn; auto with rel.
  - intros e q (X & _). repeat constructor. exact X.
Qed.
Lemma upsampling_rel : forall m m' b0 b1 k k', M m m' -> M k k' -> orel (rrel M) (fractional_upsampling O m b0 b1 k) (fractional_upsampling O' m' b0 b1 k').
Proof.
  intros m m' b0 b1 k k' H K. unfold fractional_upsampling. destruct (sh_rel _ _ H) as (-> & -> & _), (sh_rel _ _ K) as (E0 & E1 & _). rewrite E0, E1.
  eapply obind_rel; [apply rows_rel, H|]. intros rw rw' HR. do 4 (eapply obind_rel; [apply oeq|]; intros ? ? <-).
  eapply (obind_rel (prel L (Forall2 L))).
  - apply (foldM_rel eq); [|apply seq_rel|split; [constructor | exact HR]]. intros u v i ? (U & V) _. destruct V as [|x y l l' V1 V2]; [constructor|]. constructor. split; cbn; [|exact V2].
    assert (Z : forall n q, L (concat (repeat (repeat (dflt O) n) q)) (concat (repeat (repeat (dflt O') n) q))) by (intros; apply concat_rel; induction q; cbn; auto with rel).
    repeat apply app_rel; auto. apply (flat_map_rel R); [|exact V1]. intros c d X. apply app_rel; [auto with rel|]. constructor; [exact X | auto with rel].
  - intros u v (U & _). rewrite (len_rel R _ _ U). destruct (negb _); [constructor|]. destruct (_ || _); [repeat constructor|].
    eapply obind_rel; [apply oeq|]; intros ? ? <-. eapply obind_rel; [apply pad_rel; constructor; exact U|]. intros q q' HQ.
    eapply obind_rel; [apply convolution_rel; [exact HQ | exact K]|]. intros w w' HW. eapply obind_rel; [apply unwrap_rel, HW|]. intros. repeat constructor. assumption.
Qed.
End Mat.
