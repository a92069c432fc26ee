(** * The period of the generator: arithmetic modulo 2^31 - 1 *)
From Coq Require Import ZArith NArith Znumtheory Zpow_facts List Permutation Lia.
From Verif Require Import Base PropRandom.
Import ListNotations.
Local Open Scope Z_scope.

Definition M : Z := 2147483647.
Definition A : Z := 1103515245.
Definition Fix : Z := 1934915413.

(** ** Primes by trial division *)
Fixpoint trial (fuel : nat) (d p : Z) : bool :=
  match fuel with O => true | S f => negb (p mod d =? 0) && trial f (d + 1) p end.

Lemma trial_ok : forall f d p, 0 < d -> trial f d p = true -> forall e, d <= e < d + Z.of_nat f -> ~ (e | p).
Proof.
  induction f as [|f IH]; intros d p Hd H e He; [lia|]. cbn [trial] in H. apply andb_prop in H as [H1 H2].
  destruct (Z.eq_dec e d) as [->|N].
  - intros D. apply Z.mod_divide in D; [|lia]. rewrite D in H1. discriminate.
  - apply (IH (d + 1) p); [lia | exact H2 | lia].
Qed.

Lemma trial_prime : forall f p, 1 < p -> p < (2 + Z.of_nat f) * (2 + Z.of_nat f) -> trial f 2 p = true -> prime p.
Proof.
  intros f p Hp Hf H. apply prime_alt. split; [exact Hp|]. intros n Hn D.
  pose proof (trial_ok f 2 p ltac:(lia) H) as T. assert (K0 : 0 <= Z.of_nat f) by lia. set (k := Z.of_nat f) in *. clearbody k.
  destruct (Z_lt_le_dec n (2 + k)) as [L|L]; [apply (T n); [lia | exact D]|].
  destruct D as [m Hm]. assert (1 < m) by nia. assert (m < 2 + k) by (destruct (Z_lt_le_dec m (2 + k)); [assumption|]; assert ((2 + k) * (2 + k) <= m * n) by (apply Z.mul_le_mono_nonneg; lia); lia). apply (T m); [lia | exists n; lia].
Qed.

Lemma M_prime : prime M.
Proof. apply (trial_prime (N.to_nat 46340)); [reflexivity | vm_compute; reflexivity | vm_compute; reflexivity]. Qed.

(** ** The order of the multiplier *)
Definition qs : list Z := [2; 3; 7; 11; 31; 151; 331].

Lemma qs_prime : forall q, In q qs -> prime q.
Proof.
  intros q H. repeat (destruct H as [<-|H]; [first [apply (trial_prime 0); reflexivity | apply (trial_prime 1); reflexivity | apply (trial_prime 4); reflexivity
    | apply (trial_prime 17); reflexivity]|]). destruct H.
Qed.

Lemma factor_exists : forall k, 1 < k -> (k | M - 1) -> exists q, In q qs /\ (q | k).
Proof.
  intros k Hk D. destruct (List.Exists_dec (fun q => (q | k)) qs (fun q => Zdivide_dec q k)) as [E|N].
  - apply Exists_exists in E. exact E.
  - exfalso. assert (R : forall q, In q qs -> rel_prime k q).
    { intros q Hq. apply rel_prime_sym, prime_rel_prime; [now apply qs_prime|]. intros Z. apply N, Exists_exists. eauto. }
    assert (G : forall q x, In q qs -> (k | q * x) -> (k | x)).
    { intros q x Hq Dx. eapply Gauss; [exact Dx | now apply R]. }
    change (M - 1) with (2 * (3 * (3 * (7 * (11 * (31 * (151 * (331 * 1)))))))) in D.
    repeat (apply G in D; [|cbn; tauto]). apply Z.divide_1_r_nonneg in D; lia.
Qed.

Lemma pow_cong : forall x y n, 0 <= n -> x mod M = y mod M -> (x ^ n) mod M = (y ^ n) mod M.
Proof. intros x y n Hn E. rewrite (Zpower_mod x), (Zpower_mod y), E by reflexivity. reflexivity. Qed.

Lemma pow_full : A ^ (M - 1) mod M = 1.
Proof. rewrite <- Zpow_mod_correct by discriminate. vm_compute. reflexivity. Qed.

Lemma pow_short : forall q, In q qs -> A ^ ((M - 1) / q) mod M <> 1.
Proof.
  intros q H. repeat (destruct H as [<-|H]; [rewrite <- Zpow_mod_correct by discriminate; vm_compute; discriminate|]). destruct H.
Qed.

Lemma pow_mult_one : forall n k, 0 <= n -> 0 <= k -> A ^ n mod M = 1 -> A ^ (n * k) mod M = 1.
Proof.
  intros n k Hn Hk E. rewrite Z.pow_mul_r by auto. rewrite (pow_cong (A ^ n) 1); [|exact Hk | rewrite E; reflexivity].
  rewrite Z.pow_1_l by auto. reflexivity.
Qed.

Lemma order_exact : forall n, 0 <= n -> A ^ n mod M = 1 -> (M - 1 | n).
Proof.
  intros n Hn E. destruct (Z.eq_dec n 0) as [->|N0]; [apply Z.divide_0_r|].
  pose proof pow_full as PF. pose proof pow_short as PS. pose proof factor_exists as FE.
  assert (Hp : 1 < M - 1) by reflexivity. set (p := M - 1) in *. clearbody p.
  set (g := Z.gcd n p). assert (Dn : (g | n)) by apply Z.gcd_divide_l. assert (Dp : (g | p)) by apply Z.gcd_divide_r.
  assert (G0 : 0 < g). { pose proof (Z.gcd_nonneg n p). destruct (Z.eq_dec (Z.gcd n p) 0) as [Z0|]; [|unfold g; lia].
    apply Z.gcd_eq_0_l in Z0. lia. }
  assert (Gn : g <= n) by (apply Z.divide_pos_le; [lia | exact Dn]).
  assert (Eg : A ^ g mod M = 1).
  { destruct (Z.gcd_bezout n p g eq_refl) as (u & v & B).
    set (u' := u mod p + p). assert (U : 1 <= u') by (unfold u'; pose proof (Z.mod_pos_bound u p); lia).
    pose proof (Z.div_mod u p ltac:(lia)) as DM.
    assert (K : u' * n = g + p * (n * (1 - u / p) - v)) by (unfold u'; nia).
    set (k := n * (1 - u / p) - v) in *. assert (0 <= k) by nia.
    assert (X : A ^ (n * u') mod M = 1) by (apply pow_mult_one; [lia | lia | exact E]).
    replace (n * u') with (g + p * k) in X by lia. rewrite Z.pow_add_r in X by nia.
    rewrite Z.mul_mod in X by discriminate. rewrite (pow_mult_one p k) in X by (auto; lia).
    rewrite Z.mul_1_r, Z.mod_mod in X by discriminate. exact X. }
  destruct Dp as [k Hk]. assert (1 <= k) by nia. destruct (Z.eq_dec k 1) as [->|K1].
  - rewrite Hk, Z.mul_1_l. exact Dn.
  - exfalso. destruct (FE k) as (q & Hq & (j & Hj)); [lia | exists g; lia |].
    assert (Q : 1 < q). { apply qs_prime in Hq. apply prime_ge_2 in Hq. lia. }
    apply (PS q Hq). replace (p / q) with (g * j).
    + apply pow_mult_one; [lia | nia | exact Eg].
    + rewrite Hk, Hj. replace (j * q * g) with (g * j * q) by lia. rewrite Z.div_mul by lia. reflexivity.
Qed.

(** ** The state after n steps *)
Lemma iter_lt : forall n s, (s < P)%N -> (Nat.iter n next s < P)%N.
Proof. intros [|n] s H; [exact H | apply next_lt]. Qed.

Lemma next_Z : forall s, Z.of_N (next s) = (A * Z.of_N s + 12345) mod M.
Proof. intros s. unfold next. rewrite N2Z.inj_mod, N2Z.inj_add, N2Z.inj_mul. reflexivity. Qed.

Lemma iter_Z : forall n s, (M | Z.of_N (Nat.iter n next s) - Fix - A ^ Z.of_nat n * (Z.of_N s - Fix)).
Proof.
  induction n as [|n IH]; intros s.
  - change (Nat.iter 0 next s) with s. change (A ^ Z.of_nat 0) with 1. exists 0. ring.
  - change (Nat.iter (S n) next s) with (next (Nat.iter n next s)). specialize (IH s). destruct IH as [k Hk].
    rewrite next_Z. set (t := Z.of_N (Nat.iter n next s)) in *. clearbody t.
    rewrite Nat2Z.inj_succ, Z.pow_succ_r by lia. set (w := A ^ Z.of_nat n) in *. clearbody w.
    pose proof (Z.div_mod (A * t + 12345) M ltac:(discriminate)) as D.
    exists (A * k - (A * t + 12345) / M + 994284011).
    set (d := (A * t + 12345) / M) in *. set (m := (A * t + 12345) mod M) in *. clearbody d m.
    assert (t = Fix + w * (Z.of_N s - Fix) + k * M) by lia. subst t. unfold A, M, Fix in *. nia.
Qed.

Definition stuck : N := 1934915413.

Lemma off_fix : forall s, (s < P)%N -> s <> stuck -> rel_prime M (Z.of_N s - Fix).
Proof.
  intros s Hs N. apply prime_rel_prime; [exact M_prime|]. intros [k Hk].
  unfold P, stuck in *. unfold M, Fix in *. lia.
Qed.

Lemma iter_id : forall n s, (s < P)%N -> s <> stuck -> (Nat.iter n next s = s <-> (M - 1 | Z.of_nat n)).
Proof.
  intros n s Hs N. pose proof (iter_Z n s) as D. pose proof (off_fix s Hs N) as R.
  pose proof (iter_lt n s Hs) as L. set (t := Nat.iter n next s) in *. clearbody t. split.
  - intros ->. assert (D1 : (M | (Z.of_N s - Fix) * (A ^ Z.of_nat n - 1))).
    { destruct D as [k Hk]. exists (- k). lia. }
    apply Gauss in D1; [|exact R]. apply order_exact; [lia|].
    destruct D1 as [k Hk]. replace (A ^ Z.of_nat n) with (1 + k * M) by lia. rewrite Z_mod_plus_full. reflexivity.
  - intros [k Hk]. assert (0 <= k) by (unfold M in Hk; lia).
    assert (E : A ^ Z.of_nat n mod M = 1) by (rewrite Hk, Z.mul_comm; apply pow_mult_one; [discriminate | assumption | exact pow_full]).
    set (w := A ^ Z.of_nat n) in *. clearbody w. clear Hk.
    pose proof (Z.div_mod w M ltac:(discriminate)) as W. rewrite E in W. set (d := w / M) in *. clearbody d.
    destruct D as [j Hj]. assert (X : Z.of_N t - Z.of_N s = M * (j + d * (Z.of_N s - Fix))) by (rewrite W in Hj; lia).
    set (y := j + d * (Z.of_N s - Fix)) in *. clearbody y. unfold P, M in *. lia.
Qed.

Lemma iter_add : forall m n s, Nat.iter (m + n) next s = Nat.iter m next (Nat.iter n next s).
Proof. induction m as [|m IH]; intros n s; [reflexivity|]. change (next (Nat.iter (m + n) next s) = next (Nat.iter m next (Nat.iter n next s))). now rewrite IH. Qed.

Lemma iter_not_stuck : forall n s, (s < P)%N -> s <> stuck -> Nat.iter n next s <> stuck.
Proof.
  intros n s Hs N E. destruct C07_permutation as (_ & _ & I & _). destruct C07_stuck_seed as (z & _ & Hz & Fz).
  apply N, (I n); [exact Hs | reflexivity |]. rewrite E. symmetry.
  assert (stuck = z) as -> by (apply Hz; reflexivity). apply Fz.
Qed.

Lemma iter_inj : forall i j s, (s < P)%N -> s <> stuck -> (i < N.to_nat (P - 1))%nat -> (j < N.to_nat (P - 1))%nat ->
  Nat.iter i next s = Nat.iter j next s -> i = j.
Proof.
  assert (G : forall i j s, (s < P)%N -> s <> stuck -> (i <= j)%nat -> (j < N.to_nat (P - 1))%nat ->
    Nat.iter i next s = Nat.iter j next s -> i = j).
  { intros i j s Hs N L B E. destruct C07_permutation as (_ & _ & I & _).
    destruct (Nat.eq_dec i j) as [Q|Q]; [exact Q|]. exfalso.
    replace j with (i + (j - i))%nat in E by lia. rewrite iter_add in E. apply I in E; [|exact Hs | now apply iter_lt].
    symmetry in E. apply iter_id in E; auto. apply Z.divide_pos_le in E; [|lia].
    assert (Z.of_nat j < M - 1) by (change (M - 1) with (Z.of_N (P - 1)); lia). lia. }
  intros i j s Hs N Hi Hj E. destruct (Nat.le_ge_cases i j); [now apply (G i j s) | symmetry; now apply (G j i s)].
Qed.

(** ** The cycle *)
Definition below (n : N) : list nat := seq 0 (N.to_nat n).
Definition states : list N := map N.of_nat (below P).
Definition orbit (s : N) : list N := map (fun n => Nat.iter n next s) (below (P - 1)).

Lemma below_length : forall n, length (below n) = N.to_nat n.
Proof. intros. apply seq_length. Qed.
Lemma in_below : forall n x, In x (below n) <-> (x < N.to_nat n)%nat.
Proof. intros. unfold below. rewrite in_seq. lia. Qed.
Lemma below_nodup : forall n, NoDup (below n).
Proof. intros. apply seq_NoDup. Qed.
Lemma below_seq : forall n, below n = seq 0 (N.to_nat n).
Proof. reflexivity. Qed.
Global Opaque below.
Lemma states_length : length states = N.to_nat P.
Proof. unfold states. rewrite map_length. apply below_length. Qed.
Lemma orbit_length : forall s, length (orbit s) = N.to_nat (P - 1).
Proof. intros. unfold orbit. rewrite map_length. apply below_length. Qed.

Lemma NoDup_map : forall {X Y} (f : X -> Y) l, (forall x y, In x l -> In y l -> f x = f y -> x = y) -> NoDup l -> NoDup (map f l).
Proof.
  induction l as [|a l IH]; intros I H; cbn [map]; [constructor|]. inversion H as [|? ? N H']. subst. constructor.
  - intros K. apply in_map_iff in K as (x & E & Hx). apply N. rewrite <- (I x a); cbn; auto.
  - apply IH; auto. intros x y Hx Hy. apply I; cbn; auto.
Qed.

Lemma in_states : forall x, In x states <-> (x < P)%N.
Proof.
  intros x. unfold states. rewrite in_map_iff. generalize P. intros p. split.
  - intros (n & <- & H). apply in_below in H. lia.
  - intros H. exists (N.to_nat x). split; [apply N2Nat.id|]. apply in_below. lia.
Qed.

Lemma states_nodup : NoDup states.
Proof. unfold states. apply NoDup_map; [|apply below_nodup]. intros x y _ _ E. lia. Qed.

Lemma orbit_perm : forall s, (s < P)%N -> s <> stuck -> Permutation (stuck :: orbit s) states.
Proof.
  intros s Hs N. assert (ND : NoDup (stuck :: orbit s)).
  { constructor.
    - unfold orbit. rewrite in_map_iff. intros (n & E & _). revert E. now apply iter_not_stuck.
    - unfold orbit. apply NoDup_map; [|apply below_nodup]. intros i j Hi Hj. apply in_below in Hi, Hj. now apply iter_inj. }
  assert (IC : incl (stuck :: orbit s) states).
  { intros x [<-|H]; apply in_states; [reflexivity|]. unfold orbit in H. apply in_map_iff in H as (n & <- & _). now apply iter_lt. }
  apply NoDup_Permutation; [exact ND | exact states_nodup|]. intros x. split; [apply IC|].
  apply (NoDup_length_incl ND); [|exact IC]. cbn [length]. rewrite states_length, orbit_length.
  assert (Hp : (1 <= P)%N) by discriminate. revert Hp. generalize P. intros p Hp. lia.
Qed.

(** ** Counting states *)
Lemma count_seq : forall n lo hi, (lo <= hi)%nat ->
  length (filter (fun x => (lo <=? x)%nat && (x <? hi)%nat) (seq 0 n)) = (Nat.min hi n - Nat.min lo n)%nat.
Proof.
  intros n lo hi H. induction n as [|n IH]; [cbn; lia|]. rewrite seq_S, filter_app, app_length, IH. cbn [filter Nat.add].
  destruct (Nat.leb_spec lo n), (Nat.ltb_spec n hi); cbn [andb length]; lia.
Qed.

Lemma filter_map_length : forall {X Y} (f : X -> Y) p l, length (filter p (map f l)) = length (filter (fun x => p (f x)) l).
Proof. induction l as [|a l IH]; [reflexivity|]. cbn [map filter]. destruct (p (f a)); cbn [length]; rewrite IH; reflexivity. Qed.

Lemma filter_eq : forall {X} (p q : X -> bool) l, (forall x, In x l -> p x = q x) -> filter p l = filter q l.
Proof. induction l as [|a l IH]; intros H; [reflexivity|]. cbn [filter]. rewrite (H a), IH; cbn; auto. intros. apply H. cbn. auto. Qed.

Lemma filter_perm : forall {X} (p : X -> bool) l l', Permutation l l' -> Permutation (filter p l) (filter p l').
Proof.
  intros X p l l' H. induction H as [|x l l' H IH|x y l|l l' l'' H1 IH1 H2 IH2]; cbn [filter].
  - constructor.
  - destruct (p x); auto.
  - destruct (p x), (p y); auto. constructor.
  - etransitivity; eauto.
Qed.

Lemma count_states : forall q k, (1 <= q)%N ->
  N.of_nat (length (filter (fun x => (x / q =? k)%N) states)) = (N.min ((k + 1) * q) P - N.min (k * q) P)%N.
Proof.
  intros q k Hq. unfold states. rewrite filter_map_length. generalize P. intros p. rewrite below_seq.
  rewrite (filter_eq _ (fun x => (N.to_nat (k * q) <=? x)%nat && (x <? N.to_nat ((k + 1) * q))%nat)).
  - rewrite count_seq by lia. lia.
  - intros x _. pose proof (N.div_mod (N.of_nat x) q ltac:(lia)) as D. pose proof (N.mod_lt (N.of_nat x) q ltac:(lia)) as L.
    set (d := (N.of_nat x / q)%N) in *. set (r := (N.of_nat x mod q)%N) in *. clearbody d r.
    apply Bool.eq_true_iff_eq. rewrite Bool.andb_true_iff, N.eqb_eq, Nat.leb_le, Nat.ltb_lt. split.
    + intros ->. nia.
    + intros (H1 & H2). assert (k * q <= N.of_nat x < (k + 1) * q)%N by lia. nia.
Qed.

(** The states after each of the first P - 1 draws: the same cycle. *)
Lemma orbit_next : forall s, (s < P)%N -> s <> stuck -> Permutation (stuck :: map next (orbit s)) states.
Proof.
  intros s Hs N. replace (map next (orbit s)) with (orbit (next s)).
  - apply orbit_perm; [apply next_lt|]. apply (iter_not_stuck 1 s Hs N).
  - unfold orbit. rewrite map_map. apply map_ext. intros n. rewrite <- (iter_add n 1 s : _ = Nat.iter n next (next s)).
    rewrite Nat.add_comm. reflexivity.
Qed.
