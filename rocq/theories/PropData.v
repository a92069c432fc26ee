(** * Properties C58, C61: the dataset container and its text export *)
From Coq Require Import String Ascii.
From Verif Require Import Base BaseFacts Matrix SpecMatrix Input Dataset PropMatrix.
Local Open Scope nat_scope.
Local Open Scope list_scope.
Local Notation length := List.length.

(** A dataset is only ever built by [Dataset::new] and [add_point] calls. *)
Definition ds_of {B T} (pts : list (IOType B * IOType T)) : dataset B T := fold_left ds_add_point pts ds_new.

Lemma ds_of_lists : forall {B T} (pts : list (IOType B * IOType T)),
  ds_of pts = mkData (map fst pts) (map snd pts).
Proof.
  intros B T pts. unfold ds_of.
  assert (G : forall pts (d : dataset B T),
    fold_left ds_add_point pts d = mkData (ds_inputs d ++ map fst pts) (ds_target d ++ map snd pts)).
  { clear. intros pts. induction pts as [|pt pts IH]; intros d; cbn [fold_left map].
    - now rewrite !app_nil_r; destruct d.
    - rewrite IH. unfold ds_add_point. cbn [ds_inputs ds_target]. now rewrite <- !app_assoc. }
  now rewrite G.
Qed.

(** ** C58 *)
Theorem C58_history : forall {B T} (pts : list (IOType B * IOType T)),
  ds_n_points (ds_of pts) = length pts /\
  (forall i pt, nth_error pts i = Some pt -> ds_get_point (ds_of pts) i = Ret pt) /\
  (forall i, length pts <= i -> ds_get_point (ds_of pts) i = Panic) /\
  (let '(inputs, targets) := ds_points_iter (ds_of pts) in combine inputs targets = pts /\
     length inputs = length pts /\ length targets = length pts).
Proof.
  intros B T pts. rewrite ds_of_lists. unfold ds_n_points, ds_get_point, ds_points_iter. cbn [ds_inputs ds_target].
  split; [apply map_length|]. split; [|split; [|split; [|split; apply map_length]]].
  - intros i pt H. unfold index. rewrite !nth_error_map, H. cbn. now destruct pt.
  - intros i H. rewrite index_panic by (now rewrite map_length). reflexivity.
  - induction pts as [|[a b] pts IH]; [reflexivity|]. cbn [map combine fst snd]. now rewrite IH.
Qed.
Print Assumptions C58_history.

(** Adding a point changes nothing about the points already there. *)
Theorem C58_add : forall {B T} (pts : list (IOType B * IOType T)) pt i, i < length pts ->
  ds_get_point (ds_add_point (ds_of pts) pt) i = ds_get_point (ds_of pts) i /\
  ds_get_point (ds_add_point (ds_of pts) pt) (length pts) = Ret pt.
Proof.
  intros B T pts pt i H.
  assert (E : ds_add_point (ds_of pts) pt = ds_of (pts ++ [pt])) by (unfold ds_of; now rewrite fold_left_app).
  rewrite E. destruct (C58_history (pts ++ [pt])) as (_ & G & _). destruct (C58_history pts) as (_ & G' & _).
  destruct (nth_error pts i) as [q|] eqn:Q.
  - split.
    + rewrite (G' _ _ Q). apply G. now rewrite nth_error_app1.
    + apply G. rewrite nth_error_app2, Nat.sub_diag by auto. reflexivity.
  - apply nth_error_None in Q. lia.
Qed.
Print Assumptions C58_add.

Definition ex_pts : list (IOType Z * IOType Z) :=
  [(IOScalar [1; 2], IOScalar [3]); (IOScalar [4], IOScalar [])]%Z.
Example C58_ex : ds_get_point (ds_of ex_pts) 1 = Ret (IOScalar [4], IOScalar [])%Z
  /\ ds_get_point (ds_of ex_pts) 2 = Panic.
Proof. split; reflexivity. Qed.

(** ** C61 *)

(** The line of a point: its input entries and then its target entries,
    separated by commas. *)
Definition point_line {T} (show : T -> string) (row : list T * list T) : string :=
  String.append (String.concat "," (map show (fst row ++ snd row))) line_feed.

Definition scalar_point {T} (row : list T * list T) : IOType T * IOType T := (IOScalar (fst row), IOScalar (snd row)).

(** A point that cannot be exported. *)
Definition unprintable {T} (pt : IOType T * IOType T) : Prop :=
  match fst pt with
  | IOMatrix _ => True
  | IOScalar xs => xs = [] \/ match snd pt with IOMatrix _ => True | IOScalar _ => False end
  end.

Lemma concat_cons : forall s l, String.concat "" (s :: l) = String.append s (String.concat "" l).
Proof. intros s [|t l]; simpl; [|reflexivity]. induction s; simpl; [auto|]. now rewrite <- IHs. Qed.

Lemma append_nil_s : forall s, String.append s "" = s.
Proof. induction s; simpl; [auto|]. now rewrite IHs. Qed.

Lemma comma_concat : forall (l : list string) x,
  String.concat "," (x :: l) = String.append x (String.concat "" (map (fun v => String.append "," v) l)).
Proof.
  induction l as [|y l IH]; intros x.
  - cbn. now rewrite append_nil_s.
  - change (String.concat "," (x :: y :: l)) with (String.append x (String.append "," (String.concat "," (y :: l)))).
    rewrite IH. cbn [map]. rewrite concat_cons. now rewrite append_assoc_s.
Qed.

Lemma csv_row_good : forall {T} (show : T -> string) xs ys, xs <> [] ->
  exists a, ds_csv_row show (IOScalar xs) (IOScalar ys) = (a, true) /\ String.concat "" a = point_line show (xs, ys).
Proof.
  intros T show [|x xs] ys H; [congruence|]. eexists. split; [reflexivity|].
  unfold point_line. cbn [fst snd map app]. rewrite comma_concat, concat_cons.
  rewrite app_assoc, concat_nosep_app. change (String.concat "" [newline]) with line_feed.
  rewrite append_assoc_s. f_equal. f_equal. now rewrite <- (map_map show), <- (map_map show), <- map_app, <- map_app.
Qed.

Lemma csv_rows_good : forall {T} (show : T -> string) rows rest, Forall (fun r => fst r <> []) rows ->
  exists a, ds_csv_rows show (map scalar_point rows ++ rest)
              = (a ++ fst (ds_csv_rows show rest), snd (ds_csv_rows show rest))
            /\ String.concat "" a = String.concat "" (map (point_line show) rows).
Proof.
  intros T show rows rest H. induction H as [|[xs ys] rows Hr _ IH]; cbn [map app].
  - exists []. split; [|reflexivity]. cbn. now destruct (ds_csv_rows show rest).
  - destruct IH as (a & E & Ea). destruct (csv_row_good show xs ys Hr) as (b & Eb & Lb).
    exists (b ++ a). cbn [ds_csv_rows scalar_point fst snd]. rewrite Eb, E. split; [now rewrite app_assoc|].
    rewrite concat_nosep_app, Lb, Ea. now rewrite concat_cons.
Qed.

Lemma csv_of : forall {T} (show : T -> string) pts, ds_csv show (ds_of pts) = ds_csv_rows show pts.
Proof.
  intros T show pts. unfold ds_csv. f_equal. destruct (C58_history pts) as (_ & _ & _ & H & _). exact H.
Qed.

Theorem C61_lines : forall {T} (show : T -> string) (rows : list (list T * list T)),
  Forall (fun r => fst r <> []) rows ->
  exists pieces, ds_csv show (ds_of (map scalar_point rows)) = (pieces, true) /\
    run_writes pieces None = (String.concat "" (map (point_line show) rows), true) /\
    forall n, n < length pieces -> run_writes pieces (Some n) = (String.concat "" (firstn n pieces), false).
Proof.
  intros T show rows H. rewrite csv_of. destruct (csv_rows_good show rows [] H) as (a & E & Ea).
  rewrite app_nil_r in E. exists a. split; [rewrite E; cbn; now rewrite app_nil_r|].
  split; [now rewrite run_writes_all, Ea | apply run_writes_fail].
Qed.
Print Assumptions C61_lines.

Lemma csv_row_flag : forall {T} (show : T -> string) pt,
  snd (ds_csv_row show (fst pt) (snd pt)) = false <-> unprintable pt.
Proof.
  intros T show [[[|x xs]|ms] [ys|ns]]; cbn; split; intros H; auto; try discriminate; try contradiction;
    destruct H as [H|H]; try discriminate; auto; contradiction.
Qed.

Theorem C61_panics_iff : forall {T} (show : T -> string) pts,
  snd (ds_csv show (ds_of pts)) = false <-> Exists unprintable pts.
Proof.
  intros T show pts. rewrite csv_of. induction pts as [|pt pts IH].
  - cbn. split; [discriminate|]. intros H. inversion H.
  - cbn [ds_csv_rows]. pose proof (csv_row_flag show pt) as F. destruct pt as [i t]. cbn [fst snd] in F.
    destruct (ds_csv_row show i t) as [a [|]]; cbn [snd] in F.
    + destruct (ds_csv_rows show pts) as [b ok]. cbn [snd] in *. rewrite Exists_cons. rewrite IH.
      intuition discriminate.
    + cbn [snd]. split; [|auto]. intros _. left. now apply F.
Qed.
Print Assumptions C61_panics_iff.

(** What a panicking export leaves behind: every line before the first
    unprintable point, and for a point with feature maps as target the
    entries of its input without a line end. *)
Theorem C61_left_behind : forall {T} (show : T -> string) (rows : list (list T * list T)) bad rest,
  Forall (fun r => fst r <> []) rows -> unprintable bad ->
  run_writes (fst (ds_csv show (ds_of (map scalar_point rows ++ bad :: rest)))) None
  = (String.append (String.concat "" (map (point_line show) rows))
       (match fst bad with
        | IOScalar xs => String.concat "," (map show xs)
        | IOMatrix _ => "" end), true).
Proof.
  intros T show rows bad rest H B. rewrite csv_of. destruct (csv_rows_good show rows (bad :: rest) H) as (a & -> & Ea).
  cbn [fst]. rewrite run_writes_all, concat_nosep_app, Ea. f_equal. f_equal.
  cbn [ds_csv_rows]. pose proof (proj2 (csv_row_flag show bad) B) as F. destruct bad as [i t]. cbn [fst snd] in *.
  destruct (ds_csv_row show i t) as [b [|]] eqn:E; [discriminate|]. cbn [fst].
  unfold ds_csv_row in E. destruct i as [[|x xs]|ms].
  - injection E as <-. reflexivity.
  - destruct t as [ys|ns]; [discriminate|]. injection E as <-. cbn [map]. rewrite comma_concat, concat_cons, map_map. reflexivity.
  - injection E as <-. reflexivity.
Qed.
Print Assumptions C61_left_behind.

Definition show_nat (n : nat) : string := String (ascii_of_nat (48 + n)) "".
Example C61_ex :
  run_writes (fst (ds_csv show_nat (ds_of [scalar_point ([1; 2], [3]); scalar_point ([4], [])]))) None
    = (String.append "1,2,3" (String.append line_feed (String.append "4" line_feed)), true)
  /\ unprintable (@scalar_point nat ([], [1]))
  /\ run_writes (fst (ds_csv show_nat (ds_of [scalar_point ([1; 2], [3]); (IOScalar [7; 8], IOMatrix [])]))) None
    = (String.append "1,2,3" (String.append line_feed "7,8"), true).
Proof. repeat split; try reflexivity. now left. Qed.
