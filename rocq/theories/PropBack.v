(** * C98: how far rounding takes a training step from the exact one *)
From Coq Require Import ZArith Reals Lra Psatz.
From Flocq Require Import Core BinarySingleNaN.
From Verif Require Import Base BaseFacts Float Matrix Cplx Act Input Loss Dense Conv Layer Dataset Network RFloat BFloat CFacts SpecMatrix
  SpecLayer SpecConv SpecNet SpecRound SpecBack SpecStill RoundFacts RoundBack PropDense PropTrain BackNum.
Local Open Scope nat_scope.
Local Notation re := Cplx.re. Local Notation im := Cplx.im.

(** The gradient of one example, for a stack of dense layers with no activation
    or a rectifier: against the chain rule, evaluated exactly at the activations
    of the forward pass. *)
Theorem C98_gradient_f32 : forall (L : libm (binary_float 24 128)) p,
  let Fl := B32Ops L in
  forall (ls : list (dense Fl)) (x : list (cplx (binary_float 24 128))) (acts : list (list (cplx (binary_float 24 128)))) t f, ls <> [] -> widths_fit Fl ls (length x) ->
  Forall (fun l : dense Fl => gated (d_func l) /\ Forall cfinite (body (d_weights l))) ls ->
  trace Fl p (map (fun l => LDense l) ls) (IOScalar x) (map (fun v => IOScalar v) acts) -> Forall (Forall cfinite) acts -> Forall cfinite t ->
  length t = out_width Fl ls (length x) ->
  let top := flow_top 24 128 prec24 emax128 L t (last acts []) in let ps := combine acts ls in let d k := flow_at 24 128 prec24 emax128 L (skipn (S k) ps) top in
  (forall k, k < length t -> room 24 128 1 (nth k (mag (snd top)) 0%RC) 0%RC) ->
  (forall k v l, nth_error ps k = Some (v, l) -> layer_room 24 128 prec24 emax128 L l v (snd (d k))) ->
  exists W G, net_gradient Fl p (map (fun l => LDense l) ls) (batch [(IOScalar x, IOScalar t)]) f = Ret (W, G) /\ length W = length ls /\ length G = length ls /\
    forall k v l, nth_error ps k = Some (v, l) -> layer_gradient 24 128 prec24 emax128 L l v (d k) (nth k W []) (nth k G []).
Proof. intros L p. exact (deep 24 128 prec24 emax128 L p (slopes32 L)). Qed.
Print Assumptions C98_gradient_f32.

Theorem C98_gradient_f64 : forall (L : libm (binary_float 53 1024)) p,
  let Fl := B64Ops L in
  forall (ls : list (dense Fl)) (x : list (cplx (binary_float 53 1024))) (acts : list (list (cplx (binary_float 53 1024)))) t f, ls <> [] -> widths_fit Fl ls (length x) ->
  Forall (fun l : dense Fl => gated (d_func l) /\ Forall cfinite (body (d_weights l))) ls ->
  trace Fl p (map (fun l => LDense l) ls) (IOScalar x) (map (fun v => IOScalar v) acts) -> Forall (Forall cfinite) acts -> Forall cfinite t ->
  length t = out_width Fl ls (length x) ->
  let top := flow_top 53 1024 prec53 emax1024 L t (last acts []) in let ps := combine acts ls in let d k := flow_at 53 1024 prec53 emax1024 L (skipn (S k) ps) top in
  (forall k, k < length t -> room 53 1024 1 (nth k (mag (snd top)) 0%RC) 0%RC) ->
  (forall k v l, nth_error ps k = Some (v, l) -> layer_room 53 1024 prec53 emax1024 L l v (snd (d k))) ->
  exists W G, net_gradient Fl p (map (fun l => LDense l) ls) (batch [(IOScalar x, IOScalar t)]) f = Ret (W, G) /\ length W = length ls /\ length G = length ls /\
    forall k v l, nth_error ps k = Some (v, l) -> layer_gradient 53 1024 prec53 emax1024 L l v (d k) (nth k W []) (nth k G []).
Proof. intros L p. exact (deep 53 1024 prec53 emax1024 L p (slopes64 L)). Qed.
Print Assumptions C98_gradient_f64.

(** The gradient of a batch against the sum of the gradients of its examples, for
    any network. *)
Theorem C98_batch : forall prec emax (Hp : Prec_gt_0 prec) (He : Prec_lt_emax prec emax) L p,
  let B := binary_float prec emax in let Fl := BOps prec emax Hp He L in let z := c_default Fl in
  forall (n : network Fl) f (pts : list (IOType (cplx B) * IOType (cplx B))) (W G : nat -> list (list (cplx B))),
  (forall k it, nth_error pts k = Some it -> net_gradient Fl p n (batch [it]) f = Ret (W k, G k) /\ Forall cfinite (grad_values (Fl := Fl) (W k) (G k))) ->
  let m := length pts in let g k i := cval (nth i (grad_values (Fl := Fl) (W k) (G k)) z) in
  (forall i, room prec emax m (csum (fun k => cabs (g k i)) m) 0%RC) ->
  exists W' G', net_gradient Fl p n (batch pts) f = Ret (W', G') /\
    (forall k, k < m -> length (grad_values (Fl := Fl) W' G') = length (grad_values (Fl := Fl) (W k) (G k))) /\
    forall i, i < length (grad_values (Fl := Fl) W' G') ->
      off_by prec emax m (csum (fun k => cabs (g k i)) m) 0%RC (nth i (grad_values (Fl := Fl) W' G') z) (csum (fun k => g k i) m).
Proof. intros prec emax Hp He L p. exact (batch_round prec emax Hp He L p). Qed.
Print Assumptions C98_batch.

(** One step along the gradient the network reports, with a real rate. *)
Theorem C98_update : forall prec emax (Hp : Prec_gt_0 prec) (He : Prec_lt_emax prec emax) L p,
  let B := binary_float prec emax in let Fl := BOps prec emax Hp He L in let z := c_default Fl in
  forall (n : network Fl) data f (lr : cplx B) W G (s : cplx B) t, Forall (layer_full Fl) n -> 2 <= length n -> net_gradient Fl p n data f = Ret (W, G) ->
  c_div Fl lr (c_of_nat Fl (length (ds_inputs data))) = Ret s -> is_finite (re s) = true -> im s = B754_zero t ->
  Forall cfinite (net_values Fl n) -> Forall cfinite (grad_values W G) ->
  let v i := cval (nth i (net_values Fl n) z) in let g i := cval (nth i (grad_values W G) z) in
  let size i := (cabs (v i) + amul (cval s) (cabs (g i)))%RC in
  (forall i, i < length (net_values Fl n) -> room prec emax 3 (size i) (tiny prec emax 1)) ->
  exists n', net_gradient_opt Fl p n data f lr = Ret (n', Ok tt) /\ map (arch_of Fl) n' = map (arch_of Fl) n /\
    forall i, i < length (net_values Fl n) -> off_by prec emax 3 (size i) (tiny prec emax 1) (nth i (net_values Fl n') z) (v i - cval s * conj (g i))%RC.
Proof. intros prec emax Hp He L p. exact (update prec emax Hp He L p). Qed.
Print Assumptions C98_update.

(** Two layers of one rectified unit each, of weight 1, fed 1: the hypotheses
    hold, and what passes back to the first unit is 1. *)
Example C98_ex : forall (L : libm (binary_float 24 128)) p, let Fl := B32Ops L in
  exists (ls : list (dense Fl)) (x t : list (cplx (binary_float 24 128))) acts, length ls = 2 /\ ls <> [] /\ widths_fit Fl ls (length x) /\
  Forall (fun l : dense Fl => gated (d_func l) /\ Forall cfinite (body (d_weights l))) ls /\
  trace Fl p (map (fun l => LDense l) ls) (IOScalar x) (map (fun v => IOScalar v) acts) /\ Forall (Forall cfinite) acts /\ Forall cfinite t /\
  length t = out_width Fl ls (length x) /\
  let top := flow_top 24 128 prec24 emax128 L t (last acts []) in let ps := combine acts ls in let d k := flow_at 24 128 prec24 emax128 L (skipn (S k) ps) top in
  (forall k, k < length t -> room 24 128 1 (nth k (mag (snd top)) 0%RC) 0%RC) /\
  (forall k v l, nth_error ps k = Some (v, l) -> layer_room 24 128 prec24 emax128 L l v (snd (d k))) /\
  nth 0 (fst (d 0)) 0%RC = mkC 1%R 0%R.
Proof. intros L p Fl. exists [unit_layer L; unit_layer L], [a0 L], [c_default Fl], [[a0 L]; [a1 L]; [a2 L]]. split; [reflexivity | exact (example L p)]. Qed.

(** The same network on a batch of two examples. *)
Example C98_ex_batch : forall (L : libm (binary_float 24 128)) p, let Fl := B32Ops L in let B := binary_float 24 128 in let z := c_default Fl in
  exists (n : network Fl) (pts : list (IOType (cplx B) * IOType (cplx B))) (W G : nat -> list (list (cplx B))), length n = 2 /\ length pts = 2 /\
  (forall k it, nth_error pts k = Some it -> net_gradient Fl p n (batch [it]) MeanSquare = Ret (W k, G k) /\ Forall cfinite (grad_values (Fl := Fl) (W k) (G k))) /\
  (let m := length pts in let g k i := cval (nth i (grad_values (Fl := Fl) (W k) (G k)) z : cplx B) in
   forall i, room 24 128 m (csum (fun k => cabs (g k i)) m) 0%RC).
Proof. intros L p Fl B z. destruct (example_batch L p) as (W & G & H). exists (unit_net L), [pt0 L; pt1 L], W, G. split; [reflexivity|]. split; [reflexivity | exact H]. Qed.

(** And one step of it, at rate 1. *)
Example C98_ex_update : forall (L : libm (binary_float 24 128)) p, let Fl := B32Ops L in let B := binary_float 24 128 in let z := c_default Fl in
  exists (n : network Fl) data lr W G s t, Forall (layer_full Fl) n /\ 2 <= length n /\
  net_gradient Fl p n data MeanSquare = Ret (W, G) /\ c_div Fl lr (c_of_nat Fl (length (ds_inputs data))) = Ret s /\ is_finite (re s : B) = true /\ (im s : B) = B754_zero t /\
  Forall cfinite (net_values Fl n : list (cplx B)) /\ Forall cfinite (grad_values (Fl := Fl) W G) /\
  let v i := cval (nth i (net_values Fl n) z : cplx B) in let g i := cval (nth i (grad_values (Fl := Fl) W G) z : cplx B) in
  forall i, i < length (net_values Fl n) -> room 24 128 3 (cabs (v i) + amul (cval (s : cplx B)) (cabs (g i)))%RC (tiny 24 128 1).
Proof. intros L p Fl B z. destruct (example_update L p) as (W & G & s & t & H). exists (unit_net L), (batch [pt0 L]), (c_unit Fl), W, G, s, t. exact H. Qed.
