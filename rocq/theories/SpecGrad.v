(** * Vocabulary for stating that training follows the gradient *)
From Coq Require Import Reals.
From Verif Require Import Base Float Matrix Cplx Act Input Loss Dense Conv Layer Dataset Network SpecMatrix SpecLayer SpecConv SpecNet
  RFloat SpecCalculus.
Local Open Scope nat_scope.

(** ** Motions *)
(** All numbers of a layer input or output, and its layout. *)
Definition io_values (x : IOType RC) : list RC := match x with IOScalar v => v | IOMatrix ms => map_values ms end.
Definition io_layout (x : IOType RC) : option (list (nat * nat * nat)) :=
  match x with IOScalar _ => None | IOMatrix ms => Some (map (fun m => (sh0 m, sh1 m, length (body m))) ms) end.

(** An input that moves with velocity [v] at time 0, keeping its layout. *)
Definition io_moves (x : R -> IOType RC) (v : list RC) : Prop :=
  (forall t, io_layout (x t) = io_layout (x 0%R)) /\ vderiv (fun t => io_values (x t)) v.

(** A layer whose weights and biases move with velocities [v], its architecture
    staying the same; a network of such layers. *)
Definition layer_moves (L : R -> clayer ROps) (v : list RC * list RC) : Prop :=
  (forall t, arch_of ROps (L t) = arch_of ROps (L 0%R)) /\
  vderiv (fun t => fst (layer_values ROps (L t))) (fst v) /\ vderiv (fun t => snd (layer_values ROps (L t))) (snd v).
Definition net_moves : list (R -> clayer ROps) -> list (list RC * list RC) -> Prop := Forall2 layer_moves.
Definition at_time (Ls : list (R -> clayer ROps)) (t : R) : network ROps := map (fun L => L t) Ls.

(** The rate of change that the gradients [W], [B] (one list of weights and one
    of biases for each layer) predict for such a motion. *)
Fixpoint net_rate (W B : list (list RC)) (V : list (list RC * list RC)) : R :=
  match W, B, V with
  | w :: W', b :: B', v :: V' => rate w (fst v) + rate b (snd v) + net_rate W' B' V'
  | _, _, _ => 0
  end%R.

(** ** Where the backward pass is exact *)
(** The mean of the numbers of a block. *)
Definition cmean (b : list RC) : RC := c_mul ROps (mkC (/ INR (length b))%R 0%R) (fold_left (c_add ROps) b (c_default ROps)).

(** The 3 x 3 kernels that hand an equal share of the gradient to every pixel of
    a block of side 1, 2 or 3. *)
Definition mean_kernel (a u v : nat) : R :=
  match a with
  | 1 => if (u =? 1) && (v =? 1) then 1 else 0
  | 2 => if (u <? 2) && (v <? 2) then / 4 else 0
  | _ => / 9
  end%R.

(** A reduce layer that takes means over square blocks; one that has such a
    kernel too. *)
Definition takes_means (a : nat) (l : red ROps) : Prop :=
  1 <= a /\ r_b0 l = a /\ r_b1 l = a /\ forall b, length b = a * a -> r_func l b = Ret (cmean b).
Definition kernel_3x3 (k : matrix RC) : Prop := wf k /\ sh0 k = 3 /\ sh1 k = 3.
Definition mean_pool (a : nat) (l : red ROps) : Prop :=
  takes_means a l /\ a <= 3 /\ kernel_3x3 (r_kernel l) /\
  forall u v, u < 3 -> v < 3 -> entry (c_default ROps) (r_kernel l) u v = mkC (mean_kernel a u v) 0%R.

(** The gradient of a function of the block means with respect to the pixels:
    every pixel gets 1/a^2 of the gradient of its block. *)
Definition mean_grad (a n r c : nat) (g : list RC) : list RC :=
  tab3 n r c (fun ch i j => c_mul ROps (mkC (/ INR (a * a))%R 0%R) (at3 (c_default ROps) (r / a) (c / a) g ch (i / a) (j / a))).

(** The layer accepts [x], and [P] holds of its activation at every value that
    it is applied to; a reduce layer takes means and has the right kernel. *)
Definition at_preacts (P : ComplexActFunc -> RC -> Prop) (l : clayer ROps) (x : IOType RC) : Prop :=
  match l, x with
  | LDense l, IOScalar v => dense_wf ROps l /\ length v = inputs ROps l /\
      forall i, i < units ROps l -> P (d_func l) (pre ROps l v i)
  | LConv l, IOMatrix ms => exists a b r c, conv_wf ROps a b l /\ maps_wf (channels ROps l) r c ms /\ a <= r /\ b <= c /\
      forall o i j, o < filters ROps l -> i < r - a + 1 -> j < c - b + 1 -> P (k_func l) (cpre ROps a b l ms o i j)
  | LReduce l, IOMatrix ms => exists a n r c, mean_pool a l /\ 1 <= n /\ maps_wf n r c ms /\ a <= r /\ a <= c /\ r mod a = 0 /\ c mod a = 0
  | LFlatten _, IOMatrix _ => True
  | _, _ => False
  end.

(** The activation does not depend on the conjugate of its argument, to first order. *)
Definition no_conj (p : prec) (f : ComplexActFunc) (q : RC) : Prop := d_conj_activate ROps p f q = Ret (c_default ROps).

(** The layers after a given one start with a dense layer (possibly behind
    flatten and reduce layers), or there are none. *)
Fixpoint then_dense (ls : list (clayer ROps)) : Prop :=
  match ls with
  | [] => True
  | LDense _ :: _ => True
  | LFlatten _ :: ls' | LReduce _ :: ls' => then_dense ls'
  | _ => False
  end.

(** Along the forward pass from [x]: every layer accepts its input and is
    differentiable there, the conjugate gradient is handed back by a dense layer
    or the end of the network unless it is not needed, and a convolutional layer
    is the first layer unless its conjugate derivatives vanish. *)
Fixpoint smooth_path (p : prec) (first : bool) (ls : list (clayer ROps)) (x : IOType RC) : Prop :=
  match ls with
  | [] => True
  | l :: rest =>
      at_preacts (act_diff p) l x /\
      (then_dense rest \/ at_preacts (no_conj p) l x) /\
      (first = true \/ (forall k, l <> LConv k) \/ at_preacts (no_conj p) l x) /\
      forall y, layer_forward ROps p l x = Ret (Ok y) -> smooth_path p false rest y
  end.

(** Target and prediction: same kind, same number of values, at least two. *)
Definition fits_target (t y : IOType RC) : Prop :=
  match t, y with IOScalar _, IOScalar _ => True | IOMatrix _, IOMatrix _ => True | _, _ => False end /\
  length (io_values t) = length (io_values y).

(** Sum of the squared moduli of all gradient entries. *)
Definition grad_norm_sq (W B : list (list RC)) : R :=
  fold_right (fun c s => (c_norm_sq ROps c + s)%R) 0%R (concat W ++ concat B).
