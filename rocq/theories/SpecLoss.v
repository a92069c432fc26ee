(** * Vocabulary for stating properties of the loss functions *)
From Coq Require Import Reals.
From Verif Require Import Base Float Matrix Cplx RFloat SpecMatrix CFacts.
Local Open Scope R_scope.

(** [rsum f n] is f 0 + ... + f (n-1). *)
Notation rsum := (sum_from Rplus 0).

(** The summed squared error over the common entries of two vectors. *)
Definition sse (t p : list RC) : R :=
  rsum (fun k => c_norm_sq ROps (nth k t 0 - nth k p 0)%RC) (Nat.min (length t) (length p)).

(** The softmax of the squared moduli. *)
Definition softmax (p : list RC) (k : nat) : R :=
  exp (c_norm_sq ROps (nth k p 0%RC)) / rsum (fun j => exp (c_norm_sq ROps (nth j p 0%RC))) (length p).

(** The Wirtinger gradient of the cross entropy: with T the sum of the targets,
    entry k is (T softmax_k - re t_k) conj(p_k). *)
Definition ce_grad (t p : list RC) : list RC :=
  map (fun k => (mkC (rsum (fun j => re (nth j t 0%RC)) (length p) * softmax p k - re (nth k t 0%RC))%R 0%R
                 * conj (nth k p 0))%RC) (seq 0 (length p)).

