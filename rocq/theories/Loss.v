(** * Model of src/opt/mod.rs *)
From Verif Require Import Base Float Matrix Cplx Input.

(** src/err/mod.rs:32-36 *)
Inductive LossCalcError := IncompatibleDataset | InconsistentIO.

(** opt/mod.rs:154-157 *)
Inductive ComplexLossFunc := MeanSquare | NormCrossEntropy.

Section Loss.
Context (Fl : FloatOps).
Local Notation C := (cplx (F Fl)).

(** opt/mod.rs:22-24, 31-33 *)
Definition sq_error (targ pred : C) : F Fl := c_norm_sq Fl (c_sub Fl targ pred).

(** opt/mod.rs:26-29, 35-38 *)
Definition d_sq_error (targ pred : C) : C := c_conj Fl (c_sub Fl pred targ).

(** opt/mod.rs:43-54, 69-80: the fold keeps the last *index* as the length. *)
Definition mean_sq_loss (targ pred : list C) : F Fl :=
  let '(sum_err, len, _) :=
    fold_left (fun st tp =>
                 let '(acc, len, id) := st in
                 (fadd Fl acc (sq_error (fst tp) (snd tp)), id, S id))
              (combine targ pred) (fzero Fl, O, O) in
  fdiv Fl sum_err (fofnat Fl len).

(** opt/mod.rs:56-64, 82-90 *)
Definition d_mean_sq_loss (targ pred : list C) : list C :=
  map (fun tp => d_sq_error (fst tp) (snd tp)) (combine targ pred).

(** opt/mod.rs:94-114, 124-144 *)
Definition norm_ce_loss (targ pred : list C) : F Fl :=
  let real_targ := map re targ in
  let exp_map := map (fun z => fexp Fl (c_norm_sq Fl z)) pred in
  let exp_sum := fold_left (fun acc e => fadd Fl acc e) exp_map (fzero Fl) in
  fold_left (fun acc te =>
               let s := fdiv Fl (snd te) exp_sum in
               fsub Fl acc (fmul Fl (fst te) (fln Fl s)))
            (combine real_targ exp_map) (fzero Fl).

(** opt/mod.rs:117-120, 147-150 *)
Definition d_norm_ce_loss (targ pred : list C) : list C := d_mean_sq_loss targ pred.

(** opt/mod.rs:165-197 *)
Definition release_loss (f : ComplexLossFunc) : list C -> list C -> F Fl :=
  match f with MeanSquare => mean_sq_loss | NormCrossEntropy => norm_ce_loss end.
Definition release_dloss (f : ComplexLossFunc) : list C -> list C -> list C :=
  match f with MeanSquare => d_mean_sq_loss | NormCrossEntropy => d_norm_ce_loss end.

(** opt/mod.rs:207-267; src/math/mod.rs:333-335, 493-495 *)
Definition loss (target prediction : IOType C) (f : ComplexLossFunc) : result (F Fl) LossCalcError :=
  match prediction with
  | IOScalar pred =>
      match target with
      | IOScalar targ => Ok (release_loss f targ pred)
      | _ => Err InconsistentIO
      end
  | IOMatrix pred =>
      match target with
      | IOMatrix targ => Ok (release_loss f (flat_map body targ) (flat_map body pred))
      | _ => Err InconsistentIO
      end
  end.

(** opt/mod.rs:275-335; src/math/mod.rs:337-339, 497-499 *)
Definition d_loss (target prediction : IOType C) (f : ComplexLossFunc) : result (list C) LossCalcError :=
  match prediction with
  | IOScalar pred =>
      match target with
      | IOScalar targ => Ok (release_dloss f targ pred)
      | _ => Err InconsistentIO
      end
  | IOMatrix pred =>
      match target with
      | IOMatrix targ => Ok (release_dloss f (flat_map body targ) (flat_map body pred))
      | _ => Err InconsistentIO
      end
  end.

End Loss.
