(** * The network a caller is left with when training panics

    [gradient_opt] takes the network by mutable reference, so that after a panic
    caught further up (std::panic::catch_unwind, or a thread that is joined) the
    caller still holds it.  Here is the function again with the network as it is
    at every exit, panics included. *)
From Verif Require Import Base Float Matrix Cplx Act Input Loss Dense Conv Layer Dataset Network.

Section InPlace.
Context (Fl : FloatOps) (p : prec).
Local Notation C := (cplx (F Fl)).

(** network/mod.rs:319-335: layer by layer.  A layer is written to only after
    its [neg_conj_adjustment] has compared the lengths (dense.rs:227-247,
    conv.rs:309-335), so one whose update panics is as it was; so are the layers
    after it, and those for which the gradients give out. *)
Fixpoint update_in_place (scale : C) (gs : list (list C * list C)) (n : network Fl) : network Fl * outcome unit :=
  match gs, n with
  | g :: gs, l :: n =>
      match update_layer Fl scale (g, l) with
      | Panic => (l :: n, Panic)
      | Ret l' => let '(n', o) := update_in_place scale gs n in (l' :: n', o)
      end
  | _, _ => (n, Ret tt)
  end.

(** network/mod.rs:243-338: everything before the updates reads the network only. *)
Definition gradient_opt_in_place (n : network Fl) (data : dataset C C) (f : ComplexLossFunc) (lr : C)
  : network Fl * outcome (result unit ForwardError) :=
  if length n <=? 1 then (n, Ret (Err MissingLayers))
  else
    match net_gradient Fl p n data f with
    | Panic => (n, Panic)
    | Ret g =>
        match c_div Fl lr (c_of_nat Fl (length (ds_inputs data))) with
        | Panic => (n, Panic)
        | Ret scale =>
            match update_in_place scale (combine (fst g) (snd g)) n with
            | (n', Ret _) => (n', Ret (Ok tt))
            | (n', Panic) => (n', Panic)
            end
        end
    end.

(** A loop over batches that unwraps the results, until the first panic. *)
Fixpoint train_in_place (n : network Fl) (ds : list (dataset C C)) (f : ComplexLossFunc) (lr : C) : network Fl * outcome unit :=
  match ds with
  | [] => (n, Ret tt)
  | d :: rest =>
      match gradient_opt_in_place n d f lr with
      | (n', Ret (Ok _)) => train_in_place n' rest f lr
      | (n', _) => (n', Panic)
      end
  end.
End InPlace.
