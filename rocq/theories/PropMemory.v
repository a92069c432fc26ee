(** * Property C95: a training set can be learnt by heart *)
From Coq Require Import Reals Lra.
From Verif Require Import Base Float Matrix Cplx Act Input Loss Dense Conv Layer Dataset Network RFloat CFacts
  SpecLayer SpecNet SpecEval SpecMemory MemoryFacts.
Local Open Scope nat_scope.

(** Exact arithmetic.  For every training set in which no input occurs twice
    there are parameters for a dense network with as many hidden rectifier units
    as there are samples that make it give every target exactly. *)
Theorem C95_memory : forall p N M pts, consistent N M pts -> exists n, two_layers N (length pts) M n /\ forall x t, In (x, t) pts -> predicts ROps p n (IOScalar x) t.
Proof. exact memory_net. Qed.
Print Assumptions C95_memory.

(** For two or more outputs the mean squared loss of such a network is 0, its
    accuracy 1, and training on any batch of these samples, with either loss and
    any real rate, returns and leaves every parameter as it is. *)
Theorem C95_perfect : forall p N M pts, consistent N M pts -> 2 <= M -> exists n, two_layers N (length pts) M n /\
  (forall x t, In (x, t) pts -> predicts ROps p n (IOScalar x) t) /\
  net_loss ROps p n (samples pts) MeanSquare = Ret (Ok 0%R) /\ net_max_pred_test ROps p n (samples pts) = Ret 1%R /\
  forall b f (lr : R), b <> [] -> (forall q, In q b -> In q pts) -> net_gradient_opt ROps p n (samples b) f (mkC lr 0%R) = Ret (n, Ok tt).
Proof. exact memory_all. Qed.
Print Assumptions C95_perfect.

(** No network of any kind does so when an input has two targets. *)
Theorem C95_conflict : forall p (n : network ROps) pts x t t', In (x, t) pts -> In (x, t') pts -> t <> t' -> ~ forall x t, In (x, t) pts -> predicts ROps p n (IOScalar x) t.
Proof. intros p n pts x t t' I I' NE H. pose proof (H _ _ I) as E. pose proof (H _ _ I') as E'. unfold predicts in *. congruence. Qed.
Print Assumptions C95_conflict.

(** ** The hypotheses are met: the exclusive or and its negation, and three
    samples on a complex line *)
Example C95_ex : let o := 0%RC in let e := 1%RC in
  consistent 2 2 [([o; o], [o; e]); ([o; e], [e; o]); ([e; o], [e; o]); ([e; e], [o; e])] /\
  consistent 1 2 [([mkC 0%R 1%R], [o; e]); ([mkC 0%R 2%R], [e; o]); ([o], [mkC 5%R 7%R; o])].
Proof.
  assert (D : 0%RC <> 1%RC) by (intros E; apply (f_equal re) in E; cbn in E; lra). assert (D' : 1%RC <> 0%RC) by congruence.
  assert (A : forall a b c d : R, a <> c \/ b <> d -> (mkC a b : RC) <> mkC c d) by (intros a b c d H E; injection E; lra).
  split.
  - split; [discriminate|]. split; [discriminate|]. split; [intros x t I; repeat destruct I as [I|I]; try contradiction; injection I as <- <-; auto|].
    cbn [map fst]. repeat constructor; cbn [In]; intros I; repeat destruct I as [I|I]; try contradiction; injection I; congruence.
  - split; [discriminate|]. split; [discriminate|]. split; [intros x t I; repeat destruct I as [I|I]; try contradiction; injection I as <- <-; auto|].
    cbn [map fst]. repeat constructor; cbn [In]; intros I; repeat destruct I as [I|I]; try contradiction; injection I; lra.
Qed.
