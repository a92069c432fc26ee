(** * Property C94: without activations a network is one affine map *)
From Coq Require Import Reals Lra.
From Verif Require Import Base Float Matrix Cplx Act Input Loss Dense Conv Layer Dataset Network Examples RFloat SpecMatrix
  SpecLayer SpecConv SpecNet SpecGeom SpecRound SpecPlain CFacts PoolTrain PlainFacts.
Local Open Scope nat_scope.

(** Exact arithmetic.  Dense and convolutional layers without activation,
    pooling by weighted sums and flattening, in any number and order: a mixture
    of two inputs gives that mixture of the two outputs, also with complex
    weights. *)
Theorem C94_mixes : forall p s n g g' x y w, fit_all ROps n g g' -> Forall plain n -> n <> [] -> mixes g s x y w ->
  exists u v z, net_forward ROps p n x = Ret (Ok u) /\ net_forward ROps p n y = Ret (Ok v) /\ net_forward ROps p n w = Ret (Ok z) /\ mixes g' s u v z.
Proof. exact net_mix. Qed.
Print Assumptions C94_mixes.

(** One dense layer without activation does the same as the whole network. *)
Theorem C94_one_layer : forall p n g g', fit_all ROps n g g' -> Forall plain n -> n <> [] -> gsize g <> 0 ->
  exists l : dense ROps, dense_wf ROps l /\ inputs ROps l = gsize g /\ units ROps l = gsize g' /\ d_func l = ActNone /\
  forall x, has_geom g x -> exists y, net_forward ROps p n x = Ret (Ok y) /\ has_geom g' y /\ net_forward ROps p [LDense l] (IOScalar (vals x)) = Ret (Ok (IOScalar (vals y))).
Proof. exact one_layer. Qed.
Print Assumptions C94_one_layer.

(** Pooling by means counts among the weighted sums. *)
Theorem C94_mean : forall (l : red ROps), r_b0 l * r_b1 l <> 0 -> r_func l = avg_block ROps -> plain (LReduce l).
Proof. exact mean_plain. Qed.
Print Assumptions C94_mean.

(** No such network, however deep and however long it is trained, computes the
    exclusive or. *)
Theorem C94_no_xor : forall p n n', fit_all ROps n (Vec 2) (Vec 1) -> Forall plain n -> trained ROps p n n' -> ~ computes_xor p n'.
Proof. exact trained_no_xor. Qed.
Print Assumptions C94_no_xor.

(** Two rectifier units are enough for it. *)
Theorem C94_rectifier_xor : forall p, exists l1 l2, units ROps l1 = 2 /\ d_func l1 = RITReLU /\ d_func l2 = ActNone /\ computes_xor p [LDense l1; LDense l2].
Proof. intros p. do 2 eexists. split; [|split; [|split]]; [| | | exact (xor_net_ok p)]; reflexivity. Qed.
Print Assumptions C94_rectifier_xor.

(** ** The hypotheses are met: a convolution, pooling by means, flattening and a
    dense layer, with any parameters; and a network of two inputs *)
Example C94_ex : forall a b c d e f g,
  let n := [LConv (mkConv ROps 1 (from_body [from_body [a; b; c; d] 2 2] 1 1) [e] ActNone); LReduce (red_init ROps 1 2 2 (avg_block ROps) m_new);
            LFlatten (flat_init 1 1 1); LDense (mkDense ROps (from_body [f; g] 2 1) [e; a] ActNone)] in
  let m := [LDense (mkDense ROps (from_body [a; b; c; d] 2 2) [e; f] ActNone); LDense (mkDense ROps (from_body [f; g] 1 2) [e] ActNone)] in
  fit_all ROps n (Maps 1 3 3) (Vec 2) /\ Forall plain n /\ fit_all ROps m (Vec 2) (Vec 1) /\ Forall plain m /\
  mixes (Maps 1 3 3) a (IOMatrix [from_body [a; b; c; d; e; f; g; a; b] 3 3]) (IOMatrix [from_body (repeat 0%RC 9) 3 3])
        (IOMatrix [from_body (map (fun k => a * k)%RC [a; b; c; d; e; f; g; a; b]) 3 3]).
Proof.
  intros a b c d e f g n m. split; [|split; [|split; [|split]]].
  - refine (fit_cons ROps _ _ _ _ _ (fits_conv ROps (mkConv ROps 1 (from_body [from_body [a; b; c; d] 2 2] 1 1) [e] ActNone) 2 2 3 3 _ _ _ _) _); try lia; try discriminate.
    { repeat split; cbn; try lia. all: destruct H as [<-|[]]; reflexivity. }
    refine (fit_cons ROps _ _ _ _ _ (fits_reduce ROps (red_init ROps 1 2 2 (avg_block ROps) m_new) 1 2 2 _ _ _ _ _ _) _); try (cbn; lia); try reflexivity.
    { intros v L. eexists. apply avg_mean. destruct v; discriminate. }
    refine (fit_cons ROps _ _ _ _ _ (fits_flatten ROps _ 1 1 1) _).
    refine (fit_cons ROps _ _ _ _ _ (fits_dense ROps (mkDense ROps (from_body [f; g] 2 1) [e; a] ActNone) _ _) (fit_nil ROps _)); [|discriminate]. repeat split; discriminate.
  - repeat (constructor; try reflexivity). apply (mean_plain (red_init ROps 1 2 2 (avg_block ROps) m_new)); [discriminate | reflexivity].
  - refine (fit_cons ROps _ _ _ _ _ (fits_dense ROps (mkDense ROps (from_body [a; b; c; d] 2 2) [e; f] ActNone) _ _) _); [repeat split; discriminate | discriminate|].
    refine (fit_cons ROps _ _ _ _ _ (fits_dense ROps (mkDense ROps (from_body [f; g] 1 2) [e] ActNone) _ _) (fit_nil ROps _)); [repeat split; discriminate | discriminate].
  - repeat (constructor; try reflexivity).
  - do 3 (split; [split; [reflexivity | intros q [<-|[]]; repeat split]|]). intros k Hk. cbn [gsize vals map_values concat map app repeat from_body body] in *.
    do 9 (destruct k as [|k]; [cbn [nth]; ring|]). cbn in Hk. lia.
Qed.
