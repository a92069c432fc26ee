(** * Vocabulary for computations without rounding *)
From Coq Require Import ZArith Reals.
From Flocq Require Import Core BinarySingleNaN.
From Verif Require Import Base Float Matrix Cplx Act Input Loss Dense Conv Layer Network Examples RFloat BFloat CFacts SpecMatrix SpecLayer SpecConv SpecGeom SpecRound.
Local Notation re := Cplx.re. Local Notation im := Cplx.im.

(** The multiples of 2^e. *)
Definition on_grid (e : Z) (r : R) : Prop := exists k : Z, r = (IZR k * bpow radix2 e)%R.

Section Exact.
Context (prec emax : Z) (Hp : Prec_gt_0 prec) (He : Prec_lt_emax prec emax) (L : libm (binary_float prec emax)).
Local Notation B := (binary_float prec emax).
Local Notation Fl := (BOps prec emax Hp He L).

(** A finite complex number whose parts are multiples of 2^e. *)
Definition gridded (e : Z) (z : cplx B) : Prop := cfinite z /\ on_grid e (B2R (re z)) /\ on_grid e (B2R (im z)).

(** No activation, or the split rectifier. *)
Definition rectifier (f : ComplexActFunc) : Prop := f = ActNone \/ f = RITReLU.

(** The layer takes multiples of 2^e to multiples of 2^e': its weights are
    multiples of 2^(e'-e) and its biases multiples of 2^e'.  The means of blocks
    of 2^k numbers are multiples of 2^(e-k). *)
Definition rescales (l : clayer Fl) (e e' : Z) : Prop :=
  match l with
  | LDense l => rectifier (d_func l) /\ Forall (gridded (e' - e)) (body (d_weights l)) /\ Forall (gridded e') (d_biases l)
  | LConv l => rectifier (k_func l) /\ Forall (fun m => Forall (gridded (e' - e)) (body m)) (body (k_kernels l)) /\ Forall (gridded e') (k_biases l)
  | LReduce l => (forall b, r_func l b = avg_block Fl b) /\
      exists k, r_b0 l * r_b1 l = 2 ^ k /\ (2 * Z.of_nat k <= prec)%Z /\ e' = (e - Z.of_nat k)%Z
  | LFlatten _ => e' = e
  end.

(** Multiples of 2^e up to [M] have at most [prec] digits, and are neither too
    small nor too large for the format. *)
Definition roomy (e : Z) (g : geometry) (M : list RC) : Prop :=
  (SpecFloat.emin prec emax <= e)%Z /\ (2 * prec + e < emax)%Z /\
  forall i, i < gsize g -> (re (nth i M 0%RC) <= bpow radix2 (prec + e))%R /\ (im (nth i M 0%RC) <= bpow radix2 (prec + e))%R.

(** [quantised n g e M e']: the network [n], given values of geometry [g] that
    are multiples of 2^e and at most [M] in size, yields multiples of 2^e'.  The
    sizes are propagated through the absolute values of the parameters. *)
Inductive quantised : network Fl -> geometry -> Z -> list RC -> Z -> Prop :=
| q_nil : forall g e M, quantised [] g e M e
| q_cons : forall l n g e e1 e2 M, let g1 := out_geom prec emax Hp He L l g in let M1 := through prec emax Hp He L 0%RC cabs l g M in
    rescales l e e1 -> roomy e1 g1 M1 -> quantised n g1 e1 M1 e2 -> quantised (l :: n) g e M e2.

(** The sizes of the numbers of a value. *)
Definition sizes (x : IOType (cplx B)) : list RC := map (fun v => cabs (cval v)) (vals x).
End Exact.
