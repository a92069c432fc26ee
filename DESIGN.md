# Formal model of renplex in Coq: design

## Approach

The crate is modelled function by function as total Gallina functions.

* `Vec<T>`/`&[T]` are `list T`; `usize` is `nat`; `u128` is `N` with the 2^128 bound written out.
* A panic is a value: `outcome A := Ret a | Panic`. `Result` stays data: `result A E := Ok | Err`.
  `.unwrap()` turns `Err` into `Panic`. `&mut self` functions return the new value.
* `usize` subtraction is checked (`usub`): underflow is `Panic`, i.e. the dev profile. Products and sums of
  sizes are unbounded. The `u128` generator is modelled for both profiles (checked / wrapping).
* Numbers: everything is generic in a record `FloatOps` (one machine float type: literals, casts, + - * /,
  comparison, sign bit, libm functions). Theorems stated for every `FloatOps` hold bit-exactly for f32 and
  f64, whatever the rounding. Two instances are used for claims about numbers: `ROps` (Coq's reals, "exact
  arithmetic") and `BOps` (Flocq binary32/binary64, libm functions arbitrary).
  Cf32 and Cf64 share one complex type; the places where their code differs take a `prec` argument.

## Files (rocq/theories)

Model (one file for each source file; every definition cites its lines):

| file | source |
|------|--------|
| `Base` | panics, results, slices, `chunks`, `windows`, iterators (std) |
| `Float`, `Cplx` | f32/f64, src/math/cfloat/mod.rs, arithmetic part of src/math/mod.rs |
| `Random` | src/math/random/mod.rs, generators of src/math/mod.rs, src/init/mod.rs |
| `Matrix` | src/math/matrix/mod.rs |
| `Act` | src/act/mod.rs |
| `Input` | src/input/mod.rs |
| `Loss` | src/opt/mod.rs |
| `Dense`, `Conv`, `Layer` | src/cvnn/layer/{dense,conv,reduce,flatten,mod}.rs |
| `Dataset` | src/dataset/mod.rs |
| `Network` | src/cvnn/network/mod.rs |
| `Release`, `ReleaseNet` | the release build of the functions above whose `usize` subtractions can underflow, and of the convolution layer and the network functions |
| `InPlace` | `gradient_opt` of src/cvnn/network/mod.rs with the state of the network at every exit, panics included |
| `Examples` | examples/classification.rs, examples/regression.rs |

Instances: `RFloat` (reals), `BFloat` (IEEE 754), `ExOps` (integers, for examples).
Specification vocabulary: `Spec*.v`. Proofs: `*Facts.v`, `*Calc.v`, `Adjoint`, `TrainDense`.
Property theorems: `Prop*.v`, theorem names start with the property id; each is followed by
`Print Assumptions` and by an `Example` showing that a concrete case meets the hypotheses.

## Per property: what is modelled and how it is proved

| id | file | modelled | proof |
|----|------|----------|-------|
| C01 | `PropComplex` | complex operators over `ROps` | ring/field identities against an independent spec of C |
| C02 | `PropComplex` | `*_assign` for every `FloatOps`, and over R | computation; iff over R; counterexample |
| C03 | `PropComplex` | comparison operators, R and Flocq | order facts on squared moduli |
| C04 | `PropComplex` | `newe`, `phase` with atan2 / atan over R | trigonometry |
| C05 | `PropComplex` | `Div` over Flocq | the guard; computed witness |
| C06 | `PropRandom` | LCG over N, both profiles | modular arithmetic, induction over call lists |
| C07 | `PropRandom` | LCG step | modular inverse, injectivity, unique fixed point |
| C08 | `PropRandom` | casts over Flocq | rounding bounds; computed witness |
| C09 | `PropRandom` | `lcgi` | division lemmas |
| C10 | `PropRandom` | generators over R | bounds on modulus, seeds consumed |
| C11 | `PropRandom` | Gaussian generators over Flocq with `ln 0 = -inf` | computed witness |
| C12 | `PropRandom` | `gen_pred` | list lemmas |
| C13 | `PropMatrix` | `elm`, `row` | index arithmetic |
| C14 | `PropMatrix` | `elm_mut`, `row_as_mut` | list update lemmas |
| C15 | `PropMatrix` | row operations | refinement to a list of rows, induction over histories |
| C16 | `PropMatrix` | `add_mut_row` | cases; witnesses |
| C17 | `PropMatrix` | `add_col` | induction over the insertions |
| C18 | `PropMatrix` | row/column views, `to_matrix` | chunks lemmas |
| C19 | `PropMatrix` | `flip` | index characterisation |
| C20 | `PropMatrix` | `pad` | loop invariant |
| C21 | `PropMatrix` | `add_mut`, scalar updates | pointwise |
| C22 | `PropMatrix` | `mul_vec`, `mul_slice` | fold against indexed sum |
| C23 | `PropMatrix` | `convolution` | windows and chunks against indexed double sum |
| C24 | `PropAdjoint` | convolution over C | exchange of sums, reindexing |
| C25 | `PropMatrix` | `block_reduce` | loop invariant on iterators; permutation |
| C26 | `PropMatrix` | `fractional_upsampling` | composition of the above |
| C27 | `PropMatrix` | slice operations | list lemmas |
| C28 | `PropMatrix` | text output as a list of writes | list induction |
| C29 | `PropAct` | slice activations | monadic map |
| C30 | `PropAct` | activations over R | Coquelicot derivatives |
| C31 | `PropAct` | cardioid over R | Coquelicot derivatives |
| C32 | `PropAct` | sigmoid over R | monotonicity of exp; witnesses |
| C33 | `PropLoss` | mean-square loss, any float / R / Flocq | fold against sum |
| C34 | `PropLoss` | its derivative | derivative of a sum along a curve |
| C35 | `PropLoss` | cross-entropy | fold against sum; logarithm bounds |
| C36 | `PropLaws`, `PropLoss` | its derivative | equality; derivative; witness |
| C37 | `PropLoss` | loss dispatch | cases |
| C38 | `PropLoss` | `IOType` | cases |
| C39 | `PropDense` | dense init | induction over draws |
| C40 | `PropDense` | dense forward | from C22 |
| C41 | `PropDense` | dense backward | fold invariant; chain rule along a curve |
| C42 | `PropDense` | updates | zip lemmas |
| C43 | `PropConv` | conv init | induction over draws |
| C44 | `PropConv` | conv forward | from C23 |
| C45 | `PropConvGrad` | conv backward, parameters | from C23 and C24 |
| C46 | `PropConvGrad` | conv backward, input | full correlation; derivative; witness |
| C47 | `PropPool` | reduce | from C25 and C26 |
| C48 | `PropPool` | flatten | list lemmas |
| C49 | `PropNet` | network construction, declared shapes | induction over call histories; case analysis of the forward passes |
| C50 | `PropNet` | forward, collect_acts, intercept | induction over layers |
| C51 | `PropNet` | dense networks | induction over depth |
| C52 | `PropTrain` | params_len, training | invariant over training histories |
| C53 | `PropTrain` | gradient_opt outcomes | induction over layers and points |
| C54 | `PropGrad` | gradient_opt over R | tangent propagation and duality for each layer, induction over depth and batch |
| C55 | `PropOrder`, `PropTrain` | permutations of the batch | commutativity of the accumulation; a witness in f32 by evaluation |
| C56 | `PropEval` | max_pred_test | fold invariant, R and Flocq |
| C57 | `PropEval` | network.loss | fold |
| C58 | `PropData` | dataset | induction over calls |
| C59 | `PropMnist` | MNIST loader over byte files with short reads | induction over calls |
| C60 | `PropSignal` | signal_reconstruction | invariants over the loops; rounding bound for the modulus in f32; computed witnesses |
| C61 | `PropData` | dataset text output | list induction |
| C62 | `PropGeom` | geometry typing of networks; forward, loss, accuracy, any training run | induction over layers and batches; preservation of the typing |
| C63 | `PropExamples` | builders of the examples, intercept, extract_features | computation with symbolic layers, geometry typing, preservation under training |
| C64 | `PropExamples` | class_step, class_sweep, class_pipeline, file batches | invariant over batches and epochs against the relation visits/epochs_run |
| C65 | `PropRec` | rec_step, rec_sweep, rec_pipeline, explore, curve_column | invariant over batches and epochs; closed form of the recorded value by induction |
| C66 | `PropPoolGrad` | reduce, fractional_upsampling, the example's pooling layer, gradient_opt, over R | impulse responses (kernel forced entry by entry), adjoint of block means, closed form of a training step |
| C67 | `PropPeriod` | LCG over N, `lcgi`, casts over Flocq | 2^31-1 prime by trial division in the kernel; order of the multiplier from the factors of 2^31-2; Gauss; pigeonhole on the orbit; counting |
| C68 | `PropLaws` | net_gradient_opt over R with any layers | step as the sum of the points' own gradients; zero error signals stay zero through every layer's backward pass; computed witness for a complex rate |
| C69 | `PropRound` | net_forward over Flocq binary32/binary64 and over R | error relation with order, magnitude and slack; one lemma per operation (sum, product, division, ReLU, tanh, sigmoid with its saturating literals), then sums, layers, induction over the network; a correctly rounded library constructed to show the hypotheses can be met |
| C70 | `PropInit` | init_gen, dense_init and conv_init over Flocq binary32/binary64, libm arbitrary within stated ranges | interval lemmas for each rounded operation with float end points (rounding is monotone), relative errors for the amplitudes; positions of the draws by induction over the layer; a libm rounding to nearest constructed |
| C71 | `PropNan` | net_forward, net_loss, net_max_pred_test, net_gradient_opt over Flocq floats of any format, libm arbitrary with NaN-in-NaN-out | NaN lemmas for each operation, then induction over the layers forward and backward, over the points of the batch and over the parameters of the update; persistence by induction over training histories for arbitrary networks |
| C72 | `PropLossFloat` | loss, net_loss over Flocq floats of any format, libm arbitrary with overflow, sign or size assumptions stated per theorem | sign invariant of sums, squares and quotients; the `close` calculus of C69 for the error; infinity over a non-finite sum is NaN; monotone rounding against representable bounds for finiteness; exp 1 between 2.67 and 2.74 for the thresholds; a correctly rounded exp/ln with overflow and poles as witness |
| C73 | `PropRelease`, `PropReleaseNet` | release versions (`_rel`) of the functions whose usize subtractions can underflow, and of the layers and networks that call them, arithmetic modulo an arbitrary word size | refinement of the debug model, function by function up to training; the geometry of the maps bounds the padded sizes; wrapped padding makes every row an outer row; lengths of the stuffed rows for the cases that still panic |
| C74 | `PropCrop` | net_forward, conv and reduce forward, every FloatOps | pixel functions of the two layer kinds (C44, C25) commute with windows; induction over the layers |
| C75 | `PropExact` | net_forward over Flocq binary32/binary64 and over R | every intermediate number is a multiple of a known power of two with at most 24 (53) digits, so no operation rounds; sums, layers, induction over the network; the limit by evaluation |
| C76 | `PropDead` | activate, forward, gradient_opt over R and over Flocq floats of any format | the contributions of the unit to the gradient are products with a zero derivative: an invariant over the points of a batch, then over the steps, for any set of values closed under the arithmetic (zero; zeros and NaN); the overflow by evaluation |
| C77 | `PropTwin` | forward, compute_derivatives, gradient_opt over any float operations | ties between entries of the parameters: every point's gradient has the ties (the two derivatives of the layer pair are computed from equal numbers in the same order), the batch sum and the update keep them, induction over the steps; the converse by evaluation over f32 |
| C78 | `PropPerm` | forward, compute_derivatives, gradient_opt, exact arithmetic | a sum over a reordered range is the same sum; per-point gradients, batch sums and updates of the two networks differ by the reordering of two consecutive blocks, induction over the points and the steps; f32 by evaluation of a witness |
| C79 | `PropSame` | forward of dense layers and networks, exact arithmetic | exchange of sums for the pair; induction over the run; a rectifier is not affine (three inputs) for the refutation |
| C80 | `PropSame` | forward of dense layers and networks, activations, exact arithmetic | the pre-activations scale, the rectifiers commute with positive factors, ModZ and the angle ignore them; tanh 2 is not 2 tanh 1 |
| C81 | `PropSame` | forward of convolution, flatten and dense layers, exact arithmetic | C44 and C48 give both sides; the sum over positions splits into sums over channels, rows and columns |
| C82 | `PropMirror` | forward, back-propagation, training steps, losses, accuracy of all layer kinds; exact and IEEE arithmetic | a relation between the numbers of two runs that the elementary operations keep is kept by every function of the model (RelFacts, RelNet); conjugation is one, in IEEE up to signs of zeros (correct rounding is odd) |
| C83 | `PropMirror` | the same | the same relational theorem with the relation 'equal and real' |
| C84 | `PropLib` | the same over two IEEE instances with different libraries | the same with the relation 'same bits' |
| C85 | `PropRealMat` | the generic matrix code at real and at complex numbers | the same with the relation 'x is x + 0i' |
| C86 | `PropFit` | the training step on a network with a linear last layer, exact arithmetic | closed form of the step; the error of each output separately: descent by Cauchy-Schwarz, then the usual convexity argument summed over the steps |
| C87 | `PropZero` | the training step and any sequence of steps, dense and convolutional layers, exact and IEEE arithmetic | the gradient of these weights is a sum of products with the zero input; such sums and the update keep the weight, by the machinery of C76 |
| C88 | `PropLip` | the forward pass and the accuracy, exact arithmetic; rounding is C69; ModZ, Cardioid and ZReLU are excluded (they jump, ZReLU refuted) | triangle inequality through each layer, Lipschitz constants of the split activations, induction over the layers; a clear leader is the unique first maximum (C56) |
| C89 | `PropClass` | the forward pass and the accuracy in IEEE arithmetic and over R, sizes of the computed squared moduli | the budget of C69 for the outputs, two more roundings for the squared modulus, uniqueness of a strict maximum; exactness of small integers for the accuracy; a computed counterexample |
| C90 | `PropInPlace` | gradient_opt again with the network at every exit (InPlace.v): updates layer by layer, a panic keeps the layers as they are at that moment | every panic precedes the first write: the accumulated gradients have the lengths of the zero gradients, which for full layers are those that the update compares with; induction over layers and batches |
| C91 | `PropNames` | network forward, gradient_opt, loss, max_pred_test; numberings at every place between layers (SpecNames.v) | layer lemma (sums over a reordered index set) lifted to forward traces, the backward sweep, batches and training histories; arg-max by uniqueness; tie witness |
| C92 | `PropBasis` | dense_forward, dense_derivatives, update_layer and the training loop over reals; SpecBasis.v says what unitary, an input and a layer in another basis are | orthonormality collapses the double sum of the first unit; the weight gradient follows U and the conjugating update follows its conjugate, closed under summing the batch and a real scale; induction over points and steps; the Fourier table by the telescoped geometric sum; two concrete refutations on a two-unit network |
| C93 | `PropOutBasis` | d_loss, dense_derivatives, update_layer and the training loop over reals; SpecBasis.v says what a layer with outputs in another basis is | the gradient of the loss follows the conjugate of V, products are kept by unitarity so the gradient handed to the layers in front is equal, the conjugating update brings V back; induction over points and steps; squared distances are kept; a rotation by 3/5, 4/5 for the accuracy |
| C94 | `PropPlain` | networks of all four layer kinds, forward and training | each layer kind sends mixtures to mixtures (sums of products with constant factors); induction over the layers; the affine map is recovered from its values at zero and at the unit inputs by induction over the coordinates; the architecture is kept by training (C52) |
| C95 | `PropMemory` | dense layers, rectifier, losses, accuracy, training step | a direction that keeps the inputs apart exists (induction over their differences, avoiding finitely many bad values); shifted rectifiers along it form a triangular system, solved by induction from the smallest sample up; the imaginary rectifiers are switched off by the biases; loss, accuracy and standing still by C33, C56, C57 and C68 |
| C96 | `PropStill` | rounded training steps, with the signs of zeros, infinities and NaN | zeros and NaN are closed under the operations of the step (StillFacts), instantiated with IEEE numbers (StillNum); the overflow by evaluation |
| C97 | `PropStall` | rounded training steps | a number minus less than a quarter of its unit in the last place rounds to itself (stay, lost); the whole update is then the identity, by induction for repeated steps; the exact statement from the update rule |
| C98 | `PropBack` | Network.net_gradient, Network.net_gradient_opt, Dense.dense_derivatives and Loss.d_loss over IEEE arithmetic (BFloat), exact counterparts over the reals | error bounds carried from the loss to the first layer by induction over the stack (RoundBack); batch by induction over its examples |
| C99 | `PropApprox` | dense layers, rectifier, forward | the grid values of the curve are interpolated by a sum of ramps whose coefficients become weights; uniform continuity (Heine) chooses the grid; the lower bound takes C94_mixes at 1, -1 and their midpoint 0 |
| C100 | `PropUniversal` | dense layers, rectifier, forward | an explicit network: coordinates minus centres, a tent over every centre, a chain of layers that keeps the largest tent; centres and slopes from compactness of the box; the lower bound from C88_spread |
| C101 | `PropWiden` | the modelled forward pass and max_pred_test at binary32 and at binary64 side by side; conversion of parameters by correct rounding (exact here) | budgets of C69 compared layer by layer: same order and magnitudes, smaller unit roundoff, underflow and slack, larger overflow threshold; both passes are then within their budgets of the same exact network, which does not depend on the precision without sigmoids |
| C102 | `PropBalance` | The gradient sweep, batch sum and update of gradient_opt over exact numbers; any layers around the pair | per unit q·e = y·h from the activation and its two derivatives, sums by csum algebra, batch by induction, squared moduli of w − conj(s·g) expanded for the step, induction over steps for the drift |
| C103 | `PropError` | loss, max_pred_test and gen_pred over exact numbers; the network is arbitrary, through its forward pass | per point: a wrong arg-max has two entries with |1-v_k|^2+|v_j|^2 >= 1/2, or a softmax of at most 1/2; then summed over the dataset by induction; witnesses with constant outputs |
| C104 | `PropPooled` | loss, max_pred_test, the reader of the image files and the evaluation loop of the classification program, over exact numbers and over IEEE single precision with any libm | induction over the batches; the files are cut into consecutive slices by the reader theorems of C59 and C64; the rounding of the counts, quotients and of the mean by the error vocabulary of C69 |
| C105 | `PropFloor` | both losses, loss and gradient_opt of a network over exact numbers | log-sum-exp moves by at most the largest change of an exponent; Cauchy-Schwarz over the dataset; the convergence theorem of C86 with the equality of the two training steps (C36) |
| C106 | `PropMini` | gradient_opt of a network over exact numbers, dataset as a list of points | the order and repetition laws C55 and C68 reduce the family to one batch; C68's mean over single points, regrouped by batch; witness computed from the step formula of a linear last layer |
| C107 | `PropOnline` | gradient_opt, loss and max_pred_test of a network over exact numbers, run one after the other | the distance to the solving weights falls by (m-1) rate loss per step, as in C86 but with the loss before the step; C103 turns the losses into errors; a potential argument for the endless stream |
| C108 | `PropGeometric` | the training step and the loss on a linear last layer (Network.v, Dense.v, Loss.v), over the reals | the step is a move along the gradient (FitNet.v); replacing the targets by the best answers turns the general case into the solved one; the loss exceeds the smallest one by the squared difference of the answers |
| C109 | `PropRuns` | the training step and the forward pass of a linear last layer (Network.v, Dense.v, Loss.v), over the reals | the difference of two runs moves like a run whose targets are met (C107's inequality); induction on the run; the answers by the inequality of Cauchy and Schwarz |
| C110 | `PropNoise` | the training step, the loss and the forward pass of a linear last layer (Network.v, Dense.v, Loss.v), over the reals; a disturbance is any linear layer close to the result of a step | the contraction of C109 with the triangle inequality for the Euclidean distance of layers; replacing an example is a disturbance whose size is the difference of two single-example gradients; geometric series; the best layers are fixed points (C108) |

A property whose naive reading is false of the code is stated as what the code does, and the theorem names
ending in `_refuted` give the witness against the naive reading.

## What is not modelled

* Memory allocation failure, stack overflow, `usize` overflow in sums and products of sizes, time.
* Release-profile wrap-around of `usize` beyond the functions of `Release.v` and `ReleaseNet.v` (C73); all other theorems
  are about the dev profile, where an underflow panics. By C73 what they say about returned values of predictions, losses,
  accuracies and training steps holds in a release build too.
* rayon: the only use in the library is `rows_as_par_chunks`, which nothing in the crate calls; it is modelled
  as the row chunks it hands out. All loops of the library are sequential in the source.
* `libm`: transcendental functions are arbitrary functions on IEEE numbers, and the mathematical ones over R.
* File-system errors other than a failing `write!` at a given call; `File::open`, `File::create`.
* `Display`/`Debug` of numbers: a parameter (`show`).
* Commented-out code, the Python files, console output of the examples.

## Trusted base

* Coq 8.16.1's kernel.
* The reading of the Rust source recorded in the comments of the model files, and the simplifications stated there.
* Axioms, all from Coq's standard library (`Print Assumptions` of each theorem is printed by the build):
  `ClassicalDedekindReals.sig_forall_dec`, `ClassicalDedekindReals.sig_not_dec`,
  `FunctionalExtensionality.functional_extensionality_dep`, `Classical_Prop.classic`
  (through `Reals`, Coquelicot and Flocq).

Closed under the global context (no axioms):

C29_pointwise, C29_only_modz, C02_add_sub_assign, C43_init, C43_well_formed, C43_total, C43_rejects, C44_forward,
C44_panic, C44_rejects, C46_formula, C74_crop, C74_shift, C74_odd_shift_refuted, C58_history, C58_add, C61_lines,
C61_panics_iff, C61_left_behind, C76_silent, C39_init, C39_total, C39_rejects, C40_forward, C40_total, C40_rejects,
C41_derivatives, C41_rejects, C42_dense, C42_conv, C42_reduce_flatten, C56_accuracy, C56_panics, C57_mean,
C57_otherwise, C63_fully_connected, C63_auto_encoder, C63_assembled, C63_stages, C63_trained, C64_curves, C64_files,
C62_forward, C62_loss, C62_accuracy, C62_training, C90_step, C90_loop, C36_training, C33_in_order, C34_entries,
C35_in_order, C36_same_as_mean_square, C37_type_check, C37_maps, C38_release, C38_slices, C13_elm,
C13_addresses_distinct, C13_row, C13_from_body, C14_elm_write, C14_elm_write_out, C14_row_write, C15_history,
C15_add_after_del, C15_add_after_del_width, C16_flush, C16_accepted_iff, C16_capacity_refuted,
C16_rectangular_refuted, C16_rectangular, C17_outcome, C17_corrupts, C17_never_extends, C18_rows, C18_col,
C18_row_into_slice, C18_to_matrix, C19_flip, C19_involution, C20_pad, C21_add_mut, C21_neutral, C21_mismatch,
C21_scalars, C21_div_scalar, C22_mul_slice, C22_mul_vec_same, C23_convolution, C23_too_large, C23_zero_dim,
C23_conjugate, C25_blocks, C25_total, C25_errors, C25_partition, C26_square, C26_shape_kept_iff, C26_general,
C26_tall_block_panics, C26_even_kernel, C26_one_kernel_panics, C27_add_slice_mut, C27_mul_slice_mut, C27_add_slice,
C27_mul_slices, C27_scalars, C27_scalar_prod, C28_csv, C28_display, C28_panic_iff, C49_invariant, C49_add_input,
C49_add, C49_initialised, C49_shapes, C49_declared, C50_agree, C50_composition, C50_intercept, C51_total,
C51_only_failure, C51_built, C67_period, C67_cycle, C67_reachable, C67_index, C67_out_of_range, C47_forward,
C47_shapes, C47_rejects, C47_backward, C48_forward, C48_shapes, C48_training, C06_range, C06_first_call,
C06_history, C07_permutation, C07_stuck_seed, C09_panics, C09_range, C09_refuted, C11_formula, C12_one_hot,
C65_epochs, C73_agrees, C73_agrees_network, C73_empty_kernel, C73_one_row_kernel, C73_pooling_loses_gradient,
C73_still_panics, C73_evaluation, C73_training, C73_fitting_networks, C60_shape, C60_odd, C52_count, C52_init,
C52_history, C52_observed, C53_mvn, C53_missing, C53_dense, C53_short_target, C55_accuracy, C77_same_output,
C77_forever, C77_filters, C77_constant, C91_classes_floats, C07_any_seed

Using `sig_forall_dec`, `sig_not_dec`, `classic`, `functional_extensionality_dep`:

C29_modz_exact, C30_wirtinger, C30_unique, C30_saturated_refuted, C31_cf32, C31_cf64, C31_refuted, C32_range,
C32_parts, C32_monotone64, C32_pieces, C32_monotone32_refuted, C24_adjoint, C24_bilinear, C89_comparison, C89_f32,
C89_f64, C89_accuracy_f32, C89_accuracy_f64, C89_close_refuted, C01_operations, C01_division, C01_norm_mult,
C02_mul_assign, C02_mul_assign_real, C02_div_assign, C02_refuted, C03_exact, C03_ieee, C03_equal_but_different,
C04_cf32, C04_cf64, C04_cf64_refuted, C05_division_panics_iff, C05_nonzero_divisor_panics, C45_gradients,
C45_chain_rule, C46_sum_is_the_gradient, C46_refuted, C46_exact_without_conjugate, C76_step, C76_filter_step,
C76_forever, C76_filter_forever, C76_ieee_step, C76_ieee_filter_step, C76_ieee_forever, C76_ieee_filter_forever,
C76_nan_refuted, C41_chain_rule, C41_smooth, C56_index_exact, C56_index_ieee, C56_index_unique, C56_range, C75_f32,
C75_f64, C75_dense_f32, C75_dense_f64, C75_bound_refuted, C63_cnn, C63_features, C64_sweep, C64_pipeline,
C64_program, C86_converges, C86_limit, C86_any_order, C86_large_rate_refuted, C62_rate, C54_gradient, C54_step,
C54_descends, C54_dense_smooth, C54_cnn_smooth, C54_dense, C54_complex_rate_refuted, C70_f32, C70_f64, C70_dense,
C70_conv, C70_platform, C68_mean_of_moves, C68_repeat, C68_zero_rate, C68_solved, C68_complex_rate_refuted,
C84_forward, C84_training, C84_loss, C84_accuracy, C88_spread, C88_attained, C88_mean_pool, C88_certified,
C88_accuracy, C88_zrelu_refuted, C33_exact, C33_single, C33_empty, C34_gradient, C35_softmax, C35_sign,
C36_true_gradient, C36_refuted, C72_nonneg, C72_network, C72_vanishes, C72_perfect, C72_perfect_refuted, C72_error,
C72_blowup, C72_ce_nonneg, C72_ce_finite, C82_forward, C82_training, C82_loss, C82_accuracy, C82_only_refuted,
C82_floats_forward, C82_floats_training, C82_floats_loss, C83_forward, C83_training, C83_sigmoid_refuted,
C83_floats, C59_in_order, C59_runs_out, C59_stops, C59_bad_label, C59_short_read_refuted, C71_forward, C71_loss,
C71_accuracy, C71_step, C71_two_steps, C71_forever, C71_rectifier, C67_f64_distinct, C67_f32_refuted, C78_forward,
C78_training, C78_float_refuted, C66_gradient, C66_exact_iff, C66_cnn_smooth, C66_example_mean,
C66_example_backward, C66_example_refuted, C66_training_refuted, C08_f64, C08_f32, C08_f32_refuted, C10_disc,
C10_normal_draws, C10_methods, C10_real, C11_zero_draw_not_finite, C12_instances, C85_products, C85_updates,
C85_shapes, C85_slices, C85_divide_by_zero, C65_total, C65_explore, C65_program, C65_recorded, C65_mean_refuted,
C73_pooling_zero, C69_f32, C69_f64, C69_dense_f32, C69_dense_f64, C69_platform, C79_pair, C79_run,
C79_rectifier_refuted, C80_rectifiers, C80_direction, C80_tanh_refuted, C81_full_kernel, C60_exact, C60_never_fails,
C60_clean, C60_noise, C60_no_noise, C60_seed_refuted, C60_zero_draw, C53_rate, C53_empty_batch, C55_training,
C55_loss, C77_outgoing_refuted, C87_feature, C87_channel, C87_feature_forever, C87_channel_forever,
C87_ieee_feature, C87_ieee_channel, C87_ieee_feature_forever, C87_ieee_channel_forever, C87_nan_refuted,
C91_forward, C91_training, C91_loss, C91_accuracy, C91_tie_refuted, C92_forward, C92_training, C92_loss,
C92_accuracy, C92_fourier, C92_input, C92_layer, C92_scaling_refuted, C92_complex_rate_refuted, C93_forward,
C93_training, C93_loss, C93_layer, C93_accuracy_refuted, C94_mixes, C94_one_layer, C94_mean, C94_no_xor,
C94_rectifier_xor, C95_memory, C95_perfect, C95_conflict, C97_step, C97_forever, C97_exact_moves, C96_zero_rate,
C96_solved, C96_zero_rate_refuted, C55_floats_refuted, C98_gradient_f32, C98_gradient_f64, C98_batch, C98_update,
C99_approx, C99_rate, C99_plain_refuted, C100_universal, C100_jump_refuted, C101_conversion, C101_outputs,
C101_class, C101_accuracy, C101_class_refuted, C101_overflow_refuted, C102_gradient, C102_step, C102_training,
C102_sigmoid_refuted, C102_phase_refuted, C103_targets, C103_mean_square, C103_cross_entropy, C103_attained,
C103_converse_refuted, C104_loss, C104_accuracy, C104_equal, C104_unequal_refuted, C104_sweep, C104_reported,
C104_program, C85_scalars, C105_close, C105_reached, C105_limit, C105_training_refuted, C106_weighted, C106_mean,
C106_influence, C106_sizes_refuted, C107_loss, C107_mistakes, C107_eventually, C107_noise_refuted, C108_fixed,
C108_geometric, C108_unique, C108_limit, C108_flat_refuted, C108_exists, C109_no_drift, C109_together, C109_answers,
C109_large_rate_refuted, C110_sum, C110_fades, C110_ball, C110_example, C110_best, C110_answers,
C110_piles_up_refuted

Using `sig_forall_dec`, `functional_extensionality_dep`:

C69_gamma, C69_units

