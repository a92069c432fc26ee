{"id": "C01", "title": "Complex arithmetic is the field of complex numbers", "statement": "In exact real arithmetic `+ - * /`, `conj`, `norm_sq` and `norm` on Cf32/Cf64 are the operations of the complex field: sums, products and conjugates agree with the textbook ones, (z/w)*w = z for w != 0, norm is multiplicative, and `/` panics exactly when the divisor is zero.", "quantifier": "all pairs of complex operands (real and imaginary part arbitrary reals)", "why_tests_cant": "the operands range over a continuum; a sample of pairs cannot establish an algebraic law", "anchors": ["src/math/cfloat/mod.rs: Add, Sub, Mul, Div", "src/math/mod.rs: conj, norm, norm_sq"]}
{"id": "C02", "title": "Compound assignment agrees with the binary operator", "statement": "`a += b` and `a -= b` leave a+b and a-b in a, for every operand and every floating-point rounding. `a *= b` and `a /= b` leave a*b and a/b whenever b is real (imaginary part zero); for a non-real b the imaginary part is computed from the already overwritten real part, so `a *= b` equals a*b exactly when b is real or the product keeps a's real part.", "quantifier": "all operands a, b", "why_tests_cant": "the deviation needs a non-real right operand; agreement for all real right operands is a universal claim", "anchors": ["src/math/cfloat/mod.rs: AddAssign, SubAssign, MulAssign, DivAssign"]}
{"id": "C03", "title": "Complex comparison orders by modulus", "statement": "`<`, `<=`, `>`, `>=` and `partial_cmp` on complex numbers compare squared moduli: they are mutually consistent, form a total preorder in exact arithmetic, and two numbers compare Equal exactly when their moduli are equal, also different ones, although `==` says they differ.", "quantifier": "all pairs and triples of complex numbers", "why_tests_cant": "transitivity and totality range over all triples", "anchors": ["src/math/cfloat/mod.rs: PartialOrd for Cf32, PartialOrd for Cf64"]}
{"id": "C04", "title": "Polar form round-trips", "statement": "For Cf32, newe(norm z, phase z) = z for every nonzero z (exact arithmetic), and phase lies in (-pi, pi]. For Cf64, whose phase is atan(y/x), this holds only in the right half plane: for x < 0 the rebuilt number is -z.", "quantifier": "all nonzero complex numbers", "why_tests_cant": "the failing half plane is half the domain and the law is over a continuum", "anchors": ["src/math/mod.rs: newe, norm, phase (Cf32 and Cf64)"]}
{"id": "C05", "title": "Complex division panics exactly when the computed squared modulus of the divisor is zero", "statement": "In IEEE arithmetic `z / w` panics if and only if fl(fl(w.x*w.x)+fl(w.y*w.y)) == 0; this includes nonzero divisors whose squares underflow, so division by a nonzero number can panic.", "quantifier": "all binary32 and binary64 operands", "why_tests_cant": "the underflow region is a measure-small part of the float space", "anchors": ["src/math/cfloat/mod.rs: Div, DivAssign"]}
{"id": "C06", "title": "The generator state stays in range and overflows at most on the first call", "statement": "After any call of lcgf32/lcgf64/lcgi the seed is in [0, 2^31-2]. The u128 multiplication can overflow (panic with overflow checks, wrap without) only if the caller's initial seed exceeds (2^128-1-12345)/1103515245; after one successful call no later call of any mix of the three functions overflows, for any number of calls.", "quantifier": "all u128 seeds, all finite sequences of generator calls, both build profiles", "why_tests_cant": "all histories of calls from all 2^128 seeds", "anchors": ["src/math/random/mod.rs: lcgf32, lcgf64, lcgi"]}
{"id": "C07", "title": "The generator is a permutation with one stuck seed", "statement": "On [0, 2^31-2] one step is injective and onto, so distinct seeds never merge and every residue (including 0) is produced; there is exactly one seed for which the state never changes, so the stream is constant forever. A seed of any other size acts, unless it makes the first call overflow (C06), exactly like one in this range, in every function that draws numbers.", "quantifier": "all seeds below 2^31-1, all numbers of steps", "why_tests_cant": "2^31 seeds times unbounded stream length", "anchors": ["src/math/random/mod.rs: lcgf32, lcgf64, lcgi"]}
{"id": "C08", "title": "Generated floats lie in the unit interval", "statement": "lcgf64 returns exactly seed/2^31, a value in [0,1). lcgf32 returns a value in [0,1], and returns exactly 1.0 for some seeds because the u128 to f32 cast rounds up.", "quantifier": "all seeds", "why_tests_cant": "only a 3e-8 fraction of seeds shows the boundary value", "anchors": ["src/math/random/mod.rs: lcgf32, lcgf64"]}
{"id": "C09", "title": "Random index range", "statement": "lcgi(seed, limit) panics exactly when limit is 0 or above 2^31-1. Otherwise for every seed the result is at most (2^31-2)/((2^31-1)/limit); it is below limit for all seeds exactly when limit divides 2^31-1, so for other limits (8 included, the one used by the library) some seed yields an index >= limit, and for limit <= 46340 never more than limit itself.", "quantifier": "all limits and all seeds", "why_tests_cant": "the offending seeds are a handful in 2^31 for each limit", "anchors": ["src/math/random/mod.rs: lcgi", "src/dataset/mod.rs: signal_reconstruction"]}
{"id": "C10", "title": "Random initial values stay in their documented disc", "statement": "In exact arithmetic, for Cf32 and Cf64, every InitMethod returns r e^(i phi): the phase phi = 2 pi u comes from its last draw u, and the radius r is the documented amplitude (scale for Uniform, sqrt(6/n) for XavierGlorotU, sqrt(12/n) for Xavier, sqrt(2/n) for XavierGlorotN and HeInit) times the first draw u1 (Cf32) or 2 u1 - 1 (Cf64) for the uniform methods, which use exactly two draws, and times the Box-Muller value of the first two draws for the normal methods, which use exactly three. So the uniform methods stay in the disc of that amplitude. The real generator uses one draw and returns scale (2 u - 1), between -scale and scale.", "quantifier": "all seeds, scales and unit counts", "why_tests_cant": "range over all generator states", "anchors": ["src/math/mod.rs: gen, gen_xa, gen_xagu, gen_he, gen_xagn", "src/init/mod.rs: InitMethod::gen"]}
{"id": "C11", "title": "Gaussian initialisers take the logarithm of the first draw, which can be zero", "statement": "gen_he and gen_xagn (and the initialisation methods that call them) compute, in every arithmetic, sqrt(-2 ln u)*cos(..)*std with u the first draw; there is a legal seed for which u = 0, and with an IEEE logarithm (ln 0 = -inf) the produced weight is then not finite.", "quantifier": "all seeds and unit counts", "why_tests_cant": "one seed in 2^31 triggers it", "anchors": ["src/math/mod.rs: gen_he, gen_xagn"]}
{"id": "C12", "title": "One-hot predictions", "statement": "gen_pred(size, k) for k < size returns a vector of length size that is 1 at k and 0 elsewhere; for k > size it returns CriticalIndexOverflow; for k = size it panics instead of returning the error.", "quantifier": "all sizes and indices, f32, f64, Cf32 and Cf64", "why_tests_cant": "the boundary k = size is one point of an unbounded grid", "anchors": ["src/math/mod.rs: Real::gen_pred, Complex::gen_pred", "src/err/mod.rs: PredicionError"]}
{"id": "C13", "title": "Matrix element access is row-major and bounds checked", "statement": "For a matrix whose body has rows*cols elements, elm(i,j) returns the element at flat position i*cols+j when i<rows and j<cols and Err(OutOfBounds) otherwise, and never panics; distinct in-range index pairs address distinct elements. row(i) returns the cols consecutive elements of row i or OutOfBounds. from_body(b, [r,c]) with r*c elements gives the matrix whose elm(i,j) is b[i*c+j].", "quantifier": "all element types, shapes, bodies and indices", "why_tests_cant": "unbounded shapes and indices", "anchors": ["src/math/matrix/mod.rs: from_body, elm, row"]}
{"id": "C14", "title": "Matrix writes touch exactly the addressed cell", "statement": "Writing v through elm_mut(i,j) makes elm(i,j) return v, leaves every other element, the shape and the capacity unchanged, and fails with OutOfBounds (changing nothing) outside the shape; row_as_mut(i) exposes exactly row i.", "quantifier": "all matrices, in-range and out-of-range indices, values", "why_tests_cant": "frame conditions quantify over all other cells", "anchors": ["src/math/matrix/mod.rs: elm_mut, row_as_mut"]}
{"id": "C15", "title": "Row edits behave like a list of rows", "statement": "Starting from with_capacity([r,c]) any sequence of add_row, del_row and dealloc calls never panics and keeps the matrix rectangular; each accepted add_row appends the row to the abstract list of rows, each accepted del_row(i) removes and returns row i, each rejected call changes nothing. A row is accepted iff it has the current width (or the matrix is empty) and fits the capacity; deleting a row shrinks the capacity, so an add_row right after a successful del_row is always rejected, with Overflow when the row has the right width.", "quantifier": "all capacities and all finite histories of row operations", "why_tests_cant": "all histories", "anchors": ["src/math/matrix/mod.rs: with_capacity, add_row, del_row, dealloc"]}
{"id": "C16", "title": "Flushing add_mut_row", "statement": "add_mut_row empties the caller's vector exactly when it returns Ok; on Ok the row is appended and on Err nothing changes. Unlike add_row it never checks the row length against the column capacity, so it can make the shape exceed the declared capacity. A rectangular matrix stays rectangular unless it has rows but zero columns, in which case a row of any length is accepted and the matrix stops being rectangular.", "quantifier": "all matrices and rows", "why_tests_cant": "the over-wide first row is a corner of the input space", "anchors": ["src/math/matrix/mod.rs: add_mut_row"]}
{"id": "C17", "title": "add_col never extends a matrix that has columns", "statement": "For a well-formed matrix with at least one column, add_col rejects every column of the matching length with InconsistentLength; a shorter column without spare column capacity is accepted but leaves a body whose length is not rows*cols, and a longer one panics. With zero columns and zero column capacity any column whose length differs from the row count is accepted and gives an n x 1 matrix; with spare column capacity any other length gives Overflow.", "quantifier": "all well-formed matrices and columns", "why_tests_cant": "a universal negative statement", "anchors": ["src/math/matrix/mod.rs: add_col"]}
{"id": "C18", "title": "Rows, columns and reshaping are lossless", "statement": "rows_as_iter yields exactly the rows in order and their concatenation is the body (panicking iff there are zero columns); copy_col_into_vec/col_into_slice return entry (i,j) for each i; row_into_slice copies row i; to_matrix accepts a slice iff its length is rows*cols and export_body gives the slice back.", "quantifier": "all matrices, indices, slices and shapes", "why_tests_cant": "unbounded shapes", "anchors": ["src/math/matrix/mod.rs: rows_as_iter, get_slider, copy_col_into_vec, col_into_slice, row_into_slice, to_matrix, export_body"]}
{"id": "C19", "title": "flip reverses both axes", "statement": "flip() of a well-formed r x c matrix never panics, has entry (i,j) equal to the original (r-1-i, c-1-j), keeps the shape, and flipping twice gives back the original body and shape.", "quantifier": "all element types and shapes", "why_tests_cant": "unbounded shapes", "anchors": ["src/math/matrix/mod.rs: flip"]}
{"id": "C20", "title": "pad surrounds with zeros", "statement": "pad((p,q)) of a well-formed r x c matrix never panics and returns an (r+2p) x (c+2q) matrix whose entry (i,j) is the original (i-p,j-q) inside the frame and the default value elsewhere.", "quantifier": "all shapes and paddings", "why_tests_cant": "unbounded shapes and paddings", "anchors": ["src/math/matrix/mod.rs: pad"]}
{"id": "C21", "title": "Element-wise matrix and scalar updates", "statement": "add_mut on equal shapes adds entry by entry and keeps the shape; an empty matrix is the neutral element on either side; unequal non-empty shapes give InconsistentShape with no change. add_mut_scalar, mul_mut_scalar and div_mut_scalar apply the operation to every entry and change nothing else.", "quantifier": "all element types, shapes and operands", "why_tests_cant": "unbounded shapes", "anchors": ["src/math/matrix/mod.rs: add_mut, add_mut_scalar, mul_mut_scalar, div_mut_scalar"]}
{"id": "C22", "title": "Matrix-vector product", "statement": "mul_vec and mul_slice return the same result: entry i is the left-to-right sum of m(i,j)*v(j) starting from the default value; they return InvalidRHS iff the vector length differs from the column count, and panic exactly on a matrix with zero columns and an empty vector.", "quantifier": "all scalar types (any rounding), shapes and vectors", "why_tests_cant": "unbounded shapes", "anchors": ["src/math/matrix/mod.rs: Matrix::mul_vec, Matrix::mul_slice"]}
{"id": "C23", "title": "Convolution computes valid cross-correlation", "statement": "For well-formed m (r x c) and kernel (a x b) with 1<=a<=r, 1<=b<=c, convolution never panics and returns an (r-a+1) x (c-b+1) matrix whose entry (i,j) is the sum over u of the sum over v of m(i+u,j+v)*k(u,v), accumulated from the default value in that order; a kernel larger than the matrix gives InvalidRHS; a kernel with a zero dimension panics. cconvolution returns the same with every k(u,v) replaced by its conjugate, and panics on a kernel that exceeds the matrix by more than one row or column.", "quantifier": "all scalar types (any rounding), shapes and contents", "why_tests_cant": "unbounded shapes", "anchors": ["src/math/matrix/mod.rs: convolution, cconvolution, get_slider, SliceOps::scalar_prod"]}
{"id": "C24", "title": "Convolution, pad and flip form an adjoint pair", "statement": "In exact arithmetic convolution is bilinear, and for every g of output shape <conv(m,k), g> = <m, conv(pad(g),flip(k))> = <k, conv(m,g)> with the padding (a-1,b-1): the identities the convolutional backward pass relies on.", "quantifier": "all shapes and contents over the complex numbers", "why_tests_cant": "identity over all matrices", "anchors": ["src/math/matrix/mod.rs: convolution, pad, flip", "src/cvnn/layer/conv.rs: compute_derivatives"]}
{"id": "C25", "title": "block_reduce partitions the matrix into blocks", "statement": "For block sizes dividing the shape, block_reduce returns the (r/a) x (c/b) matrix whose entry (i,j) is the reduce function applied to the row-major content of block (i,j); it returns InconsistentShape iff a dimension is not divisible or smaller than the block (nonzero blocks) and panics for a zero block size; every input entry is handed to exactly one call.", "quantifier": "all shapes, block sizes and reduce functions", "why_tests_cant": "unbounded shapes and arbitrary functions", "anchors": ["src/math/matrix/mod.rs: block_reduce", "src/cvnn/layer/reduce.rs: foward"]}
{"id": "C26", "title": "Up-sampling shape and content", "statement": "fractional_upsampling with a square block and a 3x3 kernel returns an (r*a) x (c*b) matrix equal to the 3x3 correlation of the zero-stuffed, zero-padded input; for an odd k x k kernel the result is (r*a+k-3) x (c*b+k-3), so the shape is preserved only for k = 3 although the code intends to conserve it; even kernels give InvalidRHS; a 1x1 kernel underflows (panic with overflow checks).", "quantifier": "all shapes, blocks and kernels", "why_tests_cant": "the documented 3x3 use hides the general case", "anchors": ["src/math/matrix/mod.rs: fractional_upsampling", "src/cvnn/layer/reduce.rs: compute_derivatives"]}
{"id": "C27", "title": "Slice arithmetic", "statement": "add_slice_mut, mul_slice_mut, add_slice and mul_slice return InconsistentShape iff the lengths differ (add_slice additionally accepts an empty left operand and returns the right one) and otherwise combine entry by entry; mul_mut_scalar/div_mut_scalar act on every entry; scalar_prod is the left-to-right sum of products over the common prefix.", "quantifier": "all slices of any length", "why_tests_cant": "unbounded lengths", "anchors": ["src/math/matrix/mod.rs: SliceOps for [T]"]}
{"id": "C28", "title": "Matrix text export", "statement": "to_csv writes one line per row, every entry followed by a comma, rows in order and nothing else; Display prints one line per row then shape and capacity; both panic exactly when the matrix has zero columns (so printing Matrix::new() panics).", "quantifier": "all matrices and entry formatters", "why_tests_cant": "unbounded shapes", "anchors": ["src/math/matrix/mod.rs: to_csv, Display for Matrix"]}
{"id": "C29", "title": "Slice activation is pointwise activation", "statement": "For each activation function, activate_mut / d_activate_mut / d_conj_activate_mut replace every element by the value the scalar activate / d_activate / d_conj_activate returns and keep the length; they panic iff one scalar call panics, which happens only for ModZ.", "quantifier": "all slices, activation functions and precisions", "why_tests_cant": "unbounded lengths", "anchors": ["src/act/mod.rs: compute_*, compute_val_*, release_*", "src/math/mod.rs: activate_mut"]}
{"id": "C30", "title": "Activation derivatives are the Wirtinger derivatives", "statement": "In exact arithmetic, d_activate and d_conj_activate are the Wirtinger derivatives of activate with respect to z and conj z for None (everywhere), RITTanh (everywhere), RITSigmoid (both parts strictly inside the saturation threshold), RITReLU (off the coordinate axes), ZReLU (where one part is negative or both are positive) and ModZ (z != 0). Where both parts are above the saturation threshold the true derivatives of RITSigmoid are zero but d_activate is not.", "quantifier": "all points of the stated regions, both precisions", "why_tests_cant": "derivatives are limits over a continuum", "anchors": ["src/act/mod.rs: d_*, d_conj_*"]}
{"id": "C31", "title": "Cardioid derivatives are wrong", "statement": "For Cf32 and every z != 0, d_activate(Cardioid) equals twice the conjugate Wirtinger derivative of the implemented cardioid and d_conj_activate equals twice the plain one: the two are swapped and miss the factor 1/2. For Cf64, whose phase is atan(y/x), the same holds in the right half plane, and with factor -2 in the left half plane. At z = 1 both reported derivatives are wrong.", "quantifier": "all nonzero z (Cf32), all z off the imaginary axis (Cf64)", "why_tests_cant": "needs the true derivative at every point", "anchors": ["src/act/mod.rs: card_cf32, d_card_cf32, d_conj_card_cf32"]}
{"id": "C32", "title": "Sigmoid range and saturation", "statement": "RITSigmoid maps every complex number into the open square (0,1)x(0,1) in exact arithmetic, part by part. In the f64 variant each part is monotone over the whole line. In both variants it is strictly increasing strictly between the two saturation thresholds and constant beyond each; in the f32 variant it drops on reaching either threshold, so it is not monotone across them.", "quantifier": "all real inputs", "why_tests_cant": "monotonicity is a statement about all pairs", "anchors": ["src/act/mod.rs: sigmoid_f32, sigmoid_f64, ritsigmoid_*"]}
{"id": "C33", "title": "Mean-square loss divides by n-1", "statement": "loss(MeanSquare) on targets and predictions with n common entries is the sum of |t-p|^2 divided by n-1, not n, accumulated in order (any rounding); in exact arithmetic with n >= 2 it is nonnegative and zero iff the vectors agree on the common entries; in IEEE arithmetic a single output never gives a finite loss, and no common entries give NaN.", "quantifier": "all target and prediction vectors", "why_tests_cant": "unbounded lengths", "anchors": ["src/opt/mod.rs: mean_sq_loss_cf32, mean_sq_loss_cf64"]}
{"id": "C34", "title": "Mean-square derivative", "statement": "d_loss(MeanSquare) returns conj(p_k - t_k) for each common entry, which is the Wirtinger derivative of the summed squared error, i.e. n-1 times the derivative of the reported loss.", "quantifier": "all vectors and all perturbation directions", "why_tests_cant": "derivative over a continuum", "anchors": ["src/opt/mod.rs: d_mean_sq_loss_cf32, d_mean_sq_loss_cf64"]}
{"id": "C35", "title": "Cross-entropy loss is softmax cross-entropy on squared moduli", "statement": "loss(NormCrossEntropy) equals -sum_k re(t_k) ln(softmax(|p|^2)_k) in exact arithmetic for equal lengths, and is accumulated left to right (any rounding); it is nonnegative when the target entries have nonnegative real part, positive when moreover there are at least two outputs and some target entry is positive, and always zero with a single output.", "quantifier": "all vectors of equal length", "why_tests_cant": "unbounded lengths", "anchors": ["src/opt/mod.rs: norm_ce_loss_cf32, norm_ce_loss_cf64"]}
{"id": "C36", "title": "The cross-entropy gradient is not the gradient of the cross-entropy", "statement": "d_loss(NormCrossEntropy) returns exactly what d_loss(MeanSquare) returns on every input, so a training step with either loss gives the same network. The Wirtinger derivative of the reported cross-entropy is a different expression (conj(p_k) times (softmax_k * sum re(t) - re(t_k)) ), and there are inputs at which a small step against the reported gradient increases the cross-entropy loss.", "quantifier": "all vectors (equality), a witness (refutation)", "why_tests_cant": "equality ranges over all inputs", "anchors": ["src/opt/mod.rs: d_norm_ce_loss_cf32, d_norm_ce_loss_cf64"]}
{"id": "C37", "title": "Loss type checking", "statement": "loss and d_loss return InconsistentIO exactly when one of target and prediction is scalar and the other is feature maps; they never panic, and on feature maps they act on the concatenated bodies.", "quantifier": "all targets, predictions and loss functions", "why_tests_cant": "unbounded inputs", "anchors": ["src/opt/mod.rs: compute_cf32, compute_cf64, compute_d_cf32, compute_d_cf64"]}
{"id": "C38", "title": "IOType accessors", "statement": "release_vec/release_maps return the wrapped data exactly for the matching variant and InvalidType otherwise; as_slice, as_mut and to_vec return the data for Scalar and panic for Matrix.", "quantifier": "all values", "why_tests_cant": "universal over payloads", "anchors": ["src/input/mod.rs: IOType"]}
{"id": "C39", "title": "Dense initialisation", "statement": "DenseCLayer::init with Scalar(n) and u units yields a layer with a u x n weight matrix, u zero biases, input shape Scalar(n), output shape Scalar(u), the weights being consecutive generator outputs in row-major order; a Matrix shape gives InvalidInputShape and leaves the seed untouched.", "quantifier": "all sizes, methods and seeds", "why_tests_cant": "unbounded sizes", "anchors": ["src/cvnn/layer/dense.rs: init, get_input_shape, get_output_shape, params_len"]}
{"id": "C40", "title": "Dense forward computes act(Wx+b)", "statement": "For a layer with u x n weights (n>0) and u biases and an input of length n, forward returns u activations, entry i being act((((0+w_i1 x_1)+w_i2 x_2)+...)+b_i) in exactly that order; feature-map input gives InvalidInput; a wrong length panics.", "quantifier": "all layers and inputs, any rounding", "why_tests_cant": "unbounded sizes", "anchors": ["src/cvnn/layer/dense.rs: forward"]}
{"id": "C41", "title": "Dense backward pass obeys the Wirtinger chain rule", "statement": "compute_derivatives returns delta_i = da/dq*dlda_i + conj(da/dq*)*dlda_conj_i as bias gradient, delta_i*x_j as weight gradient, sum_i w_ij delta_i as propagated gradient and its conjugate; gradient lengths other than the unit count give InconsistentShape.", "quantifier": "all layers, inputs and incoming gradients", "why_tests_cant": "unbounded sizes", "anchors": ["src/cvnn/layer/dense.rs: compute_derivatives"]}
{"id": "C42", "title": "Parameter update", "statement": "neg_conj_adjustment subtracts the conjugate of each gradient entry from the matching parameter (row-major, kernels filter by filter) and touches nothing else; mismatched gradient lengths return InconsistentShape and leave the layer unchanged; Reduce ignores it and Flatten panics.", "quantifier": "all layers and gradients, any rounding", "why_tests_cant": "unbounded sizes", "anchors": ["src/cvnn/layer/dense.rs: neg_conj_adjustment", "src/cvnn/layer/conv.rs: neg_conj_adjustment", "src/cvnn/layer/mod.rs: neg_conj_adjustment"]}
{"id": "C43", "title": "Convolutional initialisation", "statement": "ConvCLayer::init with Matrix(c), f filters and a x b kernels yields f*c kernels of shape a x b in filter-major order filled with consecutive generator outputs, f zero biases, input shape Matrix(c), output shape Matrix(f); a Scalar shape gives InvalidInputShape.", "quantifier": "all sizes, methods and seeds", "why_tests_cant": "unbounded sizes", "anchors": ["src/cvnn/layer/conv.rs: init"]}
{"id": "C44", "title": "Convolutional forward", "statement": "For c input maps of one shape r x s no smaller than the a x b kernels, forward returns f maps of shape (r-a+1) x (s-b+1), map o being act(sum over channels of conv(x_ch, k_o,ch) + b_o), and panics iff one of these activations does; scalar input gives InvalidInput; a wrong number of maps gives InvalidInput if the first map is at least kernel size minus one in both directions, while a smaller first map or an empty list of maps panics.", "quantifier": "all layers and inputs, any rounding", "why_tests_cant": "unbounded sizes", "anchors": ["src/cvnn/layer/conv.rs: forward"]}
{"id": "C45", "title": "Convolutional parameter gradients", "statement": "With delta = da/dq*dlda + conj(da/dq*)*dlda_conj per output pixel, the kernel gradient is correlation of each input map with delta and the bias gradient is the sum of delta (exact arithmetic): the exact chain-rule values.", "quantifier": "all layers, inputs and incoming gradients", "why_tests_cant": "unbounded sizes", "anchors": ["src/cvnn/layer/conv.rs: compute_derivatives"]}
{"id": "C46", "title": "Convolutional propagated gradient drops the conjugate part", "statement": "The gradient a convolutional layer passes down is the full correlation of the flipped kernels with da/dq*dlda only, and the conjugate gradient that with conj(da/dq*)*dlda_conj; the chain rule requires the sum for the first and its conjugate for the second, so whenever the layer is not the first one the gradients below it can be wrong (exact for the first layer, where the result is unused).", "quantifier": "all layers and gradients (formula); a witness (refutation)", "why_tests_cant": "requires comparing with the true derivative", "anchors": ["src/cvnn/layer/conv.rs: compute_derivatives"]}
{"id": "C47", "title": "Reduce layer forward and backward shapes", "statement": "Reduce forward maps every feature map through block_reduce and keeps the number of maps; its backward pass with a square block and a 3x3 kernel returns gradients of exactly the input size, one up-sampled map per feature, and no parameter gradients. It declares the same number of maps at both ends, has no parameters and is left as it is by an update.", "quantifier": "all feature maps and blocks", "why_tests_cant": "unbounded sizes", "anchors": ["src/cvnn/layer/reduce.rs: foward, compute_derivatives"]}
{"id": "C48", "title": "Flatten is order preserving concatenation", "statement": "Flatten forward concatenates the row-major bodies of the maps in order; for maps of the declared shape the output length is the declared output shape; scalar input gives InvalidInput; during training the gradient passes through it unchanged.", "quantifier": "all feature maps", "why_tests_cant": "unbounded sizes", "anchors": ["src/cvnn/layer/flatten.rs: foward", "src/cvnn/network/mod.rs: gradient_opt"]}
{"id": "C49", "title": "Network construction keeps layers compatible", "statement": "After any sequence of add_input/add calls that does not panic, the network consists of exactly the layers of the accepted calls in order, consecutive layers have equal output/input shape, no layer is uninitialised, and a rejected call leaves the network unchanged; add of an initialised layer on an empty network panics (an uninitialised one gives MissingInitialization); a second add_input returns ExistentInput; incompatible shapes return IncompatibleIO. Uninitialised means no weights, no biases or no kernels. The declared shapes are the real ones: dense and convolutional layers accept no input of another shape, and an input of the declared shape gives an output of the declared shape.", "quantifier": "all finite histories of construction calls", "why_tests_cant": "all histories", "anchors": ["src/cvnn/network/mod.rs: new, add_input, add, get_input_shape, get_output_shape"]}
{"id": "C50", "title": "forward, collect_acts and intercept agree", "statement": "forward is the composition of the layers, collect_acts returns input, every intermediate and the output (n+1 entries), its last entry is forward's result, and intercept(x,k) returns entry k and layer k for k < n, InvalidLayerIndex for k >= n on a non-empty network; all of them fail together.", "quantifier": "all networks, inputs and indices", "why_tests_cant": "unbounded depth", "anchors": ["src/cvnn/network/mod.rs: forward, collect_acts, intercept"]}
{"id": "C51", "title": "A dense network never fails on inputs of its declared shape", "statement": "A network built through add_input/add from initialised dense layers (positive widths, no ModZ) maps every input of its declared input length to an output of its declared output length without error or panic; for ModZ the only failure is a zero pre-activation.", "quantifier": "all depths, widths, weights and inputs", "why_tests_cant": "unbounded depth and width", "anchors": ["src/cvnn/network/mod.rs: forward", "src/cvnn/layer/dense.rs: forward"]}
{"id": "C52", "title": "Parameter count and architecture are preserved by training", "statement": "params_len is the total number of stored weights and biases; a successful gradient_opt keeps the number of layers, every shape, every activation function and params_len, for any number of training steps.", "quantifier": "all networks and training histories", "why_tests_cant": "all histories", "anchors": ["src/cvnn/network/mod.rs: params_len, gradient_opt"]}
{"id": "C53", "title": "gradient_opt and mvn_opt outcome", "statement": "gradient_opt returns MissingLayers exactly for networks with at most one layer (changing nothing) and otherwise either succeeds or panics; on an empty batch with at least two layers it panics (division by zero); on a dense network without ModZ and a non-empty batch whose inputs have the declared width and whose targets are at least as long as the output it succeeds, and with a shorter target it panics. The other public optimiser, mvn_opt, never returns: it always panics, whatever its arguments.", "quantifier": "all networks, batches, loss functions and learning rates", "why_tests_cant": "unbounded batches", "anchors": ["src/cvnn/network/mod.rs: gradient_opt", "src/cvnn/network/mod.rs: mvn_opt"]}
{"id": "C54", "title": "Back-propagation computes the gradient of the reported loss", "statement": "In exact arithmetic, for a network of at least two layers made of dense layers, or of a convolutional first layer followed by exact mean pooling (C66), flatten and dense layers (further convolutional layers where the conjugate derivative vanishes), any batch and a real learning rate: the step taken by gradient_opt is -lr times the conjugate Wirtinger gradient of the batch mean of the summed squared error, at every point where the activations are differentiable and there are at least two outputs; hence the derivative of network.loss along the step is minus a nonnegative multiple of the squared gradient norm, and a small enough step strictly decreases the loss unless the gradient is zero. With a non-real learning rate this fails: the conjugate is taken of rate times gradient, and the step can vanish.", "quantifier": "all such networks, parameters, batches, perturbation directions", "why_tests_cant": "derivative over a continuum of unbounded dimension", "anchors": ["src/cvnn/network/mod.rs: gradient_opt, loss", "src/cvnn/layer/dense.rs: compute_derivatives"]}
{"id": "C55", "title": "Training does not depend on the order of the batch, until numbers are rounded", "statement": "In exact arithmetic, permuting the points of the batch changes neither network.loss nor the parameters after gradient_opt, nor the accuracy (the accuracy in any arithmetic). In f32 the parameters do depend on the order: a batch of three finite points, taken in two orders, gives two finite trained networks that differ.", "quantifier": "all networks, batches and permutations", "why_tests_cant": "factorially many orders", "anchors": ["src/cvnn/network/mod.rs: loss, gradient_opt, max_pred_test"]}
{"id": "C56", "title": "Accuracy counts arg-max agreement", "statement": "max_pred_test returns the fraction of points whose prediction and target have the same first index of maximal modulus; it lies in [0,1] for a non-empty batch.", "quantifier": "all networks and batches", "why_tests_cant": "unbounded batches", "anchors": ["src/cvnn/network/mod.rs: max_pred_test"]}
{"id": "C57", "title": "network.loss is the mean of the point losses", "statement": "network.loss is the left-to-right sum of the point losses divided by the number of points (scalar or feature-map outputs) and panics exactly on an empty dataset, a prediction whose kind differs from the target's, or a failing forward pass.", "quantifier": "all networks and datasets", "why_tests_cant": "unbounded datasets", "anchors": ["src/cvnn/network/mod.rs: loss"]}
{"id": "C58", "title": "Dataset is a list of points", "statement": "After any sequence of add_point calls get_n_points is the number of calls, get_point(i) returns the i-th added pair and panics out of range, and both iterators list the points in insertion order.", "quantifier": "all histories", "why_tests_cant": "all histories", "anchors": ["src/dataset/mod.rs: Dataset::new, add_point, get_point, get_n_points, points_as_iter, points_into_iter"]}
{"id": "C59", "title": "MNIST batch loading", "statement": "On files with a 16/8 byte header and k complete records, successive batch calls with positive sizes deliver the records in order, each exactly once, image bytes divided by 255 and label one-hot, as long as records remain; after exactly 60000 records the loader stops, and a further call invents one black image labelled 0; once the label file is exhausted earlier the last record is repeated; a label of 10 or more panics; if the file delivers fewer bytes than asked for in one read, the following records are shifted.", "quantifier": "all file contents and all sequences of batch sizes", "why_tests_cant": "all histories of calls", "anchors": ["src/dataset/mod.rs: minist_as_batch, minist_as_complex_batch"]}
{"id": "C60", "title": "Signal dataset shape, normalisation and noise", "statement": "signal_reconstruction(samples, batch, thr, ..) with even samples and legal seeds never fails, in f32 with any mathematical library and in exact arithmetic, and leaves legal seeds; what it returns is two datasets of batch points, every input and target of length samples; with an odd number of samples and batch > 0 it panics. In exact arithmetic each clean signal is a sum of one to nine waves with amplitude and frequency in [0.1, 1) and phase in [0, 2 pi), sampled at equidistant times 4 pi i / samples and divided by its largest modulus (or identically zero), so its maximal modulus is 1 or 0; every noisy entry is within 1.05*thr*sqrt(62 ln 2) (in modulus) of the clean one, and with thr = 0 input and target coincide. The noise of the training set is drawn from the test seed, so two runs with the same training seed can give different training sets; there is a legal seed for which the noise is not finite in f32.", "quantifier": "all sizes and seeds", "why_tests_cant": "unbounded sizes and seeds", "anchors": ["src/dataset/mod.rs: signal_reconstruction"]}
{"id": "C61", "title": "Dataset text export", "statement": "Dataset::to_csv writes one line per point: input entries then target entries separated by commas; it panics iff some point has feature maps or an empty input, and then the lines of the earlier points have already been written.", "quantifier": "all datasets and formatters", "why_tests_cant": "unbounded datasets", "anchors": ["src/dataset/mod.rs: to_csv"]}
{"id": "C62", "title": "A network whose layers fit never fails", "statement": "Call a network fitting from one geometry to another (a vector of n numbers, or n feature maps of r rows and c columns) when each layer, as its constructor builds it and with an activation other than ModZ, takes the geometry the previous one produces: dense layers need their number of inputs, convolution layers their number of channels and maps no smaller than the kernel, reduce layers blocks that tile the maps. Then, for every float arithmetic: forward on an input of the first geometry returns a value of the last geometry; loss and max_pred_test return a value on every batch of matching points; and training with gradient_opt on any finite sequence of matching batches (reduce layers with square blocks and a 3x3 kernel, at least two layers, a learning rate that can be divided by the batch size) neither panics nor reports an error, and leaves a network that fits the same geometries. The learning-rate condition always holds for nonempty batches over the reals, f32 and f64.", "quantifier": "all architectures, parameters, inputs, sequences of batches, loss functions and rates", "why_tests_cant": "unbounded architectures and training runs; tests exercise a handful of fixed networks", "anchors": ["src/cvnn/network/mod.rs: forward, loss, max_pred_test, gradient_opt", "src/cvnn/layer/dense.rs", "src/cvnn/layer/conv.rs", "src/cvnn/layer/reduce.rs", "src/cvnn/layer/flatten.rs"]}
{"id": "C63", "title": "The example networks are what they claim to be", "statement": "From every legal seed and in both build profiles the three network builders of the examples succeed, leave a legal seed and return the identifiers 2, 0 and 3 with networks whose layers fit: 28x28 image -> 8 maps 26x26 -> 8 maps 13x13 -> 16 maps 11x11 -> 1936 -> 16 -> 10 with 32410 complex parameters (f32), 28x28 image -> 784 -> 28 -> 16 -> 16 -> 10 with 22886 parameters, and samples -> 128 -> 32 -> 16 -> 32 -> samples with 161*samples+5328 parameters. Every value seen by intercept and the result of forward have the geometry of their stage. Training on any sequence of matching batches succeeds and keeps stages and parameter count, so feature extraction from a network with the stages of the convolutional one always yields 8 maps of 26x26 and 16 maps of 11x11 for each of the two chosen images. More generally, a chain of unwrapped layer additions returns a network exactly when every addition was accepted, and then it is the network of those additions.", "quantifier": "all seeds, profiles, libm implementations, sample counts, inputs and training histories", "why_tests_cant": "the examples are run with one seed and minutes of training; nothing checks the claim for other seeds or after arbitrary training", "anchors": ["examples/classification.rs: _get_2conv_layer_cvcnn, _get_fully_connected_cvnn, _extract_features", "examples/regression.rs: _get_auto_encoder"]}
{"id": "C64", "title": "The classification program terminates normally and measures what it should", "statement": "In f32, for a network that fits 28x28 images and 10 classes and well-formed files with enough records: a sweep over b batches of s > 0 records (b*s <= 60000) visits the consecutive slices of s records in file order, measures loss and accuracy of the network before its step on the slice, and returns the two means (sum in order divided by b); a test sweep leaves the network unchanged; every epoch trains on the same batches in the same order, continuing with the network of the previous one, and then tests the trained network; each of the four curves gets one entry per epoch and is written to its file one value a line. The whole program (600 and 100 batches of 100) returns from every legal seed with either network, including feature extraction for the convolutional one.", "quantifier": "all seeds, files, batch sizes, epoch counts, rates, losses and libm implementations", "why_tests_cant": "the program takes long runs on external data; no test can cover all files, seeds and epoch counts", "anchors": ["examples/classification.rs: class_pipeline, _train_pipeline, _test_pipeline, _extract_features"]}
{"id": "C65", "title": "The regression program terminates normally but its curves are not mean losses", "statement": "The regression pipeline with an even number of samples, batch size > 0, legal seeds and a fitting network returns in f32 (any mathematical library) and in exact arithmetic; each epoch runs from the same two seeds, hence on the same signals, measures the loss on each training batch before the step and on the test batch after it, and pushes one value per epoch on each curve; the exported columns are the noisy samples, the clean samples and the prediction for the first ten training signals. Violated expectation: the pushed value is not the mean loss of the epoch. In exact arithmetic it is the sum of l_i * i! / B! over the B batches; with the mean square loss it never exceeds the mean, and equals it exactly when B <= 2 or every batch but the last has loss zero.", "quantifier": "all seeds, sizes, epochs, batch counts, rates and libm implementations", "why_tests_cant": "the recorded value is plausible for any single run; that it is not the mean is visible only from the general formula", "anchors": ["examples/regression.rs: reg_pipeline, signal_rec_train_test"]}
{"id": "C66", "title": "Back-propagation through mean pooling", "statement": "In exact arithmetic, for a reduce layer that takes means over square blocks of side a with a 3x3 up-sampling kernel: the gradient with respect to a pixel is 1/a^2 of the gradient of its block. The layer's backward pass returns exactly this for all values if and only if a is 1, 2 or 3 and the kernel is the one that spreads a value evenly over its own block; such a layer keeps a convolutional network inside the scope of C54. The pooling layer of the classification example (2x2 means with the kernel 1/4 1/2 1/4; 1/2 1 1/2; 1/4 1/2 1/4) returns a bilinear interpolation instead: the first pixel of every block gets four times its gradient, and there is a network and a batch on which a training step raises the reported loss for every positive learning rate.", "quantifier": "all block sides, map sizes and numbers, kernels, gradients, input velocities, learning rates", "why_tests_cant": "a statement about all kernels and all gradients; the counterexample holds for a continuum of learning rates", "anchors": ["src/cvnn/layer/reduce.rs: foward, compute_derivatives", "src/math/matrix/mod.rs: block_reduce, fractional_upsampling", "examples/classification.rs: get_2conv_layer_cvcnn"]}
{"id": "C67", "title": "One full cycle: the period of the generator and how often each index is drawn", "statement": "From every seed below 2^31-1 except 1934915413 (the one that never moves), any mix of calls of the three generator functions brings the seed back to its value exactly when the number of calls is a multiple of 2^31-2; in one period every other seed value is visited exactly once, so any value can be reached from any other. In one period lcgi(limit) draws the index k exactly as often as there are states x < 2^31-1 with x/((2^31-1)/limit) = k, less one for the index of the stuck state. 64-bit draws belonging to different states are different. Violated expectations: for every limit strictly between 1 and 2^31-1 every non-stuck seed draws an index >= limit within one period (seven times for the limit 8 used by the library); the 32-bit draws do not take the documented 2^31 different values.", "quantifier": "all seeds, all call sequences, all limits and indices", "why_tests_cant": "the period is 2^31-2 calls for each of 2^31-2 seeds; that the multiplier has maximal order is number theory", "anchors": ["src/math/random/mod.rs: lcgf32, lcgf64, lcgi", "src/dataset/mod.rs: signal_reconstruction"]}
{"id": "C68", "title": "Laws of a training step", "statement": "In exact arithmetic and with a real learning rate, one step on a batch moves every parameter by the mean of the moves that the single points of the batch would make from the same network; it fails exactly when one of the points fails on its own; and showing every point k times in one batch gives the same step. A step with rate 0 leaves the network unchanged. A network that already predicts every target of a batch is left unchanged by a step, whatever the rate, even complex. With a complex rate the duplication law fails: rate i gives different steps for a batch and for the batch shown twice.", "quantifier": "for all networks with at least two layers whose parameter buffers have their declared sizes (dense, convolutional, pooling and flatten layers in any order), batches, losses, activations, real rates and k >= 1 (for the rate-0 and solved laws all networks, and all complex rates for the latter)", "why_tests_cant": "The laws relate the results of different runs of training over all networks and batches; a test compares a few floating-point runs, where rounding hides a wrong average.", "anchors": ["src/cvnn/network/mod.rs: gradient_opt", "src/cvnn/layer: dense, conv, reduce, flatten (compute_derivatives, neg_conj_adjustment)", "src/opt/mod.rs: compute_d_cf32, compute_d_cf64", "src/math/cfloat/mod.rs: MulAssign"]}
{"id": "C69", "title": "Rounding error of a forward pass", "statement": "In single and in double precision (IEEE arithmetic, round to nearest), a forward pass through dense, convolutional, mean-pooling and flatten layers, with finite parameters and a finite input and with no activation, RITReLU, RITTanh or RITSigmoid, returns finite numbers, and each of them is as close to the result of the same network computing with exact real numbers as an explicit budget says: ((1+u)^k - 1) M + (1+u)^k S in either part. Here u is half an ulp of 1; k counts the roundings along the deepest path (inputs + 3 per dense layer, kernel height + kernel width + channels + 3 per convolution, block size + 3 per mean); M is the network of absolute values applied to the absolute values of the input (plus 1 behind every sigmoid); S collects the underflow of every product, the inaccuracy of the platform's tanh and exp, and for the sigmoid the jump of the saturating branches. The only condition is that (1+u)^k (M + S) stays below the overflow threshold before each activation (times the squared block size for a mean). For one dense layer without activation this is the classical bound for dot products. A platform with correctly rounded tanh and exp meets the accuracy assumed with two units.", "quantifier": "for all such networks, inputs, and platform math libraries with any stated accuracy (none needed without tanh and sigmoid layers), in both precisions", "why_tests_cant": "A test sees the rounding of a few inputs; it can neither bound the error of all inputs nor compute the exact result it should be compared with.", "anchors": ["src/cvnn/network/mod.rs: forward", "src/cvnn/layer: dense, conv, reduce, flatten (forward)", "src/act/mod.rs", "src/math/cfloat/mod.rs", "examples/classification.rs: pooling closure"]}
{"id": "C70", "title": "Initial weights are finite and small, except after a zero draw", "statement": "In single and in double precision, on a platform whose sine and cosine stay between -1 and 1 and whose logarithm is -inf at 0 and between -31 and 0 on [2^-31, 1], a weight produced by any InitMethod has both parts finite, except when the method is normal (HeInit, XavierGlorotN) and its first draw is zero, and then it is not finite. A finite weight has both parts at most (1+u)^3 times the documented amplitude (8 times that for the normal methods), u being half an ulp of 1. A freshly initialised dense or convolutional layer therefore has finite parameters unless a normal method meets generator state 0 as the first draw of one of its weights, that is at position 3i+1 after the seed for weight i.", "quantifier": "all methods with usize sizes (unit counts at least one), seeds, layer sizes, profiles, and platforms as described", "why_tests_cant": "The failing state is one of 2^31, and the bounds concern every draw in floating point with its roundings.", "anchors": ["src/math/mod.rs: gen, gen_he, gen_xa, gen_xagu, gen_xagn", "src/init/mod.rs: InitMethod::gen", "src/cvnn/layer/dense.rs: init", "src/cvnn/layer/conv.rs: init"]}
{"id": "C71", "title": "A NaN spreads to the whole network, for good, without an error", "statement": "In single and in double precision, on a platform whose mathematical functions answer NaN with NaN, for a network of at least one dense layer (each with at least one unit) whose activations are none, RITSigmoid, RITTanh or Cardioid: (a) the forward pass succeeds; a NaN in one part of one input or of one weight or bias below the last layer makes both parts of every output NaN, and a NaN in the last layer makes at least one output NaN; (b) both losses of a batch are NaN as soon as one parameter or one input of the batch is; (c) the accuracy is an ordinary number all the same: when every prediction is NaN it is the fraction of points whose target is class 0; (d) one gradient_opt call with one NaN in one input of the batch or in one parameter below the last layer returns Ok(()) and leaves both parts of every parameter NaN, whatever the rate (zero included); with a NaN in a target or only in the last layer, every layer but the last is lost, and one more call loses the rest; (e) in any network (any layers, any activations) a part of a parameter that is NaN stays NaN through any training. With the rectifiers (a) does not hold: a NaN part with its sign bit set becomes 0.", "quantifier": "for all such networks (for (d) of at least two layers), batches, losses, rates, training histories and platforms, in both precisions", "why_tests_cant": "A test shows one propagation path; that every output and every parameter is lost whatever the position of the NaN, and never recovered, concerns all networks and histories.", "anchors": ["src/cvnn/network/mod.rs: forward, loss, max_pred_test, gradient_opt", "src/cvnn/layer/dense.rs: forward, compute_derivatives, adjust", "src/opt/mod.rs", "src/act/mod.rs", "src/math/cfloat/mod.rs"]}
{"id": "C72", "title": "What the losses are worth in floating point", "statement": "In IEEE arithmetic of any format: (a) the mean-square loss, of a pair or of a data set, is a NaN or has its sign bit clear, whatever the entries; (b) with at least two finite entries it is exactly +0 on a perfect prediction, but also whenever all parts differ by at most 2^-75 (single) or 2^-538 (double precision), so a zero loss does not mean a perfect prediction; (c) with n entries it is finite and within ((1+u)^(n+5) - 1) times the exact loss plus (1+u)^(n+5) * 5 half-units of underflow of the exact loss, as long as (1+u)^(n+5) times the sum of squares (plus underflow) stays in range and n is at most 2^precision; (d) the cross entropy is NaN as soon as one prediction that has a target has a part of 10 or more (single), 27 or more (double precision) or not finite, whatever the targets, on any platform whose exp overflows to infinity; (e) with nonnegative targets the cross entropy is NaN or not negative, on a platform whose exp is never negative and whose logarithm is not positive up to 1; (f) with targets between -1 and 1 and predictions whose parts stay within 6 (single) or 18 (double precision) it is finite, for up to 2^16 and 2^40 outputs, on a platform whose exp and ln are of the right size.", "quantifier": "for all entries, lengths, data sets, networks and platform math libraries with the stated behaviour; (a)-(c) and (e) in every IEEE format", "why_tests_cant": "A test sees a few values; sign, error and finiteness bounds over all floats, all lengths and all math libraries, and the range where the loss is certain to be NaN, need an argument about rounding.", "anchors": ["src/opt/mod.rs: mean_sq_loss_cf32, mean_sq_loss_cf64, norm_ce_loss_cf32, norm_ce_loss_cf64, compute_cf32, compute_cf64", "src/math/mod.rs: norm_sq", "src/cvnn/network/mod.rs: loss"]}
{"id": "C73", "title": "What changes in a release build", "statement": "In a release build usize arithmetic wraps instead of panicking. (a) Whatever a debug build of convolution, cconvolution, pad, fractional_upsampling, the backward pass of a reduce layer or intercept returns, value or error, a release build returns too, as long as the padded sizes fit in a word. The same goes for whole networks: whatever a debug build answers when it predicts, measures the loss or the accuracy, a release build answers too; so does a training step whose padded maps have sizes that fit in a word, and a network whose layers fit its inputs is trained to the very same weights by both builds on any sequence of batches. (b) Where the debug build panics on an underflow, the release build panics as well for a kernel without columns, for a cconvolution kernel more than one larger than the matrix, for up-sampling blocks more than twice as tall as their odd width, and for intercept on a network without layers. (c) In two cases the release build silently answers instead: convolution with a kernel that has columns but no rows gives a matrix of zeros with one row more than the input; fractional_upsampling with a one-row kernel gives a matrix smaller than asked which does not depend on the input at all. Consequently the backward pass of a reduce layer with a 1x1 kernel, which panics in a debug build, replaces every gradient by the same constants (zeros in exact arithmetic), two rows and two columns short per map.", "quantifier": "all word sizes, matrices, kernels, blocks, layers, networks and batches of the stated shapes, element types and arithmetic (the last clause: exact real arithmetic)", "why_tests_cant": "cargo test runs the debug profile, where these inputs panic; that every other result is unchanged quantifies over all matrices and kernels.", "anchors": ["src/math/matrix/mod.rs: Matrix::convolution, Matrix::cconvolution, Matrix::pad, Matrix::fractional_upsampling", "src/cvnn/layer/reduce.rs: compute_derivatives", "src/cvnn/network/mod.rs: intercept", "src/cvnn/layer/conv.rs: forward, compute_derivatives", "src/cvnn/network/mod.rs: forward, loss, max_pred_test, gradient_opt", "Cargo.toml"]}
{"id": "C74", "title": "The feature maps of a crop are a crop of the feature maps", "statement": "For a stack of convolutional and reduce layers, bit for bit in every float type: feeding a window of an image, starting at a multiple of the product of the block sizes and of a size that the layers accept, succeeds whenever feeding the whole image does, and gives exactly the corresponding window of the whole image's output maps. Hence two images that show the same pixels at places that differ by such multiples give the same outputs at the corresponding places (translation), and pixels outside the window an output value looks at have no influence on it (locality). With a reduce layer, other shifts are not followed: moving an image by one pixel can change every reduced value.", "quantifier": "all stacks of convolutional and reduce layers, kernels, activations, reduce functions, images, windows and offsets, and all floating-point semantics", "why_tests_cant": "all images, all offsets and all depths; exact equality of every value", "anchors": ["src/cvnn/layer/conv.rs: forward", "src/cvnn/layer/reduce.rs: foward", "src/cvnn/network/mod.rs: forward", "src/math/matrix/mod.rs: convolution, block_reduce"]}
{"id": "C75", "title": "Quantised networks compute without rounding", "statement": "Take a network whose layers fit, with no activation or RITReLU, and with the mean over blocks of 2^k numbers in its reduce layers. Suppose the input consists of multiples of 2^e, the weights of each layer are multiples of a power of two and its biases multiples of the product of that power and the power of its inputs. Suppose further that, layer by layer, the sums of the absolute values (the network run on absolute values) stay within 2^24 times the power reached (2^53 in double precision) and the powers stay away from the ends of the exponent range. Then forward in f32 (f64) returns exactly the numbers that the same network returns in real arithmetic, and they are multiples of the last power. For one dense layer of whole numbers: exact as long as the sums of absolute values do not exceed 2^24 (2^53). The bound is sharp: a unit with weight 1 and bias 1 maps 2^24 (2^53) to itself.", "quantifier": "all networks, inputs, powers and platforms' math libraries, both precisions", "why_tests_cant": "a test sees a few networks; exactness must hold for every sum a network can form", "anchors": ["src/cvnn/network/mod.rs: forward", "src/cvnn/layer: dense, conv, reduce, flatten (forward)", "src/math/cfloat/mod.rs: Add, Mul, Div", "examples/classification.rs: the mean closure"]}
{"id": "C76", "title": "A rectifier unit that is off for the data is never trained", "statement": "A dense unit with RITReLU is off at an input when both parts of its pre-activation are negative, one with ZReLU when either is. (1) A unit that is off outputs zero, and so does a filter of a convolution at a position where it is off. (2) In exact arithmetic a training step leaves the bias and all weights of a unit, in any layer, that is off for every point of the batch as they are, whatever the loss, the rate and the rest of the network; the same holds for a filter that is off at every position of every point. (3) A unit or filter of the first layer that is below zero on everything in the data therefore has the same parameters and is still off after any number of steps with any losses and rates. (4) In IEEE arithmetic every part of those parameters is the same number (zeros may change sign) or NaN, and over any number of steps the unit is unchanged and off or holds a NaN. The NaN case exists: with all parameters finite, an overflowing error at the output turns the bias of a unit that is off into NaN in one step.", "quantifier": "all networks, batches, losses, rates, numbers of steps, precisions and platforms' math libraries", "why_tests_cant": "a statement about every training run on the data, in exact and in rounded arithmetic", "anchors": ["src/cvnn/network/mod.rs: gradient_opt", "src/cvnn/layer/dense.rs: compute_derivatives, neg_conj_adjustment", "src/cvnn/layer/conv.rs: compute_derivatives, neg_conj_adjustment", "src/act/mod.rs: RITReLU, ZReLU"]}
{"id": "C77", "title": "Copies of a unit or filter are never told apart by training", "statement": "Two units of a dense layer are copies when they have the same bias and weights and every unit of the next dense layer weighs them alike; two filters of a convolution are copies when they have the same bias and kernels and every filter of the next convolution treats them alike. (1) Copies output the same number, or the same feature map, for every input. (2) After any sequence of successful training steps copies are still copies, whatever the rest of the network, the batches, the losses, the rates and the floating-point arithmetic; no rounding separates them. (3) A network of dense layers each of which starts with one weight for all entries and one bias for all entries computes, after any training, in every hidden layer a single number repeated: such an initialisation makes the width of the hidden layers useless for ever. (4) The condition on the next layer is needed: two units with the same parameters that are weighed differently differ after one step.", "quantifier": "all networks, positions, batches, losses, rates, numbers of steps, all number types (exact, f32, f64, any math library)", "why_tests_cant": "quantifies over all training runs and all arithmetics; equality of two update paths needs an invariant of the backward pass", "anchors": ["src/cvnn/network/mod.rs: gradient_opt, collect_acts", "src/cvnn/layer/dense.rs: forward, compute_derivatives, neg_conj_adjustment", "src/cvnn/layer/conv.rs: forward, compute_derivatives, neg_conj_adjustment", "src/init/mod.rs"]}
{"id": "C78", "title": "The order of the units of a hidden layer carries no meaning, until numbers are rounded", "statement": "Take a network and a dense layer that is followed by another dense layer. List the units of the first in another order and move the weights of the second along. (1) In exact arithmetic the new network gives every input the same outcome as the old one, panics included. (2) Training both networks with the same batches, losses and rates leaves them the same up to that reordering, after any number of steps. (3) In f32 this is false: an order of three units exists for which the same input gives another finite output, since the sums are rounded in the order of the units.", "quantifier": "all networks, positions of the pair of layers, reorderings, inputs, sequences of training steps (exact arithmetic); a witness in f32", "why_tests_cant": "quantifies over all reorderings, networks and training runs; a test compares two networks on one input", "anchors": ["src/cvnn/network/mod.rs: forward, gradient_opt", "src/cvnn/layer/dense.rs: forward, compute_derivatives, neg_conj_adjustment"]}
{"id": "C79", "title": "Dense layers without activation add no power: they merge into the next dense layer", "statement": "In exact arithmetic a dense layer without activation followed by a dense layer can be replaced, in any network and for every input (panics included), by one dense layer whose weights are the product of the two weight matrices, whose bias is the second layer applied to the first bias, and whose activation is that of the second. Any number of such layers in a row merge into one. With a rectifier between two layers this fails: no single dense layer without activation computes the same.", "quantifier": "all layers whose sizes chain, all networks around them, all inputs", "why_tests_cant": "equality of two networks on all inputs, for runs of layers of any length", "anchors": ["src/cvnn/network/mod.rs: forward", "src/cvnn/layer/dense.rs: forward", "src/act/mod.rs"]}
{"id": "C80", "title": "Rescaling the units of a hidden layer", "statement": "In exact arithmetic: (1) the bias and weights of each unit of a dense layer with a rectifier (RITReLU, ZReLU) or no activation can be multiplied by a positive factor of its own, and the weights the next dense layer gives that unit divided by it, without changing the outcome of any input, in any network. (2) For the activations ModZ and (on the f32 type) Cardioid, as implemented, the positive factor needs no undoing: the layer ignores the size of what it computes and keeps the direction only. (3) For the hyperbolic tangent (1) is false.", "quantifier": "all layers, positive factors, networks around them, inputs; both precisions", "why_tests_cant": "equality of networks on all inputs for a continuum of factors", "anchors": ["src/cvnn/network/mod.rs: forward", "src/cvnn/layer/dense.rs: forward", "src/act/mod.rs"]}
{"id": "C81", "title": "A convolution with kernels as large as its input is a dense layer on the flattened input", "statement": "In exact arithmetic a convolution whose kernels have the size of its input maps, followed by a flatten layer, gives the same outcome (panics included) as a flatten layer followed by a dense layer with the same biases and activation, whose weight of unit o for position ((channel * rows + row) * columns + column) is the kernel entry of filter o, that channel, row and column; whatever layers follow.", "quantifier": "all convolution layers, activations, input maps of the size of the kernels, all layers after them", "why_tests_cant": "ties the index arithmetic of three layers together for all sizes and values", "anchors": ["src/cvnn/layer/conv.rs: forward", "src/cvnn/layer/flatten.rs: foward", "src/cvnn/layer/dense.rs: forward", "src/math/matrix/mod.rs: convolution"]}
{"id": "C82", "title": "A conjugated network is the mirror image of the network", "statement": "Conjugate every parameter of a network, every number of the data and the learning rates. In exact arithmetic, with the activations None, ModZ, RITTanh and Cardioid and pooling functions that commute with conjugation: forward gives the conjugated answer (or fails in the same way), training gives the conjugated network, losses and accuracy are the same. For RITSigmoid, RITReLU and ZReLU this is false. In IEEE arithmetic (any format, any mathematical library) it holds up to the signs of zeros for None and ModZ, and for RITTanh when the library's tanh is odd and cosh even; the mean square loss and the accuracy are then the same bit for bit.", "quantifier": "all networks (dense, convolution, pooling, flatten), inputs, sequences of training steps, data sets, rates; both precisions; for the IEEE part all formats and libraries", "why_tests_cant": "a symmetry of all networks and all training runs, and of rounded arithmetic; a test samples a few and cannot tell rounding noise from a wrong sign", "anchors": ["src/cvnn/network/mod.rs: forward, gradient_opt, loss, max_pred_test", "src/act/mod.rs", "src/math/cfloat/mod.rs"]}
{"id": "C83", "title": "Real networks stay real", "statement": "A network whose parameters have no imaginary part, given data and rates without imaginary part, answers with real numbers and stays real through any sequence of training steps: in exact arithmetic for every activation except RITSigmoid (pooling functions that keep real numbers real), for which it is false (0 goes to 1/2 + i/2). In IEEE arithmetic the imaginary parts stay a zero or become NaN for None, ModZ, RITReLU, ZReLU, and for RITTanh when the library's tanh of a zero is a zero and of NaN is NaN.", "quantifier": "all networks, inputs, data sets, training runs; both precisions; for the IEEE part all formats and libraries", "why_tests_cant": "an invariant of every intermediate number of every training run", "anchors": ["src/cvnn/network/mod.rs: forward, gradient_opt", "src/act/mod.rs", "src/math/cfloat/mod.rs"]}
{"id": "C84", "title": "Where the mathematical library matters", "statement": "Two builds of the program whose mathematical libraries (exp, ln, sin, cos, tanh, cosh, atan, atan2, the sign of NaN) differ give bit for bit the same answers, the same networks after training and the same accuracy, provided they agree on the functions the network's activations call: none for None and ModZ, exp for RITSigmoid, tanh and cosh for RITTanh, the sign of NaN for RITReLU and ZReLU, sin, cos and atan2 (f32) or atan (f64) for Cardioid. The mean square loss calls none; the cross entropy exp and ln, but training with it calls none.", "quantifier": "all pairs of libraries, IEEE formats, networks, inputs, data sets, training runs", "why_tests_cant": "a test runs on one platform with one library", "anchors": ["src/act/mod.rs", "src/opt/mod.rs", "src/cvnn/network/mod.rs: forward, gradient_opt, loss, max_pred_test"]}
{"id": "C85", "title": "Matrices of real numbers compute like complex ones without imaginary part", "statement": "In exact arithmetic the operations of the generic matrix and slice code on real numbers (the four operators on single numbers and their assigning forms, convolution, matrix-vector product, addition, scalar and elementwise products, division by a non-zero scalar, pad, flip, up-sampling) fail exactly when the complex ones do on the same numbers and otherwise give the same numbers. The one difference: division by zero panics for complex and not for real numbers.", "quantifier": "all matrices, slices, scalars, block sizes", "why_tests_cant": "agreement of two instances of the generic code on all inputs of all shapes", "anchors": ["src/math/matrix/mod.rs", "src/math/mod.rs", "src/math/cfloat/mod.rs"]}
{"id": "C86", "title": "Training a linear layer finds the best weights", "statement": "In exact arithmetic, take a network whose only layer with weights is a last dense layer without activation (before it pooling and flattening only) and train it with the mean square loss and a positive rate lr such that lr times the sum over the batch of (1 + the squared length of the vector that reaches the last layer) is at most the number of points. Then every step succeeds, the loss never grows, and after T steps it is at most dist^2/(lr T (m-1)) above the loss of any other weights and biases, where dist is how far these are from the starting ones and m the number of outputs; so it tends to the smallest loss there is. If some weights solve all points of a run exactly, every step on any batch in any order brings the layer no further from them, and the losses met on the way, weighted with the rates, add up to at most dist^2/(m-1). With a rate too large for the data the loss can grow without bound.", "quantifier": "all such networks, batches, starting weights, rates below the bound, numbers of steps, and all weights compared with", "why_tests_cant": "a limit over all numbers of steps and a comparison with all possible weights", "anchors": ["src/cvnn/network/mod.rs: gradient_opt, gradient, loss", "src/cvnn/layer/dense.rs: compute_derivatives, neg_conj_adjustment", "src/opt/mod.rs"]}
{"id": "C87", "title": "Weights of an input that is always zero are never trained", "statement": "If an input of a dense layer, or a whole channel of a convolutional layer, is zero for every point of a batch, a training step leaves the weights (kernels) that belong to it as they are, in exact arithmetic. If the layer is the first one with weights (only pooling and flattening before it), whole training runs on data in which the input is always zero leave these weights at their initial values, whatever the losses, rates and batches. In IEEE arithmetic each part of these weights keeps its number (a zero may change sign) or becomes NaN, and the NaN case happens when the error overflows. So what such a network answers when the input is not zero (a border pixel that is black in all the training images) depends on the random initial weights.", "quantifier": "all networks, layers, batches, losses, rates, numbers of steps; exact arithmetic and IEEE formats of any precision", "why_tests_cant": "holds over all training histories, data and weights", "anchors": ["src/cvnn/layer/dense.rs: compute_derivatives, neg_conj_adjustment", "src/cvnn/layer/conv.rs: compute_derivatives, neg_conj_adjustment", "src/cvnn/network/mod.rs: gradient_opt, gradient"]}
{"id": "C88", "title": "A perturbed input moves the outputs by a computable amount, and a clear prediction cannot change", "statement": "In exact arithmetic, if no number of the input of a network (dense and convolutional layers without activation or with the split sigmoid, tanh or ReLU, pooling that does not amplify, flatten) is moved by more than e, no number of its output is moved by more than the value obtained by multiplying e, layer by layer, by the largest sum of moduli of the weights of one unit (of the kernels of one filter), dividing by four and adding the cut-off jump at a sigmoid. For a dense layer without activation this is attained. Hence if the output of largest modulus leads every other by more than twice that value, every input within e has the same predicted class, and the accuracy of a data set with that property is the same on every data set within e. With ZReLU there is no such bound: arbitrarily near inputs can have outputs at distance 1.", "quantifier": "all networks of fitting layers with the listed activations, all inputs, all perturbations with every entry within e, all e >= 0; both precisions' activation constants", "why_tests_cant": "It speaks about every perturbation in a ball around every input of every network; adversarial inputs are exactly those a random test does not find.", "anchors": ["src/cvnn/layer/dense.rs: forward", "src/cvnn/layer/conv.rs: forward", "src/cvnn/layer/reduce.rs: foward", "src/act/mod.rs: ComplexActFunc", "src/cvnn/network/mod.rs: forward, max_pred_test"]}
{"id": "C89", "title": "The class predicted in floating point is the exact one when it is clear", "statement": "Whenever the rounding budget of a forward pass (C69) is smaller than the lead of the winning output, the class a network predicts in f32 or f64 is the class the same network would predict with real numbers. Precisely: comparing moduli of complex floats decides correctly when the squared moduli are further apart than their own rounding (three roundings and underflow); if the exact outputs, each widened by its budget, are that far apart, the network in floating point and the network over the reals both return and predict the same class; if every input of a data set is that clear and every target is (a one-hot target is), max_pred_test in floating point returns the exact accuracy rounded once. Without a clear lead the classes can differ: the outputs 1 and 1 + i/8192, computed without any rounding, are told apart by real numbers but not in f32, where the first one is predicted.", "quantifier": "all f32 and f64 networks of dense, convolutional (None, ReLU, tanh, sigmoid), mean-pooling and flatten layers whose layers fit, all finite inputs within the headroom, all platforms whose tanh and exp have a given accuracy, all data sets of at most 2^24 (2^53) points", "why_tests_cant": "A test has no exact result to compare the predicted class with, and the claim is about all weights and inputs with a given margin.", "anchors": ["src/cvnn/network/mod.rs: max_pred_test, forward", "src/math/cfloat/mod.rs: PartialOrd", "src/cvnn/layer/dense.rs: forward", "src/cvnn/layer/conv.rs: forward"]}
{"id": "C90", "title": "A training step is all or nothing", "statement": "If a training call panics (a point of the wrong size anywhere in the batch, a target that does not fit, a loss that panics, a derivative that panics), the network that the caller still holds after catching the panic is exactly the network before the call: no layer has been moved by part of a batch. A loop over batches that dies leaves the network exactly as training on the batches before the offending one does.", "quantifier": "for every float type, every network with full weight matrices and kernels (all that the constructors build and training makes of them), every batch or list of batches, well formed or not, every loss and every rate", "why_tests_cant": "There is one panic site for every point, layer and check, and a partly updated network shows only if the panic falls between the updates of two layers; a test sees the sites it provokes, not that there are none between the first write and the last.", "anchors": ["src/cvnn/network/mod.rs: gradient_opt", "src/cvnn/layer/mod.rs: neg_conj_adjustment", "src/cvnn/layer/dense.rs: neg_conj_adjustment", "src/cvnn/layer/conv.rs: neg_conj_adjustment"]}
{"id": "C91", "title": "The numbering of input features and of classes carries no meaning, until outputs tie", "statement": "Listing the input features, the units of the layers or the classes in another order, with the weights, the inputs and the targets moved along, changes nothing: in exact arithmetic the outputs are the same in the new order, training on the reordered data yields the reordered trained network after any number of steps, the reported loss is the same, and so is the reported accuracy as long as no output and no target has two largest entries. Renaming only the classes changes no bit of an output in floating point either. With a tie the accuracy does depend on the order of the classes: the first of the largest entries wins.", "quantifier": "for every network whose reordered places lie between dense layers (any layers elsewhere), every renumbering of features, of units and of classes, every batch and list of training steps, both losses, every rate; the statement about bits for every float type", "why_tests_cant": "A test fixes one order of features and classes; that no order is special is a statement about all permutations of all networks and all training histories, and the exception (a tie) has measure zero among random test data.", "anchors": ["src/cvnn/layer/dense.rs: forward", "src/cvnn/layer/dense.rs: compute_derivatives", "src/cvnn/network/mod.rs: gradient_opt", "src/cvnn/network/mod.rs: loss", "src/cvnn/network/mod.rs: max_pred_test", "src/opt/mod.rs: compute_d_cf64"]}
{"id": "C92", "title": "A unitary change of the input basis, such as a Fourier transform, changes nothing that is learnt", "statement": "With exact arithmetic, feeding a network whose first layer is dense the inputs U x instead of x, for a unitary U, with the first layer's weights multiplied by the conjugate transpose of U, gives the same outputs, loss and accuracy. Training it with real learning rates on the transformed inputs gives exactly the trained network with its first weights transformed, for any number of steps. The discrete Fourier transform of every length is such a U. Rescaling one feature is not: a network with a doubled feature and a halved weight predicts the same, and one step later does not. With a complex rate the claim fails too, because of the in-place product.", "quantifier": "every input length, every unitary table, every dense first layer, all layers behind it, all inputs, batches, losses, real rates and numbers of steps", "why_tests_cant": "it is an equivariance over a continuum of transforms, networks and training runs; in floats both sides differ by rounding, so a test can neither cover nor exactly check it", "anchors": ["src/cvnn/network/mod.rs: CNetwork::gradient_opt, CNetwork::forward, CNetwork::loss, CNetwork::max_pred_test", "src/cvnn/layer/dense.rs: DenseCLayer::forward, DenseCLayer::compute_derivatives, DenseCLayer::neg_conj_adjustment", "src/math/cfloat/mod.rs: MulAssign"]}
{"id": "C93", "title": "Training towards transformed targets is the same training, for a unitary transform and a linear last layer", "statement": "With exact arithmetic, multiplying the weights and biases of a linear last layer by a table V multiplies the outputs by V. When V is unitary, training with real rates towards the targets V t gives exactly the trained network with its last layer multiplied by V, all other layers being equal, for any number of steps and for both losses; the reported mean square loss is the same number. The accuracy is not: a rotation of outputs and targets turns a right prediction into a wrong one.", "quantifier": "every output length, every unitary table, every network with a linear dense last layer, all inputs, targets, batches, losses, real rates and numbers of steps", "why_tests_cant": "it is an equivariance over a continuum of transforms, networks and training runs; in floats both sides differ by rounding, so a test can neither cover nor exactly check it", "anchors": ["src/cvnn/network/mod.rs: gradient_opt, forward, loss, max_pred_test", "src/cvnn/layer/dense.rs: forward, compute_derivatives, neg_conj_adjustment", "src/opt/mod.rs: compute_d_cf64"]}
{"id": "C94", "title": "Without activations a network is one affine map, however deep", "statement": "In exact arithmetic a network of dense and convolutional layers without activation, pooling layers that take a weighted sum of each block (the mean included) and flatten layers maps every mixture s x + (1 - s) y of two inputs to that mixture of their two outputs, for every complex s; one dense layer without activation computes the same function as the whole network. So no such network with two inputs and one output, however deep and however long it was trained, computes the exclusive or, while one hidden layer of two rectifier units can.", "quantifier": "for all networks of such layers whose geometries fit, all inputs, all complex mixing weights, and all training histories", "why_tests_cant": "a test evaluates particular networks; that depth adds nothing and that no training history can succeed is about every network and every history", "anchors": ["src/cvnn/network/mod.rs: CNetwork::forward, CNetwork::gradient_opt", "src/cvnn/layer/dense.rs: DenseCLayer::forward", "src/cvnn/layer/conv.rs: ConvCLayer::forward", "src/act/mod.rs: ComplexActFunc::None"]}
{"id": "C95", "title": "A dense network with enough hidden units can learn any consistent training set by heart", "statement": "In exact arithmetic, for every finite set of (input, target) vector pairs in which no input occurs twice, there are parameters for a dense network with one hidden layer of as many RITReLU units as there are samples, and a linear output layer, such that the network gives every target exactly. With two or more outputs its mean squared loss on the set is 0, its accuracy 1, and a training step on any non-empty batch of these samples, with either loss function and any real rate, succeeds and leaves the network as it is. No network of any kind fits a set in which one input has two different targets.", "quantifier": "for all finite training sets of complex vectors, all batches drawn from them, both loss functions and all real rates", "why_tests_cant": "a test trains on one data set and may or may not reach a small loss; that exact parameters exist for every consistent data set is not a matter of samples", "anchors": ["src/cvnn/network/mod.rs: CNetwork::forward, CNetwork::loss, CNetwork::max_pred_test, CNetwork::gradient_opt", "src/cvnn/layer/dense.rs: DenseCLayer::forward", "src/act/mod.rs: ComplexActFunc::RITReLU"]}
{"id": "C96", "title": "In floating point a step with nothing to do changes no parameter", "statement": "In f32 and f64 arithmetic, training steps with a learning rate of zero (of either sign, in both parts) leave every weight and every bias the number it was, whatever the batches, the losses and the number of steps; so does a step at any rate on a batch whose targets are exactly, to the last bit, what the network answers. The only other thing that can happen to a parameter is that it becomes NaN, and that does happen: with finite parameters, finite data and a rate of zero a gradient that overflows turns a weight into NaN.", "quantifier": "for every network with complete weight tables, every batch or sequence of batches, loss function and number of steps, every IEEE format and every implementation of the elementary functions", "why_tests_cant": "A test steps a few networks with a rate of zero and finds them unchanged; it neither covers all networks and all signs of zero nor meets the overflow that turns a weight into NaN.", "anchors": ["src/cvnn/network/mod.rs: CNetwork::gradient_opt", "src/cvnn/layer/dense.rs: DenseCLayer::neg_conj_adjustment", "src/cvnn/layer/conv.rs: ConvCLayer::neg_conj_adjustment", "src/math/cfloat/mod.rs: Complex Mul, MulAssign, Sub"]}
{"id": "C97", "title": "Training in floating point stalls, with success reported, when the steps are too small", "statement": "In f32 and f64 arithmetic, if the change that a training step would subtract from each part of each parameter is at most a quarter unit in the last place of that part (its size times 2^-(precision+2); +0 for a part that is zero), the step returns exactly the network it was given, reports success, and repeating it any number of times never changes anything, however large the gradient is. In exact arithmetic no step is too small: with a real rate other than zero and one gradient other than zero the network does change.", "quantifier": "for every network of two or more layers with complete weight tables, every batch, loss and rate, every number of repetitions, every IEEE format and every implementation of the elementary functions", "why_tests_cant": "That no number of repetitions helps is a statement about unboundedly many steps; the bound has to hold for every network, batch and rate.", "anchors": ["src/cvnn/network/mod.rs: CNetwork::gradient_opt", "src/cvnn/layer/dense.rs: DenseCLayer::neg_conj_adjustment", "src/cvnn/layer/conv.rs: ConvCLayer::neg_conj_adjustment", "src/math/cfloat/mod.rs: Complex Sub"]}
{"id": "C98", "title": "Rounding in a training step stays within a computable bound", "statement": "In single and double precision, the gradient that gradient_opt computes for one example, in a network of dense layers without activation or with rectifiers, differs from the chain rule, evaluated exactly at the activations of the forward pass, by at most a bound that follows from the sizes of the weights, activations and errors: every layer the gradient passes back through adds as many roundings as it has units, plus five. The gradient of a batch of m examples differs from the exact sum of the gradients of its examples by at most m roundings of the sum of their absolute values. A step with a real rate moves every parameter v to v - s conj(g), s being the computed quotient of the rate and the number of examples, up to three roundings of |v| + |s g|. All this as long as no bound reaches the overflow threshold; then no error is reported, nothing panics, and every number is finite.", "quantifier": "for all such networks, inputs, targets, batches, rates and both losses, within the overflow bounds", "why_tests_cant": "A test compares one run with one reference value and a tolerance chosen by hand; the bound is for every network and every batch, and says how the tolerance has to grow with width, depth and batch size.", "anchors": ["src/cvnn/network/mod.rs: gradient_opt", "src/cvnn/layer/dense.rs: compute_derivatives", "src/opt/mod.rs: d_mean_sq_loss_cf32, d_mean_sq_loss_cf64", "src/cvnn/layer/dense.rs: neg_conj_adjustment"]}
{"id": "C99", "title": "Continuous functions of one variable can be approximated", "statement": "In exact arithmetic, for every curve of M complex coordinates that depends continuously on one real number in a closed interval, and every tolerance, there are a width and parameters for a dense network with one input, one hidden layer of rectifier (RITReLU) units and M outputs without activation that gives every coordinate of the curve within the tolerance, in the real and in the imaginary part, at every point of the interval. If both parts of every coordinate change at most L times as fast as the input, H hidden units suffice for an error of L (b - a) / H. The rectifier is needed: a network of layers without activation, however deep, is off by at least 1/2 somewhere when it should give the absolute value on [-1, 1], and one such network is off by no more.", "quantifier": "for all continuous curves, intervals, tolerances, numbers of outputs; for all networks without activations", "why_tests_cant": "The claim is that parameters exist for every one of uncountably many functions and that the error is small at every point of the interval, and that no parameters exist for the others; tests only see finitely many functions, points and parameters.", "anchors": ["src/cvnn/network/mod.rs: forward", "src/cvnn/layer/dense.rs: forward", "src/act/mod.rs: RITReLU"]}
{"id": "C100", "title": "Rectifier networks approximate every continuous function of several complex variables", "statement": "In exact arithmetic, for every N >= 1 and M >= 1, every M functions of N complex variables that are continuous on a box, and every tolerance, there is a dense network of N inputs and M outputs, with rectifier (RITReLU) units in all hidden layers and no activation in the last, whose outputs are within the tolerance of the functions, in the real and in the imaginary part, at every point of the box. The functions need not be complex differentiable: conjugation and moduli are among them. Continuity is needed: no such network, however wide and deep, comes closer than 1/2 to the step from 0 to 1.", "quantifier": "for all N, M, boxes, continuous functions, tolerances; for all rectifier networks", "why_tests_cant": "The claim is that parameters exist for every continuous function and that the error is small at every point of a continuum; tests only see finitely many functions, points and parameters.", "anchors": ["src/cvnn/network/mod.rs: forward", "src/cvnn/layer/dense.rs: forward", "src/act/mod.rs: ritrelu_cf32, ritrelu_cf64"]}
{"id": "C101", "title": "Single and double precision agree", "statement": "Moving a trained network from f32 to f64, by converting every parameter and every input (which changes no number), changes its outputs by at most twice the rounding budget of the f32 pass (C69), in either part, and both passes return finite numbers; only the f32 pass needs room below the overflow threshold. Where the class is clear in f32 (C89) the f64 network predicts the same class, and on a data set whose points and targets are all clear max_pred_test returns the same fraction, rounded once in either precision. Without a clear lead the two precisions can predict different classes, and without room f32 returns infinities where f64 returns finite numbers. Sigmoid layers are excluded: the two precisions cut the sigmoid off at different points.", "quantifier": "all networks of dense, convolutional (no activation, ReLU, tanh), mean-pooling and flatten layers with finite f32 parameters whose layers fit, all finite f32 inputs within the headroom, all platforms whose tanh has a stated accuracy that is no worse in f64, all data sets of 1 to 2^24 points", "why_tests_cant": "A test compares the precisions on a few networks; this bounds the difference for every network and input, and names the inputs at which classes may flip.", "anchors": ["src/cvnn/network/mod.rs: CNetwork::foward, CNetwork::max_pred_test", "src/cvnn/layer/dense.rs: DenseCLayer::forward", "src/cvnn/layer/conv.rs: ConvCLayer::forward", "src/math/cfloat/mod.rs: impl_complex_number"]}
{"id": "C102", "title": "Training with small steps keeps the balance between the weights going into a unit and the weights going out", "statement": "In exact arithmetic, take two dense layers that follow each other in a network, the first with the identity, the rectifier or the quadrant rectifier as activation. For every batch and every unit of the first layer, the gradient is balanced: the sum of weight times gradient over the weights and the bias going into the unit has the same real part as the sum of weight times gradient over the weights with which the next layer reads the unit. For the identity and the quadrant rectifier the two sums are equal as complex numbers. It follows that a training step with a real rate changes the excess of the unit (squared moduli going in minus squared moduli going out) by exactly the square of the rate per example times the excess of the gradient; and that over any number of steps the excess moves by at most the bound on the gradient excess times the total rate times the largest rate, so that it is kept as the steps get small. With a sigmoid the gradient is not balanced, and with the rectifier the imaginary parts of the two sums can differ.", "quantifier": "for all networks with two adjacent well-formed dense layers at any position, all other layers, all batches, both losses, all units, all real rates, and all sequences of training steps", "why_tests_cant": "The law is an identity between sums of products in the gradient, exact only over the reals, and the drift bound is about training runs of every length; a test sees one run with rounding, where the excess moves slightly in any case.", "anchors": ["src/cvnn/network/mod.rs: gradient_opt", "src/cvnn/layer/dense.rs: compute_derivatives, neg_conj_adjustment", "src/act/mod.rs: ritrelu_cf32, d_ritrelu_cf32, d_conj_ritrelu_cf32, zrelu_cf32, d_zrelu_cf32"]}
{"id": "C103", "title": "A small loss bounds the error rate of a classifier", "statement": "In exact arithmetic, let a network return m numbers on every input of a non-empty dataset whose targets are one-hot vectors as gen_pred makes them. Then loss and max_pred_test both return, and the share of wrongly classified points (one minus the accuracy) is at most 2(m-1) times the reported mean-square loss, and at most the reported cross entropy divided by ln 2. In particular no point is classified wrongly once the number of points times the loss is below 1/(2(m-1)) or ln 2. Both bounds are attained by a network that is wrong everywhere. In the other direction, a network without an error has a cross entropy of at most ln m, but its mean-square loss can be as large as one likes.", "quantifier": "for all networks of any layers, all numbers of classes (at least two for the mean square), all non-empty sets of inputs and all class assignments", "why_tests_cant": "The bound links two reported numbers over every possible vector of predictions; a test sees finitely many predictions, far from the ties and the extreme vectors where a wrong factor would show.", "anchors": ["src/cvnn/network/mod.rs: loss, max_pred_test", "src/opt/mod.rs: mean_sq_loss_cf32, mean_sq_loss_cf64, norm_ce_loss_cf32, norm_ce_loss_cf64", "src/math/mod.rs: Complex::gen_pred"]}
{"id": "C104", "title": "Numbers measured batch by batch say what the whole set would", "statement": "In exact arithmetic, the loss and the accuracy of a network on a set of points cut into non-empty batches are the means of the numbers of the batches, each counted with the size of its batch; a batch that panics makes the whole panic. With batches of one size this is the plain mean that the example programs report; with batches of different sizes the plain mean differs from the number of the whole set. The test pass of the classification program therefore reports exactly the loss and the accuracy on the set of the images it reads, and leaves the network unchanged. Run in single precision, the accuracy it reports is finite and differs from the share of the images that get their label by the rounding of (batches + 2) operations only: for 10000 images in batches of 100 by at most 1/100000.", "quantifier": "for all networks whose layers fit the images, all loss functions, all numbers and sizes of batches with at most 60000 images in all, all contents of the image and label files, all libm functions (single precision)", "why_tests_cant": "The claim is about every network and every content of the files; a test compares the two numbers on the data it has, and cannot tell a rounding error from a systematic one.", "anchors": ["examples/classification.rs: _test_pipeline, _train_pipeline, class_pipeline", "src/cvnn/network/mod.rs: loss, max_pred_test", "src/dataset/mod.rs: minist_as_complex_batch"]}
{"id": "C105", "title": "The level at which the cross entropy of a trained classifier stops", "statement": "In exact arithmetic, for a network with m outputs and one-hot targets, the reported cross entropy C and the reported mean-square loss L of any dataset are tied together: |C - ln(1 + (m-1)/e)| is at most 4 sqrt((m-1)L) + 2(m-1)L. A network that returns the targets themselves therefore reports the cross entropy ln(1 + (m-1)/e), not zero. Training with the cross entropy follows the mean-square gradient (C36), so for a linear last layer that could return the targets, at a small enough rate, the reported cross entropy tends to this level. Hence training with the cross entropy need not make it small: a network that classifies its data without error can have its cross entropy raised more than fivefold by such training, at any rate up to 1.", "quantifier": "for all networks, numbers of classes m >= 2, datasets with one-hot targets; for the limit all networks of pooling and flatten layers with a linear last layer, all starting weights, all rates below the bound, all numbers of steps from some point on", "why_tests_cant": "The level is a limit over unboundedly many training steps and a bound over all possible predictions; a test sees a curve flatten out and cannot tell a floor from slow learning.", "anchors": ["src/opt/mod.rs: norm_ce_loss_cf32, norm_ce_loss_cf64, d_norm_ce_loss_cf32, d_norm_ce_loss_cf64", "src/cvnn/network/mod.rs: loss, gradient_opt", "src/math/mod.rs: Complex::gen_pred"]}
{"id": "C106", "title": "The step on a training set and the steps on its mini-batches", "statement": "In exact arithmetic, take a training set and a family of non-empty batches in which every point of the set turns up equally often (a cut of the set into batches, all its rotations, all its subsets of a size, ...). From one and the same network, the training step on the whole set moves every parameter by the mean of the moves of the steps on the batches, each batch counted with its size, and it panics exactly when one of these steps does. When the batches have one size the plain mean will do, so mini-batches of one size are an unbiased stand-in for the whole set; with batches of different sizes (a shorter last batch) the plain mean is wrong at every rate but zero. Replacing one of N points of a batch changes every parameter after the step by exactly 1/N of the difference between what the two points do on their own.", "quantifier": "for all networks of at least two layers whose layers hold a full set of weights, all losses, real rates, training sets, families of batches and multiplicities; every parameter", "why_tests_cant": "The statement ranges over all networks, all training sets and all ways of drawing batches from them; tests run a few fixed cuts and see rounding noise.", "anchors": ["src/cvnn/network/mod.rs: gradient_opt", "src/dataset/mod.rs: Dataset, points_as_iter, minist_as_batch"]}
{"id": "C107", "title": "Testing on every batch before training on it: only finitely many errors", "statement": "In exact arithmetic, take a network of pooling and flatten layers with a linear last layer, feed it batches one after the other, measure it on each batch before training on it (with either loss, at a rate small enough for the data), and suppose some weights of the last layer would solve every batch. Then, whatever the order and the number of the batches, the mean-square losses so measured add up to at most dist^2/((m-1) rate), where dist is the distance from the starting weights to the solving ones; the error rates so measured add up to at most 2 dist^2/rate; at most 2 N dist^2/rate batches are met with any error if no batch has more than N points; and on an endless stream there is a step from which every new batch is classified without error before the network has seen it. Without solving weights there is no such end: a batch that shows one input with two classes is met with accuracy 1/2 by every network.", "quantifier": "for all such networks, starting weights, solving weights, losses, rates below the bound, finite lists and endless streams of batches", "why_tests_cant": "The bounds hold for adversarial streams of any length, chosen with knowledge of the network; a test replays a few finite streams.", "anchors": ["src/cvnn/network/mod.rs: gradient_opt, loss, max_pred_test", "src/opt/mod.rs: mean_sq_loss_cf32, mean_sq_loss_cf64, d_mean_sq_loss_cf32, d_norm_ce_loss_cf32", "examples/classification.rs: training loop (max_pred_test, then gradient_opt on the same batch)"]}
{"id": "C108", "title": "Data that determine the weights make training fast, and training stops at the best weights and nowhere else", "statement": "Take a network whose only trained layer is a linear dense layer behind pooling and flattening layers, and train it on one batch with the mean-square loss. (1) A step with any rate but nought gives back the same network exactly when no other linear layer has a smaller loss on the batch: training has no other resting place. (2) If the data tell all units apart by mu (the mean squared answer of a unit over the points is at least mu times the squared length of its weights and bias), then with a small enough rate the squared distance to the best weights is, after T steps, at most (1 - rate mu)^T times what it was, and the loss exceeds the smallest possible one by at most that distance over rate (outputs - 1). The targets may contradict each other: the smallest loss need not be nought. (3) For mu above nought, best weights exist and are unique, and from any start training ends up as close to them as one likes. (4) Without such a mu the distance need not shrink: two layers that both solve the data, of which training never moves the one.", "quantifier": "all networks of that kind, all batches with targets of the right length, all starting weights, all rates up to the bound, all numbers of steps, all mu; exact real arithmetic", "why_tests_cant": "The speed and the resting places are statements about all starting weights, all data and any number of steps, compared with the best of infinitely many layers.", "anchors": ["src/cvnn/network/mod.rs: gradient_opt, gradient, loss", "src/cvnn/layer/dense.rs: compute_derivatives, neg_conj_adjustment", "src/opt/mod.rs: mean_sq_loss_cf32, mean_sq_loss_cf64, d_mean_sq_loss_cf32"]}
{"id": "C109", "title": "Two training runs on the same data never drift apart, and forget where they started", "statement": "Take two networks that differ only in the weights and biases of their linear last layer, behind pooling and flattening layers, and train both on the same batches in the same order with the mean-square loss and the same rates, each small enough for its batch (rate times the sum over the points of one plus the squared length of the features is at most the number of points). (1) The squared distance between the two layers never grows, whatever the batches and their order. (2) A batch whose points tell all units apart by mu takes the factor 1 - rate mu off the squared distance, so that over a run it is at most the product of these factors times what it was at the start: the initial weights are forgotten. (3) The answers of the two trained networks to any input differ by at most that, times one plus the squared length of the features of the input. (4) With a rate too large for the data a single step can drive the two apart.", "quantifier": "all networks of that kind, all pairs of starting weights, all runs of batches and rates under the bound, all inputs; exact real arithmetic", "why_tests_cant": "Whether a difference in the initial weights can ever be amplified is a statement about all pairs of starts and all sequences of batches; a test sees a few pairs of runs.", "anchors": ["src/cvnn/network/mod.rs: gradient_opt, gradient, forward", "src/cvnn/layer/dense.rs: forward, compute_derivatives, neg_conj_adjustment", "src/opt/mod.rs: d_mean_sq_loss_cf32, d_mean_sq_loss_cf64"]}
{"id": "C110", "title": "Disturbed training steps do not build up, and one example has limited weight", "statement": "Take a network whose only trained layer is a linear last dense layer (with at least two outputs for the claims that involve mu), the mean-square loss, and rates small enough for the batches. If something moves the layer after every step (rounding, a weight written by hand), the run ends no further from the undisturbed run than it started plus the sum of all disturbances. If the data tell all units apart by mu, disturbances of at most e per step leave the layer within 2 e / (rate mu) of the best one however many steps are made, up to a start that is forgotten. Two training sets of N examples that differ in one example give, after any number of steps from the same start, layers that differ by at most 2 B / (N mu), where B bounds how hard the two examples pull at the layer along the run; the best layers of the two sets, and their answers to any input, differ by as little. On data that do not tell all units apart disturbances can pile up without end.", "quantifier": "every such network, every list of batches and rates, every start, every way to disturb the steps within the bounds, every number of steps, every pair of training sets differing in one example, every input, exact arithmetic", "why_tests_cant": "A test disturbs or swaps a few runs of a few steps; the bound must hold for every disturbance, for every number of steps and for every pair of training sets.", "anchors": ["src/cvnn/network/mod.rs: gradient_opt, gradient, forward", "src/cvnn/layer/dense.rs: forward, compute_derivatives, neg_conj_adjustment", "src/opt/mod.rs: d_mean_sq_loss_cf32, d_mean_sq_loss_cf64"]}
