# Formal model of stdnn-ops: design

## 1. What is modelled

The code under `/repo/include/ttl/nn` (and `/repo/include/experimental`) is
modelled as total, computable Gallina functions over an explicit memory.

* **Memory** (`Base.v`).  A state maps locations (block, element offset) to
  `Unmapped | Uninit | Init v` and holds the next free block number.  A
  computation returns `Ok value state`, `Throw exception state` or `UB`.
  Reading an unmapped or uninitialised cell and writing an unmapped cell is
  `UB`.  So every theorem that concludes `Ok` is also a memory-safety and
  initialisation theorem, and every theorem carries a frame condition (which
  cells may change).
* **Tensors** are (block, base offset, dimension list); references and views
  may alias.  Row-major layout (assumption on stdtensor, see section 3).
* **Scalars** are an arbitrary type with a record of operations and *no laws*.
  Forward-kernel theorems give the exact value including the order of
  evaluation, so they hold for float, double and integers alike.  Algebraic laws
  (commutative ring) are hypotheses only where the English claim needs them
  (adjointness, engine equivalence, layout equivalence).  Analytic claims
  (softmax, cross entropy) are over Coq's reals.
* **Dimension arithmetic** is modelled with the C++ wrap-around of `uint32_t`
  or the undefined overflow of `int32_t`; the theorems have explicit
  no-overflow guards and the unguarded claims are refuted.
* **Loops** are folds in the same nesting order as the code.

## 2. Plan per property

See `properties.jsonl` for the English text.  Model files cite the C++ lines
they render; `*Spec.v` files hold the vocabulary of the statements; `*Facts.v`
the proofs; `Props*.v` the theorems, a concrete case beside each, and
`Print Assumptions`.

| id | model (file) | how proved |
|----|-------|-------|
| C01-C03, C07 | filter.hpp, padding.hpp, linear_sample.hpp over uint32_t and int32_t (`Traits.v`) | arithmetic (lia/nia) under no-overflow guards |
| C04, C05 | valid_padding, same_padding (`Traits.v`) | modular arithmetic |
| C06, C08 | same | exact characterisation; the unconditional claims refuted by a witness |
| C09 | trait_algo.hpp (`Traits.v`) | computation |
| C10 | transpose.hpp (`Transpose.v`) | assignment-loop lemma |
| C11, C12 | im2col.hpp (`Conv.v`) | assignment-loop lemma with nested indices; int conversion of the table |
| C13-C15 | col2im.hpp (`Conv.v`) | accumulation-loop lemma; exchange of finite sums |
| C16-C19 | conv2d.hpp, conv2d_trait.hpp (`Conv.v`, `Traits.v`) | composition of C11/C12 and C23 |
| C20 | gradients/conv2d.hpp (`Conv.v`) | composition of C13/C14, C23 and bilinearity |
| C21, C22, C69 | conv1d, im2col1d, col2im1d with mixed int32_t/uint32_t arithmetic (`Conv1d.v`) | as above; wrap-around characterised |
| C23, C24 | plain_impl.hpp (`LinAlg.v`) | accumulation-loop lemma |
| C25 | cblas_impl.hpp argument computation against a specification of gemm/gemv (`LinAlg.v`) | row-major addressing |
| C26, C29, C31 | gradients/*.hpp (`Elem.v`) | finite-sum exchange; `is_vjp` of `GradSpec.v` |
| C27, C28, C30, C32, C41, C42 | elementary, activation, bias, bn, concat, reduce (`Elem.v`) | assignment-loop lemma with aliasing |
| C33-C36, C74 | softmax, xentropy over R (`Activation.v`) | real analysis (Coquelicot derivatives); in-place softmax characterised, the safe-in-place claim refuted |
| C37-C40 | pool.hpp (`Pool.v`) | windows; padding drop, integer mean, empty windows refuted |
| C43, C44 | summary.hpp, reduce.hpp (`Summary.v`) | list folds |
| C45-C49, C70 | utility.hpp (`Utility.v`) | loops, insertion sort, integral conversion |
| C50-C52 | hash.hpp (`Hash.v`) | bit-level reasoning on Z |
| C53-C55 | kernels/cpu/io.hpp on byte streams (`Io.v`) | list reasoning; truncation characterised |
| C56-C58, C71 | io_tar.hpp on byte strings (`Io.v`) | list reasoning with a fuel-indexed loop; non-termination and overflow characterised |
| C59, C60 | namescope.hpp (`Namescope.v`) | induction on user programs |
| C61-C63, C72, C73 | sequential.hpp, layers/*.hpp (`Layers.v`) | heap model with new blocks; leaks characterised |
| C64, C65 | init.hpp (`Init.v`) | fill loop; random stream with fuel |
| C66, C68 | std_function.hpp, shape_algo.hpp, gradient shapes (`Shapes.v`) | lists |
| C67 | reshape.hpp and its gradient (`Reshape.v`) | mixed-radix indices |
| C75 | train_slp_model's loop body (`Train.v`) | kernel theorems composed over an environment of disjoint variables; chain rule with Coquelicot; a witness refutes monotone descent |
| C76-C78 | load_data, train_slp_model, accuracy, test_slp_model (`Train.v`) | composition, induction over batches; local tensors by a general scoping lemma |
| C79 | constructors of pool_trait, conv_trait, multi_linear_sample_trait (`Traits.v`) | from C01, C19 and C37 |
| C80 | vgg16_model, with_init (`Vgg.v`) | induction over blocks and hidden layers from C61, C62, C72, C33, C48 |
| C81-C82 | load_mnist_data, load_class_names, read_example_image (`Examples.v`) | composition of C53-C55 and C31; induction over lines |
| C83 | example_vgg16 with local layers, the main functions (`Examples.v`) | a general lemma on layers in scope, then as C80; `C83_files` shows that the hypotheses can be met |
| C84 | the operators at `Fsc prec emax` (`Float.v`) | the usual error analysis, from Flocq's correctness of each operation, by induction over the sum; exactness on integers |
| C85 | same | case analysis on IEEE values; comparison as comparison of extended reals |
| C86 | as C16, C17, C26, C30, C32, C33, C38, C47, C80 | the value theorems, whose right hand side mentions one image only; uniqueness of the list of largest entries |
| C87 | invoke, concat layers (`Invoke.v`) | from the facts on fresh tensors of C62, C63 and the kernels of C41 |
| C88 | the operators at integer scalars (`IntScalar.v`) | the value theorems C16, C17, C26, C27, C42; induction over the sum |
| C89 | as C16, C17, C30, C32 | the value theorems for both layouts at once (`ConvAlgSpec.v`), equal summands, reindexing of ring sums |
| C90 | as C33, C36, C45, C47, C48 run in sequence | composition of the value theorems; real analysis in `PredictFacts.v`; IEEE special cases |
| C91 | as C75 | `lse` (log of a sum of exponentials) is convex and 1/2-smooth in the scores (`ConvergeFacts.v`); Cauchy-Schwarz over the batch; induction over the steps with `train_step_ok` |
| C92 | all operators as in the other rows, without any relation between the operands | framing rules for each construct of the memory monad (`SafeFacts.v`): only cells in a given set change; what remains is that each store address lies in the output; overruns by computation |
| C93 | as C16-C20, C35, C38, without separation of the operands named | the kernels read the operand into a temporary before writing, or read each row, image or window before the place of its result; for pools an order-aware loop rule (`AliasFacts.v`): only places of earlier results have changed; wrong results by computation |
| C94 | as C37, C38, the four layouts under one name (`PoolAlgSpec.v`) | each output is `pooled` of the list of seen values (`pool_result`); greatest elements of sets; windows of windows along an axis; sums over products of ranges; relu against the scan for the maximum |
| C95 | as C23-C26, C45, C62, the three products under one name (`MatAlgSpec.v`) | each product is a sum in increasing order of the inner index; sum algebra of `SumFacts.v`; dense layers by C62; counterexamples by computation |
| C96 | `Programs.v`: examples/utils.hpp, example_1.cpp, example_ops.cpp, example_mlp.cpp and example_layer_mlp.cpp statement by statement; a local tensor lives to the end of its block, what is put into it is a parameter | `ProgramsFacts.v`: rules for programs built from local tensors and layers (`ends`), each step by the theorem of its operator or layer; uninitialised reads by a loop rule (`for_ub`): every step is undefined or keeps the invariant and some step is undefined |
| C97 | `Tests.v`: the parametric unit tests of tests/ statement by statement; an assertion contributes a boolean to the result of the test | `TestsFacts.v`: a small logic for programs with local tensors (`runs`: each local has a shape and possibly known contents), each step by the theorem of the operator under test, each assertion by the contents known at that point; counting windows for the 1-D folds |
| C98 | as C13, C16, C20; calls of the gradients, dual traits and coverage counts in `ConvDualSpec.v` | `ConvDualFacts.v`: the input gradient as a sum over taps of what the taps see, one window per tap and pixel, sums reversed; counts as integer sums |
| C99 | as C16, C17, C30; stacked filters in `ConvStackSpec.v` | exchange of the sums over taps, picks of the landing tap; the intermediate result is in range because the second convolution does not pad |
| C100 | as C27, C32, C37, C42, C43, C62 over the scalar type of `Float.v`; error bounds in `FloatSumSpec.v` | `FloatSumFacts.v`: induction over the sum with Flocq's error bounds for one operation (additions never underflow); `FloatNormFacts.v`: square roots never underflow, relative errors of a quotient; monotonicity of rounding |
| C101 | as C33, C36 over the scalar type of `Float.v`; exp and log parameters with a relative accuracy (`FloatSoftSpec.v`) | `FloatSoftFacts.v`: error of one exponential, of the sum of positive terms, of the quotient; C84's bound for sums of products |
| C102 | as C30, C32, C33, C36, C37, C16, C23, C43, C45; reorderings in `PermSpec.v` | two runs compared cell by cell; sums over a reordered range (`sum_perm`) |
| C103 | as C20, C26, C29, C31, C35, C36, C43 over the scalar type of `Float.v`; bounds in `FloatGradSpec.v` | `FloatGradFacts.v`: sums of approximations; the variance via sum (x-m')^2 = n (v + (m'-m)^2) |
| C104 | `Mixed.v`: conversions between float, double and integers, relu_scalar, the pixel function; softmax as in C85 | `MixedFacts.v`: Flocq's double rounding theorems (53 >= 2 * 24 + 2) with signs, overflow and special values added; finite checks over the 256 pixels; exact sums of ones |
| C105 | `Backprop.v`: the calls for a list of layers, the operators being those of C16, C20, C26-C31, C33, C35, C36, C67; `BackpropSpec.v`: function of a network, gradient by directional derivatives | `BackpropFacts.v`: the derivative of each layer along curves; `BackpropRun.v`: induction over the list of layers with an invariant on the contents of the tensors |
| C106 | the forward calls of `Backprop.v`, pooling, softmax with cross entropy, argmax; `StableSpec.v`: distance of two tensors, factor of a layer | `StableFacts.v`: the forward calls for any element type; sums of products under perturbation; softmax by the mean value theorem; induction over the layers |
| C107 | the forward calls of `Backprop.v` at the scalar type of C84; `NetFloatSpec.v`: magnitude, roundings and error bound of a network | `NetFloatFacts.v`: one layer from C84, C100, C101, induction over the layers with the factors of C106; argmax of finite numbers |
| C108 | `Blas.v`: gemm with the value of an entry left to a function, and its callers; `BlasSpec.v`: the values that can be reached by rounded additions and fused multiply-adds | `BlasFacts.v`: the callers write some value of the sum of the right products; induction over the tree of additions; networks as in C107 |
| C109 | the VGG models of C80 over the floats of C97; `VggFloatSpec.v`: the parameters of the layers in the order of the calls and the bounds they give | `VggFloatFacts.v`: one step per kind of layer (value, size, distance from the exact value), induction over the layers of a block, the blocks and the hidden layers; the list by C79 with the order of the computed numbers |
| C110 | the training loop of C75-C77 over the floats of C97, with any std::exp and std::log; `TrainFloatSpec.v`: sizes and errors of scores, probabilities, gradients and parameters of one step and of t steps | `TrainFacts.v` and `TrainEpoch.v` hold for any number type and give the float step as a function (`g_descend`); `TrainFloatFacts.v` bounds it and its distance from `descend` with the bounds of C84, C97, C98, C101 and C107; induction over the steps |
| C111 | main of example_train_mnist_slp.cpp (`TrainMain.v`): data sets and tensors in scope, system() as a function on file systems, HOME | `TrainMainFacts.v`: each block ends in a value or an exception with the memory as before, over any number type; files by C53 and C56, data sets by C81, training by C76 and C110, the accuracy by C78 with float rounding of 1 - b / n |
| C112 | test_slp_model of C78 over the floats of C97 and over the reals, and the accuracies of C111 | two runs related image by image: a score is near the exact one (bounds of C110), a lead of twice the distance fixes the class, the counts differ at most by the number of close calls, and 1 - b / n is rounded twice |
| C113 | the training loop of C77 over the reals; the parameters on the first o batches are the results of train_slp_model on o n images | convexity and smoothness of the loss (C91) with a different batch at each step: the distance to a competitor telescopes, the gradient is bounded by the loss because the loss is non-negative, a wrong image costs ln 2 (`OnlineFacts.v`) |
| C114 | main of example_mnist.cpp (`MnistDump.v`): the file read as in C53/C81, sprintf with the size of its array, the bytes that imwrite reads | digits by induction on the number; the loop yields one call per image because loads of read pixels succeed, and is undefined as soon as one pixel was not read |

## 3. Trusted base

* The Coq 8.16.1 kernel.
* The correspondence between the Gallina definitions and the C++ text cited in
  the comment of each definition.
* What is assumed of code outside the repository:
  * stdtensor: contiguous row-major storage, unchecked `at`/`operator[]`,
    `range(n)` enumerates 0..n-1, `size()` is the product of dimensions,
    `ttl::fill`, `ttl::sum`, `ttl::argmax`, `ttl::cast`, `ttl::hamming_distance`,
    `flatten` are the evident loops in increasing index order; `new T(shape)`
    gives uninitialised elements;
  * CBLAS: gemm/gemv by their reference semantics (`LinAlg.v`), sums in
    increasing order; for floating point by any order and grouping of the sums
    (`Blas.v`, C108);
  * standard library algorithms by their specification (transform, copy,
    accumulate, min_element, minmax_element, sort, stoll, istream::read, map).

### Axioms

`Print Assumptions` runs in the `Props*.v` files.  No theorem uses an axiom
defined here or by a library other than Coq's standard library.  Every theorem
not listed below is closed under the global context.

* `sig_forall_dec`, `functional_extensionality_dep`:   C28_max_R,
  C37_mean_real, C42_mean_real, C43_span_real, C43_mean_real,
  C43_variance_real, C43_adj_diff_zero, C43_adj_diff_neg, C49_value,
  C49_bounds, C49_one, C49_symmetric, C64_uniform_sum, C65_bounded, C76_load,
  C78_accuracy, C78_test, C84_bound, C86_scores, C94_yields, C94_mean_linear,
  C94_mean_twice, C94_mean_bounds, C94_mean_below_max, C94_mean_constant,
  C100_bound, C100_bound_norm, C103_bound, C105_environment, C106_max_pool,
  C106_mean_pool, C106_margin_refuted.
* `sig_forall_dec`, `sig_not_dec`, `classic`, `functional_extensionality_dep`:
  C28_derivative, C33_monotone, C34_softmax_refuted, C35_grad1, C35_grad2,
  C35_clamped_refuted, C36_value, C36_grad1, C36_grad2, C74_refuted, C75_step,
  C75_update, C75_descent, C75_increase_refuted, C77_train, C77_zero_batch,
  C84_matmul, C84_conv_nhwc, C84_conv_nchw, C84_integers, C84_integers_nhwc,
  C84_layouts_refuted, C85_order, C85_matmul, C85_relu, C85_max_hw,
  C85_max_hwc, C85_mean_hw, C85_argmax, C85_softmax, C85_softmax_bad,
  C85_classify, C90_prediction, C90_prediction_refuted, C90_top,
  C90_top_refuted, C90_loss, C90_loss_range, C90_loss_correct,
  C90_loss_correct_refuted, C90_loss_least, C90_float_loss, C90_float_finite,
  C91_step, C91_optimal, C91_rate, C91_threshold_refuted, C91_optimal_refuted,
  C93_softmax_grad, C94_max_relu_float, C94_zeros_refuted, C95_float_refuted,
  C95_lookup_refuted, C96_programs, C100_add, C100_sub, C100_mul, C100_div,
  C100_axpy, C100_sum, C100_inner, C100_bias1_hw, C100_mean, C100_mean_rows,
  C100_pool_hw, C100_pool_hwc, C100_dense, C100_batch_norm, C100_integers,
  C100_monotone, C100_mean_refuted, C101_softmax, C101_xentropy, C101_bound,
  C102_xentropy, C102_float_refuted, C103_mul, C103_matmul0, C103_matmul1,
  C103_bias1_nhwc, C103_conv_y, C103_conv_x, C103_softmax, C103_xentropy,
  C103_variance, C103_variance_refuted, C104_roundtrip, C104_single,
  C104_two_refuted, C104_relu_scalar, C104_relu_int, C104_relu_int_refuted,
  C104_pixel, C104_pixel_order, C104_softmax, C104_softmax_test,
  C105_backprop, C105_step, C105_train, C106_layer, C106_network, C106_inputs,
  C106_prediction, C106_loss, C106_softmax_tight, C107_network,
  C107_prediction, C107_formats, C107_margin_refuted, C108_sum, C108_matmul,
  C108_matmul_grad0, C108_matmul_grad1, C108_mv, C108_vm, C108_conv,
  C108_conv_grad, C108_conv_nchw, C108_conv_grad_image, C108_network,
  C108_prediction, C108_libraries, C108_integers, C108_in_order_sums,
  C108_order_refuted, C109_network, C109_vgg16, C109_margin_refuted,
  C110_finite, C110_train, C110_mnist, C110_stalled_refuted,
  C110_zero_eps_refuted, C111_archive, C111_main, C111_no_archive,
  C111_unwritable, C111_data, C111_stale_refuted, C112_accuracy, C112_program,
  C112_close_refuted, C113_regret, C113_short, C113_mistakes,
  C113_long_refuted.
* `sig_forall_dec`, `sig_not_dec`, `functional_extensionality_dep`:
  C28_at_zero, C32_formula, C32_bn_real, C33_value, C33_range, C33_sum,
  C33_sum_unclamped, C33_shift, C34_softmax, C34_softmax_first,
  C36_softmax_xentropy, C43_std_real, C74_dense_softmax, C77_remainder,
  C80_network, C80_rejects, C80_vgg16, C80_vgg16_rejects, C83_network,
  C83_rejects, C83_program, C83_fails, C86_softmax, C86_network, C86_vgg16,
  C89_fold_bn, C102_softmax, C102_summaries, C105_positive, C105_unique,
  C105_corner_refuted, C106_matmul_tight.

`functional_extensionality_dep` is FunctionalExtensionality's,
`sig_forall_dec` and `sig_not_dec` are ClassicalDedekindReals', `classic` is
Classical_Prop's; all come with the standard library's real numbers.

### Not modelled, or simplified

* Floating point rounding: the forward kernels are proved for an arbitrary
  scalar type without laws (so also for float and double, in the same order of
  operations); real analysis, ring laws and exact division are used only where
  a theorem says so (`Rsc`, `ring_laws`).  C84, C85, C100 and C101 instantiate them with
  IEEE 754 binary32/binary64 as formalised by Flocq (`Float.v`): round to nearest
  even, one NaN, no fused multiply-add, no excess precision, no -ffast-math.
  std::exp is a parameter with the special cases of the C standard (`exp_ok`) in
  C85; std::exp and std::log are parameters with a relative accuracy in C101;
  std::sqrt is correctly rounded in C100.
  std::sort on data with NaN (ops::top) is undefined in C++ and not modelled:
  the model's insertion sort says nothing about it.
* Integer overflow of *element* arithmetic of int32_t tensors: covered only
  where a theorem says so (C39, C44, C88).
* CUDA kernels, benchmarks, the build system, the unit tests except those of C97
  (left out: tests that only construct objects or run on uninitialised tensors, and
  tests at one fixed input, whose expected values are computed by the Examples of `Conformance.v`), and the examples except
  example_train_mnist_slp.cpp (C75-C78, C111; of what it prints only the accuracies,
  without timing; its constants 10 and 28 are parameters; system() is a function on
  file systems), example_mnist.cpp (C114; the calls of imwrite, not the PNG encoder), example_1.cpp, example_ops.cpp, example_mlp.cpp,
  example_layer_mlp.cpp (C96; printed lines are results, PPRINT left out) and the VGG16 examples example_model_vgg16.cpp,
  example_layer_vgg16.cpp, vgg16_common.hpp (C80, C82, C83; without OpenCV; PPRINT
  and the environment variable HOME are left out; printf is modelled by its arguments).
* Bodies with the same text for several arities are modelled once; the variadic
  `apply_bias` kernel (kernels/cpu/bias.hpp:32-43) is modelled for the binary
  functions it is used with.
* `batch_norm<..., false>` (layers/bn.hpp:12-37) does not compile and has no model.
* `basic_gradient_function` keeps `const F &f_`; when built from a temporary the
  reference dangles.  The model takes the function by value.
* `flatten_shape` multiplies in Z, stdtensor in uint32_t.
* `parse_tar_header` also reads mode, uid and gid through unaligned int64
  pointers; these reads are not modelled.
* A little-endian host; devices that fail while writing are not modelled.
* `std::random_device` is a number given to the model; it does not fail.
* `uniform_constant` on an empty tensor divides by zero: IEEE infinity in C++,
  undefined in the model.
* `std::normal_distribution` requires a positive standard deviation; otherwise
  the model answers undefined behaviour.
* The order of evaluation of function arguments, where unspecified, is left to
  right.

## 4. Disagreements found

Properties whose first wording turned out false were reworded to what the code
does; a theorem named `..._refuted` shows the claim one would expect to fail.

* C06: "same" padding gives floor(n/s), not ceil(n/s), outputs.
* C08: geometry beyond 2^32 wraps and is accepted.
* C12: the index-map im2col drops cells at offsets from 2^31 on.
* C34, C74: softmax is wrong in place, which is how layers call it.
* C35: the softmax gradient is not the derivative where an output is clamped.
* C38: 4-D pooling ignores its padding (the shape function does not).
* C39, C44: means of int32_t divide as uint32_t.
* C40: windows without image cells give lowest() or a division by zero.
* C43: summaries of empty tensors are undefined behaviour.
* C46, C48: class count and lengths are truncated to the label/index type.
* C55, C71: truncated idx files and archive members are accepted.
* C57, C58: tar indexing loops forever on some negative sizes and overflows int
  from 2 GiB - 511 on.
* C60: distinct scope paths can have one name.
* C61, C63: sequential models destroy all weights but the last layer's; a
  throwing initialiser leaks tensors.
* C69: conv1d length inference wraps when cropping exceeds the input.
* C73: default initialisers leave parameters uninitialised.
* C75, C91: a training step can increase the loss, exactly when the examples may
  have a mean squared length above 3 (usual for 784 pixels); C77: the examples after the last
  full batch are never used.
* C81: truncated MNIST files are accepted and leave uninitialised elements.
* C83: the VGG16 programs index the class names without a check.
* C84: the two layouts of a convolution differ in floating point.
* C85: relu, max pooling and softmax silently replace NaN (softmax also
  +infinity); a diverged network predicts class 0 instead of showing NaN.
* C87: concatenating 2^32 channels or more succeeds and returns part of the
  first input (the sum of the channels is a uint32_t).
* C92: most operators never look at the shape of their output: called directly
  with an output smaller than their input they write behind it (elementwise
  operators, bias, normalisation, batched pools, softmax, one-hot, row sums,
  transposes, top). The matrix product of the builtin engine checks its operands;
  cblas matrix-vector products do not.
* C93: `matmul(z, z, y)` with the builtin engine gives zeros; transposes, padded
  pools, contractions and other operators give wrong values when the output
  overlaps an input. Nothing is checked.
* C96: the example programs read tensors that were never written.
* C90: clamped softmax (the default clamp is 1e-6) loses the order of the
  unlikely classes, and with more than 1/eps classes the predicted class;
  xentropy returns NaN when any other class has probability 0.
* C100: mean pooling does not preserve constant images in floating point.
* C103: the variance of a constant tensor need not be 0 in floating point.
* C104: `ops::relu_scalar` (unused in the library) computes in double: on int64_t it
  rounds above 2^53 and has undefined behaviour near 2^63, unlike `ops::relu`.
* C102: the class argmax picks among equal maxima depends on their order; in
  floating point so do sums and softmax.
* C106, C107, C109: rounding can change the predicted class when the exact scores
  differ by less than the proved bound; C108: so can the order in which a BLAS
  library adds.
* C110: large parameters stop moving in floating point although exact descent
  moves them; softmax with the lower bound 0 turns all parameters into NaN.
* C111: the training program ignores the result of `system("tar ...")` and then
  tests whatever archive is there; without HOME it has undefined behaviour.
* C113: with the rate 1 of the training program and images of squared length above
  1 the losses of a pass are not bounded by those of fixed parameters.
* C114: example_mnist accepts a test file that ends early; built with OpenCV it then
  writes uninitialised pixels.
* Noted, not stated as a property: `conv_trait` has a member named `paddint`;
  a max pool over an all -inf window gives lowest(); truncated_normal accepts NaN.

## 5. Tests against wrong programs

`seeded/LOG.jsonl` has one line per attempt.  Each seeded bug was put into a
model definition in a scratch copy; the copy was rebuilt with every failing
proof replaced by `Admitted`, and the theorems that fail or depend on a failing
lemma were collected.
