{"id": "C01", "title": "Output length of a linear sample", "statement": "A linear sample built with kernel size k, stride s, rate r and padding (pl,pr), applied to a length n, returns m exactly when s*(m-1) = (n+pl+pr) - (r*(k-1)+1) with m >= 1 (the \"valid configuration\" of doc/linear-sample.tex); in every other case it throws invalid_argument and returns nothing.", "quantifier": "every k,s,r >= 1, every padding and every length whose padded length and patch size fit the dimension type", "why_tests_cant": "five free integer parameters; tests try k,s,r,m in 1..3 without padding", "anchors": ["include/ttl/nn/bits/traits/filter.hpp:linear_filter_trait::operator()", "include/ttl/nn/bits/traits/linear_sample.hpp:linear_sample_trait::operator()", "doc/linear-sample.tex"]}
{"id": "C02", "title": "Sample taps stay inside the padded input", "statement": "If a linear sample accepts n and returns m, then for every output position j<m and tap k'<k the sampled position lies in [0, n+pl+pr); the first tap is position 0 and the last tap is exactly the last padded position; distinct taps of one window hit distinct positions.", "quantifier": "all accepted configurations, all output positions and taps", "why_tests_cant": "unbounded number of configurations and positions", "anchors": ["include/ttl/nn/bits/traits/filter.hpp:linear_filter_trait::operator()(j,k)", "include/ttl/nn/bits/traits/linear_sample.hpp"]}
{"id": "C03", "title": "inside/unpad identify real input positions", "statement": "For a padded position i, inside(i,n) is true exactly when i = pl + q for some input index q in [0,n), and then unpad(i) = q.", "quantifier": "all paddings, lengths and positions that fit the dimension type", "why_tests_cant": "unbounded", "anchors": ["include/ttl/nn/bits/traits/padding.hpp:inside", "include/ttl/nn/bits/traits/padding.hpp:unpad"]}
{"id": "C04", "title": "valid_padding is minimal and always accepted", "statement": "valid_padding(k,s,r,n) returns the least total padding p with n+p congruent to the patch size modulo the stride, split evenly (left=floor(p/2)), p<s; a sample built with it never throws \"invalid padding\", and with n >= patch size its output length is ceil((n-ps)/s)+1.", "quantifier": "all k,s,r>=1 and n that do not overflow", "why_tests_cant": "four unbounded parameters", "anchors": ["include/ttl/nn/bits/traits/linear_sample.hpp:valid_padding"]}
{"id": "C05", "title": "same_padding preserves the length at stride 1", "statement": "When same_padding(k,s,r,n) does not throw, a sample built with it maps n to floor(n/s) (so n to n at stride 1) for n>=s; it throws a contract error exactly when the patch is smaller than s + n mod s.", "quantifier": "all k,s,r>=1 and n that do not overflow", "why_tests_cant": "four unbounded parameters; the test checks two points", "anchors": ["include/ttl/nn/bits/traits/linear_sample.hpp:same_padding"]}
{"id": "C06", "title": "When same padding yields ceil(n/s) outputs", "statement": "Whenever same_padding(k,s,r,n) returns and n >= s, the same-padded sample maps n to ceil(n/s) (the usual meaning of \"same\") exactly when s divides n; otherwise it yields one output fewer (floor(n/s)). The unconditional ceil law is false.", "quantifier": "all k,s,r>=1 and n", "why_tests_cant": "tests only use n divisible by s", "anchors": ["include/ttl/nn/bits/traits/linear_sample.hpp:same_padding"]}
{"id": "C07", "title": "Invalid filter parameters are rejected", "statement": "Constructing a filter, sample, pool or conv geometry with a kernel size, stride or rate below 1 throws invalid_argument before any data is touched; all other parameters are accepted by the constructor.", "quantifier": "all integer parameter triples", "why_tests_cant": "unbounded", "anchors": ["include/ttl/nn/bits/traits/filter.hpp:linear_filter_trait"]}
{"id": "C08", "title": "Geometry wraps silently only beyond 2^32", "statement": "While the padded length and the patch size are below 2^32, a linear sample over uint32_t returns m only if the true (unbounded) quantities satisfy the valid-configuration equation. Without that bound the claim is false: there are uint32_t parameters for which a length is returned although the true quantities violate the equation.", "quantifier": "all uint32_t parameters", "why_tests_cant": "only fails near 2^32", "anchors": ["include/ttl/nn/bits/traits/filter.hpp:patch_size", "include/ttl/nn/bits/traits/padding.hpp:operator()"]}
{"id": "C09", "title": "Shape accessors and constructors are inverse", "statement": "For nhwc and nchw, batch/height/width/channel sizes read from a shape built by batched_image_shape are the ones given, and rebuilding a shape from its parts returns it; likewise for rscd and dcrs filter shapes.", "quantifier": "all shapes and both orders of each kind", "why_tests_cant": "all 4-tuples", "anchors": ["include/ttl/nn/bits/traits/trait_algo.hpp"]}
{"id": "C10", "title": "Layout transposition moves every element and is invertible", "statement": "to_channels_first writes y[l,k,i,j]=f(x[l,i,j,k]) for every element and nothing else, to_channels_last the converse, and applying one then the other restores shape and data.", "quantifier": "all shapes, all data, all scalar maps", "why_tests_cant": "unbounded sizes", "anchors": ["include/ttl/nn/bits/ops/transpose.hpp"]}
{"id": "C11", "title": "im2col gathers the zero-padded windows", "statement": "In each of the three layouts (hw->hwrs, hw->rshw, hwc->hwrsc) every column cell (i,j,u,v[,k]) receives the zero-padded input at (i*s+u*r-pl, ...), every access is in bounds, all cells are written, and no other memory changes.", "quantifier": "all geometries accepted by the shape function, all images", "why_tests_cant": "sizes, paddings, strides, rates unbounded", "anchors": ["include/ttl/nn/bits/kernels/cpu/im2col.hpp:im2col_2d", "include/ttl/nn/bits/ops/im2col.hpp"]}
{"id": "C12", "title": "Index-map im2col equals direct im2col", "statement": "The batched im2col that goes through an index table of int produces for every image in the batch exactly the column tensor of the direct im2col, as long as an image has at most 2^31 elements; beyond that (up to 2^32) exactly the cells whose element offset is 2^31 or more come out as 0.", "quantifier": "all batches, geometries and images whose per-image element count fits int", "why_tests_cant": "unbounded", "anchors": ["include/ttl/nn/bits/kernels/cpu/im2col.hpp:im2col_idx_map", "include/ttl/nn/bits/kernels/cpu/im2col.hpp:im2col_2d<nhwc,nhwrsc>"]}
{"id": "C13", "title": "col2im sums all overlapping windows", "statement": "col2im writes into each pixel exactly the sum, in loop order, of the column cells whose sampled position is that pixel, and 0 if there are none; cells that fall on padding are ignored; nothing else changes.", "quantifier": "all geometries and data", "why_tests_cant": "unbounded", "anchors": ["include/ttl/nn/bits/kernels/cpu/col2im.hpp"]}
{"id": "C14", "title": "im2col and col2im are adjoint", "statement": "For every image x and column tensor c, <im2col(x), c> = <x, col2im(c)>.", "quantifier": "all geometries, all data over a commutative ring", "why_tests_cant": "unbounded", "anchors": ["include/ttl/nn/bits/kernels/cpu/col2im.hpp", "include/ttl/nn/bits/kernels/cpu/im2col.hpp"]}
{"id": "C15", "title": "col2im shape inverts im2col shape", "statement": "For every image shape accepted by im2col, col2im of the resulting column shape returns the original image shape.", "quantifier": "all accepted geometries", "why_tests_cant": "unbounded", "anchors": ["include/ttl/nn/bits/ops/col2im.hpp:origin_size", "include/ttl/nn/bits/ops/im2col.hpp"]}
{"id": "C16", "title": "nhwc convolution computes the definition", "statement": "conv<nhwc,rscd> sets z[l,i,j,d] to the sum over (u,v,k) in row-major order of xpad[l, i*s+u*r, j*s+v*r, k]*y[u,v,k,d]; all accesses are in bounds, nothing else changes and temporary storage is released.", "quantifier": "all shapes, paddings, strides, rates accepted by shape inference; all data; any scalar type (no algebraic law needed)", "why_tests_cant": "unbounded", "anchors": ["include/ttl/nn/bits/kernels/cpu/conv2d.hpp:conv2d<nhwc,rscd>"]}
{"id": "C17", "title": "nchw convolution computes the definition", "statement": "conv<nchw,dcrs> sets z[l,d,i,j] to the sum over (k,u,v) in row-major order of y[d,k,u,v]*xpad[l,k,i*s+u*r,j*s+v*r]; in bounds, nothing else changes, temporaries released.", "quantifier": "as C16", "why_tests_cant": "unbounded", "anchors": ["include/ttl/nn/bits/kernels/cpu/conv2d.hpp:conv2d<nchw,dcrs>"]}
{"id": "C18", "title": "The two convolution layouts agree", "statement": "Convolving in nhwc/rscd and in nchw/dcrs on transposed image and filter gives transposed results.", "quantifier": "all shapes and data over a commutative ring", "why_tests_cant": "unbounded", "anchors": ["include/ttl/nn/bits/kernels/cpu/conv2d.hpp", "include/ttl/nn/bits/ops/transpose.hpp"]}
{"id": "C19", "title": "Convolution shape inference", "statement": "conv(x.shape,y.shape) returns (n,h',w',d) in the image order with h',w' given by the linear sample law; throws on channel mismatch or inadmissible spatial size; the kernel run on tensors of these shapes never throws and never leaves bounds.", "quantifier": "all shapes", "why_tests_cant": "unbounded", "anchors": ["include/ttl/nn/bits/ops/conv2d_trait.hpp:conv_trait::infer"]}
{"id": "C20", "title": "Convolution gradients are exact", "statement": "grad conv arg 0 and arg 1 return the vector-Jacobian products: <gz, conv(x+dx,y)-conv(x,y)> = <gx,dx> and the same for the filter, for every direction.", "quantifier": "all shapes, geometries and data over a commutative ring", "why_tests_cant": "the test for gradients asserts nothing; no finite set of points determines a linear map of arbitrary size", "anchors": ["include/ttl/nn/bits/ops/gradients/conv2d.hpp"]}
{"id": "C21", "title": "1-D convolution definition", "statement": "conv1d sets z[j] to the in-order sum over taps of y[k]*xpad[j*s+k*r]; equals im2col1d followed by matrix-vector product; negative paddings crop the input.", "quantifier": "all n,k,s,r,paddings, data", "why_tests_cant": "unbounded", "anchors": ["include/ttl/nn/bits/ops/impl/conv1d.hpp", "include/ttl/nn/bits/ops/conv1d.hpp"]}
{"id": "C22", "title": "col2im1d after im2col1d scales by multiplicity", "statement": "col2im1d(im2col1d(x))[i] = x[i] times the number of (window,tap) pairs that sample i; and the shape round-trips.", "quantifier": "all 1-D geometries, data over a commutative ring", "why_tests_cant": "unbounded; test uses n=9,k=3", "anchors": ["include/ttl/nn/bits/ops/impl/col2im1d.hpp", "include/ttl/nn/bits/ops/impl/im2col1d.hpp"]}
{"id": "C23", "title": "Builtin matrix products", "statement": "mm, mmt, mtm, mv, vm of the builtin engine compute the respective products with sums in increasing index order; every element of the output is written, inputs and all other memory unchanged.", "quantifier": "all sizes including 0, all data, any scalar type", "why_tests_cant": "unbounded", "anchors": ["include/ttl/nn/bits/engines/plain_impl.hpp"]}
{"id": "C24", "title": "Builtin products reject mismatched shapes", "statement": "Each builtin product throws runtime_error exactly when the inner or outer dimensions disagree, and then leaves all memory unchanged.", "quantifier": "all shape triples", "why_tests_cant": "unbounded", "anchors": ["include/ttl/nn/bits/engines/plain_impl.hpp", "include/experimental/bits/contract.hpp"]}
{"id": "C25", "title": "CBLAS engine agrees with the builtin engine", "statement": "For matching shapes with all dimensions positive the gemm/gemv calls issued by the cblas engine denote the same products as the builtin engine.", "quantifier": "all positive sizes, all data over a commutative ring", "why_tests_cant": "unbounded", "anchors": ["include/ttl/nn/bits/engines/cblas_impl.hpp", "include/ttl/nn/bits/engines/linag.hpp"]}
{"id": "C26", "title": "matmul gradients are exact", "statement": "grad matmul arg 0/1 are the vector-Jacobian products of matmul.", "quantifier": "all sizes and data over a commutative ring", "why_tests_cant": "unbounded", "anchors": ["include/ttl/nn/bits/ops/gradients/matmul.hpp"]}
{"id": "C27", "title": "Elementwise operators are pointwise and in-place safe", "statement": "add, sub, mul, identity, relu, pointwise, axpy set z[i]=f(x[i],y[i]) for every element, also when the output is the same tensor as one or both of the inputs, and change nothing else.", "quantifier": "all shapes, ranks, data, scalar types, and all exact aliasings", "why_tests_cant": "sizes and aliasing combinations", "anchors": ["include/ttl/nn/bits/kernels/cpu/elementary.hpp", "include/ttl/nn/bits/ops/elementary.hpp", "include/ttl/nn/bits/kernels/cpu/blas.hpp:axpy"]}
{"id": "C28", "title": "relu laws", "statement": "relu yields max(x,0), is idempotent and its gradient passes gy exactly where x>0 and 0 elsewhere, which is the derivative for x<>0.", "quantifier": "all data", "why_tests_cant": "unbounded", "anchors": ["include/ttl/nn/bits/kernels/cpu/activation.hpp:host_scalar_relu", "include/ttl/nn/bits/ops/gradients/activation.hpp"]}
{"id": "C29", "title": "add/mul gradients are exact", "statement": "The gradients of add and mul are the vector-Jacobian products.", "quantifier": "all shapes and data over a commutative ring", "why_tests_cant": "unbounded", "anchors": ["include/ttl/nn/bits/ops/gradients/add.hpp", "include/ttl/nn/bits/ops/gradients/mul.hpp"]}
{"id": "C30", "title": "Bias is applied along the channel axis", "statement": "add_bias/mul_bias for hw, nhwc, nchw set z[...]=f(x[...],b[channel]) for every element, also in place, and change nothing else; the shape function throws exactly when the bias length differs from the channel size.", "quantifier": "all shapes and data", "why_tests_cant": "unbounded", "anchors": ["include/ttl/nn/bits/kernels/cpu/bias.hpp", "include/ttl/nn/bits/ops/bias.hpp"]}
{"id": "C31", "title": "Bias gradients are exact", "statement": "The gradients of add_bias (hw: both, nhwc: both, nchw: arg 0) are the vector-Jacobian products.", "quantifier": "all shapes and data over a commutative ring", "why_tests_cant": "unbounded", "anchors": ["include/ttl/nn/bits/ops/gradients/bias.hpp", "include/ttl/nn/bits/kernels/cpu/reduce.hpp"]}
{"id": "C32", "title": "Batch normalisation formula", "statement": "batch_norm sets y = (x-mean[c])/(sqrt(var[c])+eps) per channel in both layouts; batch_norm_with_bias additionally multiplies by gamma[c] then adds beta[c]; the two layouts agree under transposition.", "quantifier": "all shapes and data", "why_tests_cant": "unbounded", "anchors": ["include/ttl/nn/bits/kernels/cpu/normalization.hpp", "include/ttl/nn/bits/ops/bn.hpp"]}
{"id": "C33", "title": "Softmax value and range", "statement": "softmax sets y_i = max(eps, exp(x_i)/sum_j exp(x_j)) along the last axis of a tensor of any rank; each output is at least eps and at most max(eps,1); the outputs of a row sum to at least 1 and at most 1+n*eps, exactly 1 when nothing is clamped; equal shifts of a row do not change it; it is monotone.", "quantifier": "all ranks, row counts, row lengths and real inputs", "why_tests_cant": "real-valued inputs of any length", "anchors": ["include/ttl/nn/bits/kernels/cpu/activation.hpp:softmax", "include/ttl/nn/bits/ops/activation.hpp:softmax"]}
{"id": "C34", "title": "Which activations are safe as in-place layer activations", "statement": "Layers call Act()(ref(*y), view(*y)). relu and every pointwise operator compute the same result in place as out of place. softmax does not: entry i of a row is computed from a row whose first i entries have already been overwritten; only the first entry is the softmax of the row. The claim that every activation is safe in place is false.", "quantifier": "all activations and inputs", "why_tests_cant": "needs an aliased call, which no test makes", "anchors": ["include/ttl/nn/bits/layers/dense.hpp", "include/ttl/nn/bits/layers/conv.hpp", "include/ttl/nn/bits/kernels/cpu/activation.hpp"]}
{"id": "C35", "title": "Softmax gradient is the derivative", "statement": "When no output is clamped by eps, grad softmax returns the vector-Jacobian product of softmax at x.", "quantifier": "all lengths, all real inputs and cotangents", "why_tests_cant": "real analysis; unbounded length", "anchors": ["include/ttl/nn/bits/ops/gradients/softmax.hpp"]}
{"id": "C36", "title": "Cross entropy value and gradient", "statement": "xentropy(x,y) = -sum x_i log y_i per row, and its gradient with respect to y is gz * (-x_i/y_i), the true derivative for positive y; combined with softmax gradient it gives softmax(z) - x when x sums to 1.", "quantifier": "all lengths, real inputs with y>0", "why_tests_cant": "real analysis", "anchors": ["include/ttl/nn/bits/kernels/cpu/loss.hpp", "include/ttl/nn/bits/ops/gradients/xentropy.hpp"]}
{"id": "C37", "title": "Max and mean pooling over the window", "statement": "Pooling an image (hw, hwc) sets every output to the maximum (mean) over exactly the in-image cells of its window, i*stride <= p+left < i*stride+ksize on each axis; nothing is read outside the image and nothing else changes. Stated for windows that contain a cell (see C40).", "quantifier": "all geometries accepted by the constructor and the shape function with padded lengths below 2^32, all data (maximum: values on which < is a strict weak order, so no NaN, none below lowest()); mean for every division", "why_tests_cant": "unbounded", "anchors": ["include/ttl/nn/bits/kernels/cpu/pool.hpp"]}
{"id": "C38", "title": "Batched pooling drops its padding", "statement": "nhwc/nchw pooling gives for every image (and channel) the result of pooling that image alone with the same kernel and stride but padding 0; padding after the image is harmless, padding before it shifts every window. Its shape function does apply the padding, and keeps batch and channels. The claim that batched pooling honours its padding is false.", "quantifier": "all geometries, batches, accumulators", "why_tests_cant": "the padding test asserts only the shape", "anchors": ["include/ttl/nn/bits/ops/pool.hpp"]}
{"id": "C39", "title": "Mean pooling of int32", "statement": "Mean pooling over int32_t divides as uint32_t: the result is the truncated quotient of the window sum by the number of cells exactly when the sum is non-negative or the window has one cell; the claim for all sums is false.", "quantifier": "all int32 images whose window sums fit, all geometries", "why_tests_cant": "tests use nonnegative data only", "anchors": ["include/ttl/nn/bits/kernels/cpu/pool.hpp:mean_accumulator"]}
{"id": "C40", "title": "Pooling a window with no image cell", "statement": "All windows contain an image cell exactly when every padding is smaller than the kernel size. Otherwise, though the geometry is accepted, max pooling returns numeric_limits::lowest() for the empty windows and integer mean pooling divides by zero. The claim that pooling only returns values derived from the image is false.", "quantifier": "all accepted geometries", "why_tests_cant": "needs padding of at least the kernel size", "anchors": ["include/ttl/nn/bits/kernels/cpu/pool.hpp"]}
{"id": "C41", "title": "Channel concatenation", "statement": "concat_channel4d (nchw with 2 inputs, nhwc with 3) returns the inputs side by side along the channel axis: every input element appears exactly at its offset position; shape inference adds the channel sizes and throws exactly when another axis differs.", "quantifier": "all shapes and data", "why_tests_cant": "unbounded", "anchors": ["include/ttl/nn/bits/kernels/cpu/concat.hpp", "include/ttl/nn/bits/ops/shape_algo.hpp:concat_shape"]}
{"id": "C42", "title": "Contractions and mean reduction", "statement": "inner_contraction sums each row, outter_contraction sums each column, mean divides the row sums by the row length; in loop order; nothing else changes.", "quantifier": "all sizes and data", "why_tests_cant": "unbounded", "anchors": ["include/ttl/nn/bits/kernels/cpu/reduce.hpp", "include/ttl/nn/bits/ops/reduce.hpp"]}
{"id": "C43", "title": "Summaries", "statement": "On a nonempty tensor min/max return an element of the tensor bounding all others; span = max - min, is >= 0, bounds the distance of any two elements and is attained; mean*n = sum; variance is the mean squared deviation, >= 0, equals mean of squares minus square of mean and is 0 exactly when all elements equal the mean; standard_deviation is its nonnegative root; adj_diff_sum is >= 0, is 0 exactly for constant tensors and is invariant under negation; scalar_summaries writes the listed summaries in order. On an empty tensor min, max, span and adj_diff_sum are undefined behaviour.", "quantifier": "all tensors of any rank, all data (reals where the claim is about arithmetic)", "why_tests_cant": "unbounded", "anchors": ["include/ttl/nn/bits/ops/summary.hpp"]}
{"id": "C44", "title": "Integer mean divides unsigned", "statement": "mean (summary and reduce) of an int32_t tensor of n elements whose sum t fits int32_t is the truncated quotient t/n if and only if t >= 0 or n = 1: for a negative sum the division happens in uint32_t and the result is wrong.", "quantifier": "all int32_t tensors with sum in range", "why_tests_cant": "tests use floats", "anchors": ["include/ttl/nn/bits/ops/summary.hpp:mean"]}
{"id": "C45", "title": "One-hot encoding", "statement": "onehot(k) writes 1 at (i, x[i]) when 0 <= x[i] < k and 0 everywhere else, for every label type able to represent k.", "quantifier": "all label vectors, all k", "why_tests_cant": "unbounded", "anchors": ["include/ttl/nn/bits/kernels/cpu/utility.hpp:onehot", "include/ttl/nn/bits/ops/utility.hpp:onehot"]}
{"id": "C46", "title": "One-hot class count is converted to the label type", "statement": "For every k, onehot(k) writes 1 at (i, x[i]) exactly when 0 <= x[i] < k' where k' is k converted to the label type, and 0 everywhere else; so with k outside the range of the label type (k = 200 with int8_t labels) valid labels get an all-zero row and no error is raised.", "quantifier": "all k, all label types, all labels of any rank", "why_tests_cant": "needs k beyond the label type range", "anchors": ["include/ttl/nn/bits/kernels/cpu/utility.hpp:onehot"]}
{"id": "C47", "title": "argmax inverts one-hot", "statement": "argmax returns the first position of a greatest element of each row; argmax(onehot(x)) = x for valid labels.", "quantifier": "all tensors over a strict weak order (no NaN), all label vectors", "why_tests_cant": "unbounded", "anchors": ["include/ttl/nn/bits/kernels/cpu/utility.hpp"]}
{"id": "C48", "title": "top returns the k largest", "statement": "With n' and k' the input and output lengths converted to the index type N: top(k) writes the m = min(n',k') largest of the first n' elements in non-increasing order with their distinct source indices (ties by larger index first); every element among the first n' not returned is no larger than every returned one; cells beyond m are untouched; input may alias the value output. When n' is negative it throws before writing. When n and k fit N, n'=n and k'=k; otherwise elements are silently ignored.", "quantifier": "all vectors over a strict weak order (floating point: no NaN among the elements looked at), all k, all index types", "why_tests_cant": "unbounded", "anchors": ["include/ttl/nn/bits/kernels/cpu/utility.hpp:top"]}
{"id": "C49", "title": "Similarity", "statement": "similarity(x,y) = 1 - hamming/n lies in [0,1], equals 1 exactly when the tensors are equal, and is symmetric.", "quantifier": "all nonempty tensors", "why_tests_cant": "unbounded", "anchors": ["include/ttl/nn/bits/kernels/cpu/utility.hpp:similarity"]}
{"id": "C50", "title": "Table-driven CRC equals the bitwise CRC", "statement": "For every width, polynomial and byte string, the crc operator equals the reflected bit-serial CRC with all-ones initial value and final complement.", "quantifier": "all widths >= 8, polynomials, byte strings", "why_tests_cant": "strings of any length; tests use one string", "anchors": ["include/ttl/nn/bits/kernels/cpu/hash.hpp", "include/ttl/nn/bits/ops/hash.hpp"]}
{"id": "C51", "title": "CRC detects single-byte and burst errors", "statement": "Two byte strings of equal length that differ only within a window of w consecutive bits (w the CRC width) have different CRCs when the polynomial has its top bit set (true of all three predefined polynomials).", "quantifier": "all lengths, positions and error patterns", "why_tests_cant": "unbounded", "anchors": ["include/ttl/nn/bits/kernels/cpu/hash.hpp", "include/ttl/nn/bits/ops/hash.hpp:crc_polynomials"]}
{"id": "C52", "title": "CRC is affine", "statement": "crc(a xor b xor c) = crc(a) xor crc(b) xor crc(c) for equal-length strings, and crc of a concatenation is determined by crc of the prefix and the suffix.", "quantifier": "all strings", "why_tests_cant": "unbounded", "anchors": ["include/ttl/nn/bits/kernels/cpu/hash.hpp"]}
{"id": "C53", "title": "idx file round trip", "statement": "On a little-endian host, writefile produces exactly the bytes 0, 0, type code, rank, the dimensions as big-endian 32-bit words and the object representations in row-major order (4+4r+sizeof(R)*size bytes); reading that file into any tensor of the same type and shape restores every element and changes nothing else; names that cannot be opened throw std::runtime_error without effect.", "quantifier": "all ranks, shapes, data and element representations", "why_tests_cant": "unbounded", "anchors": ["include/ttl/nn/bits/kernels/cpu/io.hpp"]}
{"id": "C54", "title": "idx reader validates its header", "statement": "readfile accepts a file with a complete header exactly when the header is the one writefile would produce for the destination's type and shape; otherwise it throws std::runtime_error leaving all memory unchanged.", "quantifier": "all files with a complete header", "why_tests_cant": "all byte strings", "anchors": ["include/ttl/nn/bits/kernels/cpu/io.hpp:serializer::read"]}
{"id": "C55", "title": "idx reader on truncated files", "statement": "A file that is a proper prefix of the right header makes readfile use bytes that were never read (undefined behaviour). With a complete right header readfile never throws: elements whose bytes are all present are read, elements with no byte present keep their old value, an element cut in the middle mixes both; so the destination is filled from the file exactly when no data byte is missing, and truncation goes unreported.", "quantifier": "all files with a right header, truncated anywhere", "why_tests_cant": "truncation at any byte", "anchors": ["include/ttl/nn/bits/kernels/cpu/io.hpp:serializer::read"]}
{"id": "C56", "title": "tar lookup finds archived tensors", "statement": "For every well-formed archive (512-byte blocks, eleven-digit octal sizes up to 2^31-512, any trailing zero blocks), readtar of a name locates the data of the last member of that name and reads the idx file stored there; unknown names throw std::invalid_argument; unreadable files and sizes not a multiple of 512 throw std::runtime_error; all without touching other memory.", "quantifier": "all archives and names", "why_tests_cant": "unbounded archives", "anchors": ["include/ttl/nn/bits/ops/io_tar.hpp", "include/ttl/nn/bits/ops/io.hpp:readtar"]}
{"id": "C57", "title": "tar indexing terminates without minus signs", "statement": "Indexing ends for every file in which no block-aligned size field contains a minus sign; a header with size -1000 (octal) makes it loop forever.", "quantifier": "all byte strings", "why_tests_cant": "non-termination needs a crafted header", "anchors": ["include/ttl/nn/bits/ops/io_tar.hpp:make_tar_index"]}
{"id": "C58", "title": "Range of tar block arithmetic", "statement": "Indexing has defined behaviour for every file whose block-aligned size fields are at most 2^31-512; the first member announcing more (a size of 2 GiB minus 511 bytes or above) overflows an int multiplication, whatever precedes or follows it.", "quantifier": "all byte strings, all entry sizes", "why_tests_cant": "needs an entry of 2 GiB", "anchors": ["include/ttl/nn/bits/ops/io_tar.hpp:make_tar_index"]}
{"id": "C59", "title": "Name scopes nest and are restored", "statement": "In every program built from queries, nested with() calls, sequencing, throws and catches, *ns answers the separator-joined lexical path and ns(name) the path extended by name (leading empty components contribute nothing); whether a with() returns or throws, the context afterwards is the one before it, and its internal consistency check never fires.", "quantifier": "all nestings, names, separators, exception points", "why_tests_cant": "all programs of nested scopes", "anchors": ["include/ttl/nn/bits/models/namescope.hpp"]}
{"id": "C60", "title": "Which scope paths share a name", "statement": "With a non-empty separator, two paths whose components avoid the separator's first character yield the same name exactly when they agree after dropping leading empty components. Otherwise distinct paths can collide (components containing the separator, the empty separator, leading empty components).", "quantifier": "all paths, separators", "why_tests_cant": "unbounded", "anchors": ["include/ttl/nn/bits/models/namescope.hpp"]}
{"id": "C61", "title": "Sequential models compose left to right", "statement": "(seq << l1 << ... << ln)(x) has the output of ln(...l1(op(x))) for every layer list and grouping of <<. The result owns only the last layer's weights: output and weights of every earlier layer are destroyed before the call returns. If a layer throws, the call throws the same exception, the earlier layers' tensors are destroyed, and only what the failing layer itself leaked stays behind.", "quantifier": "all layer lists and inputs", "why_tests_cant": "unbounded lists", "anchors": ["include/ttl/nn/bits/models/sequential.hpp"]}
{"id": "C62", "title": "Dense and conv layers compute act(op(x,w)+b)", "statement": "dense returns act(x*w+b) with w,b produced by the initialisers and shapes (in,logits),(logits); conv (with and without bias, both layouts) returns act(conv(x,w)+b) with the policy's padding, where same padding at stride 1 keeps the image size; output and weights live in distinct new blocks and nothing else changes.", "quantifier": "all inputs, initialisers", "why_tests_cant": "unbounded", "anchors": ["include/ttl/nn/bits/layers/dense.hpp", "include/ttl/nn/bits/layers/conv.hpp", "include/ttl/nn/bits/layers/call.hpp"]}
{"id": "C63", "title": "Which tensors a layer call leaks", "statement": "A successful layer call followed by the layer's destruction leaves memory as it was. A failing call leaks exactly the tensors created before the failure: a throwing weight initialiser leaks the weight, rejected convolution geometry the weight, a throwing bias initialiser weight, output and bias; rejected pooling geometry leaks nothing. So \"a failing call releases everything\" is false.", "quantifier": "all failing calls", "why_tests_cant": "needs allocation tracking at every throw point", "anchors": ["include/ttl/nn/bits/layers/call.hpp", "include/ttl/nn/bits/layers/dense.hpp", "include/ttl/nn/bits/layers/conv.hpp"]}
{"id": "C64", "title": "Initialisers fill the whole tensor", "statement": "zeros, ones, constant(v), uniform_constant write every element of the tensor with 0, 1, v, 1/size and change nothing else; over exact arithmetic the values of uniform_constant on a non-empty tensor add up to 1.", "quantifier": "all shapes", "why_tests_cant": "unbounded", "anchors": ["include/ttl/nn/bits/kernels/cpu/init.hpp", "include/ttl/nn/bits/ops/init.hpp"]}
{"id": "C65", "title": "Truncated normal keeps exactly the in-range draws", "statement": "For a positive standard deviation truncated_normal fills the tensor, in order, with the draws of magnitude at most 2*stddev among the first m, m being the least sufficient number; it returns exactly when the random stream contains enough such draws, and touches nothing else. Equal seeds give equal tensors whatever the random device answers. A non-positive standard deviation is undefined behaviour.", "quantifier": "all random streams, engines, shapes, seeds", "why_tests_cant": "random streams", "anchors": ["include/ttl/nn/bits/ops/init.hpp:truncated_normal"]}
{"id": "C66", "title": "Gradient shape contract", "statement": "Every gradient shape function (add, mul, relu, softmax, xentropy, add_bias, matmul, conv, copy_flatten) returns the shape of the differentiated argument exactly when the forward inference yields y and gy = y; otherwise it throws what the forward inference throws, or std::runtime_error. check_shape throws std::logic_error exactly on a wrong shape.", "quantifier": "all ops, arities, shapes", "why_tests_cant": "unbounded", "anchors": ["include/ttl/nn/bits/ops/std_function.hpp:basic_gradient_function", "include/ttl/nn/bits/ops/shape_algo.hpp:gradient_shape"]}
{"id": "C67", "title": "Reshaping preserves data", "statement": "copy_flatten keeps the element sequence and the element count for every grouping of axes: the element at the flat indices of the groups is the element at the original coordinates. Its gradient copies back: it inverts copy_flatten and is its exact vector-Jacobian product.", "quantifier": "all groupings, shapes, data", "why_tests_cant": "unbounded ranks", "anchors": ["include/ttl/nn/bits/ops/reshape.hpp", "include/ttl/nn/bits/ops/gradients/reshape.hpp"]}
{"id": "C68", "title": "Reduce/vectorize shape functions", "statement": "Endofunctions return their argument, reduce drops exactly the last axis, vectorize appends k (and reduce undoes it), the binary variants throw std::invalid_argument exactly on unequal shapes.", "quantifier": "all shapes and ranks", "why_tests_cant": "unbounded ranks", "anchors": ["include/ttl/nn/bits/ops/std_function.hpp"]}
{"id": "C69", "title": "conv1d length inference wraps when cropping exceeds the input", "statement": "While left+n+right >= 0, conv1d length inference returns m exactly for the valid configurations and throws otherwise; when negative paddings crop more than the input (L = left+n+right < 0) it does not throw but behaves exactly as for a padded length of L+2^32, unlike im2col1d, which throws. The claim that a returned length always is a valid configuration is false.", "quantifier": "all strides, rates, kernel sizes, paddings (of either sign) and lengths", "why_tests_cant": "the wrap only shows for rare parameter combinations; unit tests use padding 1", "anchors": ["include/ttl/nn/bits/ops/conv1d.hpp:37-43", "include/ttl/nn/bits/traits/filter.hpp:51-64", "include/ttl/nn/bits/traits/padding.hpp:23-26"]}
{"id": "C70", "title": "cast converts element by element", "statement": "cast(y, x) writes at every index the converted element of x at that index and nothing else, for any shape and pair of element types.", "quantifier": "all shapes, all conversions", "why_tests_cant": "unbounded", "anchors": ["include/ttl/nn/bits/kernels/cpu/utility.hpp:cast", "include/ttl/nn/bits/ops/utility.hpp:cast"]}
{"id": "C71", "title": "Truncated archive members are completed from the archive", "statement": "readtar of a member whose idx data is shorter than its header announces does not fail: the missing elements are taken from the padding and the headers that follow it in the archive.", "quantifier": "all archives with a truncated member", "why_tests_cant": "needs byte-level reasoning about neighbouring members", "anchors": ["include/ttl/nn/bits/ops/io.hpp:readtar", "include/ttl/nn/bits/kernels/cpu/io.hpp:serializer::read"]}
{"id": "C72", "title": "Batch normalisation, pooling and activation layers", "statement": "The batch_norm layer (with bias) returns act(norm(x,mean,var)*gamma+beta) per channel together with its four initialised parameters; the pool layer returns the pooled tensor of the shape given by the policy padding but with values of unpadded windows; activation and identity layers return the operator's value in a new tensor. Nothing else changes.", "quantifier": "all inputs, initialisers, both layouts", "why_tests_cant": "unbounded", "anchors": ["include/ttl/nn/bits/layers/bn.hpp", "include/ttl/nn/bits/layers/pool.hpp", "include/ttl/nn/bits/layers/activation.hpp", "include/ttl/nn/bits/layers/elementary.hpp"]}
{"id": "C73", "title": "Default initialisers leave parameters uninitialised", "statement": "dense called without initialisers (ops::noop) on non-empty shapes reads uninitialised memory: with the default weight initialiser always, with the default bias initialiser whatever the weights.", "quantifier": "all non-empty shapes and inputs", "why_tests_cant": "reading uninitialised floats goes unnoticed in tests", "anchors": ["include/ttl/nn/bits/layers/dense.hpp", "include/ttl/nn/bits/layers/call.hpp", "include/ttl/nn/bits/ops/elementary.hpp:noop"]}
{"id": "C74", "title": "Softmax as a layer's activation", "statement": "dense with softmax as Act does not return softmax(x*w+b): the activation runs in place and each output element is normalised against the already overwritten ones; the first column is right, the others differ in general.", "quantifier": "all inputs, initialisers, eps", "why_tests_cant": "needs an exact oracle for every input", "anchors": ["include/ttl/nn/bits/layers/dense.hpp", "include/ttl/nn/bits/kernels/cpu/activation.hpp"]}
{"id": "C75", "title": "A training step is gradient descent", "statement": "One iteration of the training loop of the single-layer perceptron example, on any batch, replaces w and b by w - GW, b - GB, where (GW, GB) is the gradient (with respect to w and b jointly) of the mean cross entropy of softmax(x w + b) against the labels, wherever no prediction is clamped; for labels that sum to 1 per example the step is x^T (p - y)/n and the column sums of (p - y)/n, clamped or not. The loss variable receives the loss before the step, nothing but the loop's variables changes. Along the direction of the step the loss decreases at first, but the step (rate 1) can increase it.", "quantifier": "all batch sizes, input and class counts, parameters, inputs, labels, both BLAS engines; exact real arithmetic", "why_tests_cant": "analytic derivative through five kernels over a continuum", "anchors": ["examples/example_train_mnist_slp.cpp:slp", "examples/example_train_mnist_slp.cpp:train_slp_model"]}
{"id": "C76", "title": "Batches hold the right examples", "statement": "load_data(ds, offset, n, xs, ys) makes row i of xs the pixels of image offset+i in row-major order, converted, and row i of ys the indicator of label offset+i; it writes nothing else and stays inside the data set whenever offset + n <= N.", "quantifier": "all data sets, image sizes, offsets, batch sizes", "why_tests_cant": "all offsets and sizes", "anchors": ["examples/example_train_mnist_slp.cpp:load_data"]}
{"id": "C77", "title": "A training epoch visits every full batch once, in order", "statement": "train_slp_model leaves in w and b the result of gradient descent over the batches 0 .. floor(N/batch)-1 in order, and changes nothing else; its temporaries are released. The last N mod batch examples have no influence. A batch size of 0 is undefined behaviour.", "quantifier": "all data sets (N < 2^32), image sizes, batch sizes, up to 255 classes, parameters; exact real arithmetic", "why_tests_cant": "iterated effects over all data", "anchors": ["examples/example_train_mnist_slp.cpp:train_slp_model"]}
{"id": "C78", "title": "Accuracy is the share of correct predictions", "statement": "test_slp_model reports (number of examples whose first greatest score x w + b is at the label)/N and modifies nothing; accuracy(ys, y_s) is the share of rows whose first maxima agree.", "quantifier": "all non-empty data sets with labels below k, all parameters, up to 255 classes; exact real arithmetic", "why_tests_cant": "all data and parameters", "anchors": ["examples/example_train_mnist_slp.cpp:accuracy", "examples/example_train_mnist_slp.cpp:test_slp_model"]}
{"id": "C79", "title": "Shorter constructors mean their documented defaults", "statement": "A pool given only a kernel size has stride = kernel size and no padding, so its windows tile the image: every pixel is in exactly one window and exactly the images made of whole tiles are accepted; without arguments the tile is 2x2. Pools given a kernel and padding also stride by the kernel; given a kernel and stride they have no padding. Convolutions default to padding 0, stride 1, rate 1 (output h-r+1 by w-s+1), and paddings, strides, rates go to their own axis; the same for samples on several axes.", "quantifier": "all parameters and image sizes below 2^32", "why_tests_cant": "unbounded parameters; several constructors", "anchors": ["include/ttl/nn/bits/ops/pool2d_trait.hpp", "include/ttl/nn/bits/ops/conv2d_trait.hpp", "include/ttl/nn/bits/traits/multi_linear_sample.hpp"]}
{"id": "C80", "title": "The VGG16 example classifies as the mathematical network does", "statement": "For a batch of images whose height and width are multiples of 32 and weights that load, the VGG16 model of the examples returns the m classes with the greatest probabilities of the first image in descending order, where the probabilities are softmax of a network of 3x3 size-keeping convolutions with bias and relu, 2x2 maxima, row-major flattening and dense layers applied in the written order with the named weights; it leaves only the two results behind. If the height or width is not a multiple of 32 it throws runtime_error and memory is as before.", "quantifier": "all image sizes with h*w*64 <= 2^31, batch sizes, weights and pixels; also all networks of this form", "why_tests_cant": "unbounded sizes and real inputs; the weights are not in the repository, so the example is never run by tests", "anchors": ["examples/example_model_vgg16.cpp", "include/ttl/nn/bits/models/sequential.hpp"]}
{"id": "C81", "title": "MNIST is loaded whole, truncated files pass unnoticed", "statement": "load_mnist_data(dir, \"train\") or (dir, \"t10k\") returns images of shape [60000 or 10000; 28; 28] and labels [same n] that hold, in row-major order, the elements stored in dir/name-images-idx3-ubyte and dir/name-labels-idx1-ubyte; a missing file or another header is a runtime_error that leaves memory as it was, as is any other name. A file with a good header but too few bytes is accepted: exactly the elements that are complete are set, those beyond the end of the file stay uninitialised.", "quantifier": "all directories, file systems, file contents and element types", "why_tests_cant": "quantifies over file contents; the tests do not have the data set", "anchors": ["include/ttl/nn/experimental/bits/datasets/mnist.hpp", "include/ttl/nn/bits/ops/io.hpp"]}
{"id": "C82", "title": "Class names and picture of the VGG16 examples", "statement": "load_class_names returns the lines of the file in order, without their newline characters, including empty ones and a last line that lacks its newline, and nothing else; a missing file is a runtime_error. read_example_image stores in image 0 the picture of the file and then subtracts 123.68, 116.779 and 103.939 from channels 0, 1 and 2 of every image of the batch; it changes nothing else, and nothing at all if the file is missing or has another shape.", "quantifier": "all file contents, batch and image sizes, pixels", "why_tests_cant": "unbounded contents; needs files that are not in the repository", "anchors": ["examples/vgg16_common.hpp"]}
{"id": "C83", "title": "Both VGG16 programs print the most probable classes", "statement": "With files for a picture whose height and width are multiples of 32, both example programs (with layers in local variables and with a sequential model) print, most probable first, the m classes with the greatest softmax probabilities of the mathematical network applied to the picture minus its mean, with probability and name, and give back all memory; for a missing names file, a missing or misshapen picture or another image size they throw runtime_error and memory is as before. If a printed class has no line in the names file behaviour is undefined.", "quantifier": "all pictures, weights and names, all sizes with h*w*64 <= 2^31, all m <= 1000", "why_tests_cant": "unbounded data; the files are not in the repository; names are indexed without a check", "anchors": ["examples/example_layer_vgg16.cpp", "examples/example_model_vgg16.cpp", "examples/vgg16_common.hpp"]}
{"id": "C84", "title": "Rounding error of products and convolutions is bounded", "statement": "On finite float or double data whose sums cannot overflow, each element of a matrix product or of a 2-D convolution (either layout) with the built-in engine is finite and differs from the exact sum of its n products by at most ((1+u)^n - 1) * sum|xy| plus an underflow term (u the unit roundoff); integer-valued data with sum|xy| <= 2^prec give the exact integer. The results of the two layouts need not be equal.", "quantifier": "all formats, shapes, data and convolution configurations", "why_tests_cant": "tests compare few values with a tolerance; the bound must hold for all data and lengths", "anchors": ["include/ttl/nn/bits/engines/plain_impl.hpp", "include/ttl/nn/bits/kernels/cpu/conv2d.hpp"]}
{"id": "C85", "title": "What NaN and infinities do", "statement": "In float or double arithmetic: a NaN factor makes a matrix product element NaN; relu turns NaN into 0; max pooling ignores NaN and mean pooling keeps it; argmax returns 0 if the row starts with NaN and otherwise ignores NaN; softmax always returns finite values between eps and max(eps, 1), and a row with a NaN or +infinity becomes eps everywhere, so that argmax classifies it as class 0.", "quantifier": "all tensors of any values, all geometries, every exp with the special cases of the C standard", "why_tests_cant": "tests use ordinary numbers; special values appear when training diverges", "anchors": ["include/ttl/nn/bits/kernels/cpu/activation.hpp", "include/ttl/nn/bits/kernels/cpu/pool.hpp", "include/ttl/nn/bits/kernels/cpu/utility.hpp"]}
{"id": "C86", "title": "Images of a batch do not influence each other", "statement": "For fixed weights and geometry there is one function of a single image such that 2-D convolution, pooling, bias, batch normalisation, matrix product, softmax and argmax write exactly that function of each image (row) of the batch, whatever the batch size and the other images are. The VGG programs give the same values and classes for two batches, of any sizes, that have the same first image.", "quantifier": "all operators listed, both layouts, all batches of all sizes, all contents", "why_tests_cant": "tests use one fixed batch (often of one image); leaks between images only show when batches differ", "anchors": ["include/ttl/nn/bits/ops/conv2d.hpp", "include/ttl/nn/bits/kernels/cpu/conv2d.hpp", "include/ttl/nn/bits/kernels/cpu/pool.hpp", "include/ttl/nn/bits/kernels/cpu/utility.hpp", "examples/example_model_vgg16.cpp"]}
{"id": "C87", "title": "invoke and the concatenation layers allocate exactly their result", "statement": "ttl::nn::invoke(f, xs...) returns a new tensor of the inferred shape with the result of f and changes nothing else; if the shape function throws nothing happened, and if f throws the memory is as before (ops::new_result instead leaves the tensor behind). The concat_channel4d layers return the inputs one after the other along the channel axis, throw runtime_error when the inputs differ off that axis, and, when the channels add up to 2^32 or more, silently return part of the first input.", "quantifier": "all shape functions and operators, all inputs, memories and sizes", "why_tests_cant": "the tests check only the shape of two results; exceptions and huge channel counts are never exercised", "anchors": ["include/ttl/nn/experimental/functional", "include/ttl/nn/bits/layers/concat.hpp", "include/ttl/nn/bits/layers/call.hpp", "include/ttl/nn/bits/ops/concat.hpp"]}
{"id": "C88", "title": "Integer tensors: unsigned modulo 2^n, signed exact without overflow", "statement": "On uint8_t, uint32_t or uint64_t tensors add, sub, mul, matrix product, column sums and 2-D convolution (both layouts) give the exact integer result modulo 2^n. On signed integer tensors add, matrix product and convolution give the exact result whenever the absolute values of the terms of each sum add up to no more than the range allows, whatever overflow would do.", "quantifier": "all shapes, geometries and element values, every arithmetic that satisfies the rules of C++ for the type", "why_tests_cant": "tests use small ints; overflow appears only for large values and long sums", "anchors": ["include/ttl/nn/bits/engines/plain_impl.hpp", "include/ttl/nn/bits/kernels/cpu/conv2d.hpp", "include/ttl/nn/bits/ops/elementary.hpp", "include/ttl/nn/bits/kernels/cpu/reduce.hpp"]}
{"id": "C89", "title": "Algebra of 2-D convolution", "statement": "For both layouts of ops::conv: results depend only on the pixels under the window and on the filters of their own channel; translating the image by multiples of the strides translates the result; a strided convolution is the stride-1 convolution sampled at every stride-th place; padding equals convolving the explicitly padded image; a 1 x 1 convolution, and a convolution with filters as large as the image, is bit for bit a matrix product of reshaped tensors. In exact arithmetic convolution is linear in image and filters, a centred one-tap filter copies the image, stacked channels add, dilation equals filters spread with zeros, exchanging rows and columns everywhere exchanges them in the result, and batch normalisation after a convolution can be folded into scaled filters and a bias.", "quantifier": "all shapes, strides, rates, paddings, contents; the first group for any arithmetic, the second for commutative rings, folding over the reals", "why_tests_cant": "relations between different runs over unbounded families of geometries", "anchors": ["include/ttl/nn/bits/kernels/cpu/conv2d.hpp", "include/ttl/nn/bits/ops/conv2d.hpp", "include/ttl/nn/bits/ops/im2col.hpp", "include/ttl/nn/bits/ops/conv2d_trait.hpp"]}
{"id": "C90", "title": "Predicted class and loss", "statement": "argmax of softmax(x) is argmax of x for every row exactly when the clamp eps is at most 1/(number of classes); top of softmax(x) lists the classes of top of x in the same order when no probability is clamped, and may not otherwise. onehot followed by xentropy yields -log of the probability given to the label (0 for a label that is not a class). For clamped softmax probabilities the loss lies between 0 and -log eps, a loss below log 2 implies that the predicted class is the label (eps <= 1/2), and the loss is least exactly when the prediction is the label distribution. In floating point the loss against a label is not rounded further, is NaN when another class has probability 0, +inf when the label has probability 0, and always finite behind a softmax with positive clamp, whatever the scores.", "quantifier": "all shapes, numbers of classes, clamps, scores, labels and predictions; reals and every IEEE format", "why_tests_cant": "quantifies over all scores and clamps; the thresholds 1/n and log 2 are exact; NaN depends on a single entry", "anchors": ["include/ttl/nn/bits/kernels/cpu/activation.hpp:softmax", "include/ttl/nn/bits/kernels/cpu/loss.hpp:xentropy", "include/ttl/nn/bits/kernels/cpu/utility.hpp:argmax", "include/ttl/nn/bits/kernels/cpu/utility.hpp:onehot", "include/ttl/nn/bits/kernels/cpu/utility.hpp:top"]}
{"id": "C91", "title": "When training makes progress", "statement": "Training step of the perceptron example on a batch whose label rows are distributions and where no predicted probability is clamped (exact arithmetic): the loss of the batch drops by at least (3 - M)/4 times the squared length of the parameter change, M being the mean squared length of the examples; so it never increases when M <= 3, and for every M > 3 there are batches on which it does. Parameters that a step leaves unchanged have the least loss of all parameters without clamped predictions (with clamped competitors this fails). T steps on one batch with M <= 1 bring the loss within D/(2T) of the loss of any parameters at squared distance D from the starting ones.", "quantifier": "all batches, parameters, numbers of steps, storage orders of the variables and both matrix engines", "why_tests_cant": "the guarantee ranges over all parameters as competitors and all numbers of steps; the constant 3 is exact; a run shows one trajectory", "anchors": ["examples/example_train_mnist_slp.cpp:train_slp_model", "include/ttl/nn/bits/kernels/cpu/activation.hpp:softmax", "include/ttl/nn/bits/kernels/cpu/loss.hpp:xentropy"]}
{"id": "C92", "title": "Operators called with operands that do not fit", "statement": "Operators do not compare the shape of their output with what the shape function would give. Called directly on tensors of any shapes, overlapping in any way and with any contents, these nevertheless change nothing outside their output (unless reading is already undefined) and release their temporaries, also when they throw: matrix products and their gradients, convolutions and their gradients, unfolding, folding and pooling of single images, the 1-D operators, casts, argmax, cross entropy, concatenations, bias gradients, initialisers, similarity and checksums. All other operators take their loop bounds from an input and are confined if that input fits: elementwise operators (size), bias and normalisation, batched pools and unfolding (batch, and channels for nchw), softmax, one-hot, row sums and means, transposes, top. For integer sums and products this condition is exact, and for each of these operators there is a call that silently writes behind its output; the cblas matrix-vector product does so where the builtin one throws.", "quantifier": "all shapes, positions and contents of all operands; both engines; all element types", "why_tests_cant": "overruns corrupt neighbouring memory without any visible failure; tests call operators with matching shapes only", "anchors": ["include/ttl/nn/bits/kernels/cpu/elementary.hpp:binary_pointwise", "include/ttl/nn/bits/kernels/cpu/conv2d.hpp:conv2d", "include/ttl/nn/bits/kernels/cpu/pool.hpp:pool", "include/ttl/nn/bits/kernels/cpu/activation.hpp:softmax", "include/ttl/nn/bits/kernels/cpu/utility.hpp:onehot"]}
{"id": "C93", "title": "Results stored over an operand", "statement": "In these cases a result may be stored over one of its own operands and is the same as in fresh storage: a channels-last convolution anywhere over its image; a channels-first one over its image if place and shape agree; the image gradient of a convolution anywhere over the output gradient or the filter; the filter gradient anywhere over the image; the softmax gradient over the softmax output (same place) or over the softmax input; batched pools from the first element of their own image on, if the result is not larger than the image. (Elementwise, bias, normalisation and loss gradients in place: C27, C30, C32, C36.) A builtin matrix product stored over one or both of its factors is the zero matrix. For matrix products and their gradients, convolutions over the filter, filter gradients over the output gradient, padded pools, transposes, contractions, softmax gradients over the incoming gradient, biases over the bias vector and copies shifted by an element there are calls that silently give another result.", "quantifier": "all shapes, contents, positions and overlaps of the operands named; both engines (products: builtin)", "why_tests_cant": "aliasing errors depend on evaluation order inside the kernels and on how far tensors overlap; tests allocate every tensor separately", "anchors": ["include/ttl/nn/bits/kernels/cpu/conv2d.hpp:conv2d", "include/ttl/nn/bits/ops/gradients/conv2d.hpp", "include/ttl/nn/bits/kernels/cpu/pool.hpp:pool", "include/ttl/nn/bits/ops/gradients/softmax.hpp", "include/ttl/nn/bits/engines/plain_impl.hpp:mm"]}
{"id": "C94", "title": "Algebra of pooling", "statement": "For all four layouts: an output of a pool is a function of the sequence of pixel values in its window alone, so batched nhwc and nchw pools give the same numbers, changing one pixel changes only outputs whose window covers it (same image and channel), and shifting the image by whole strides shifts the result. Max pooling commutes with every monotone map of the values (also one that changes the element type), with relu even for floats with NaN, infinities and both zeros. Max pooling with kernel k1 and stride s1 <= k1 followed by kernel k2, stride s2 is one max pool with kernel k1 + s1 (k2 - 1), stride s1 s2. Over the reals mean pooling is linear, lies between the bounds of the pixels and below max pooling, and tiling by k1 then pooling with (k2, s2) is one mean pool with (k1 k2, k1 s2). 1 x 1 pools are the identity; constant images stay constant. The composition rules fail if the first stride skips pixels (max), if the first windows overlap (mean), and for the sign of float zeros.", "quantifier": "all layouts, sizes, kernels, strides, paddings that leave every window a pixel, and contents", "why_tests_cant": "relations between different calls over all images; a test compares a few outputs with expected numbers", "anchors": ["include/ttl/nn/bits/kernels/cpu/pool.hpp:pool", "include/ttl/nn/bits/ops/pool.hpp:pool", "include/ttl/nn/bits/kernels/cpu/activation.hpp:host_scalar_relu"]}
{"id": "C95", "title": "Algebra of matrix products and dense layers", "statement": "mm, mmt and mtm on the builtin engine give bit-identical results for factors that are equal up to transposition, and mv and vm those of mm with a one-column or one-row matrix over the same memory (any element type, floats included). Selecting or repeating rows of the left and columns of the right factor selects rows and columns of the product. Over a commutative ring, on either engine: products are linear in each factor, the unit matrix is neutral on both sides, the transpose of a product is the product of the transposes exchanged, factors glued along the inner dimension add up, reordering the inner dimension changes nothing, two matmuls may be grouped either way, matmul of one-hot labels with a matrix looks up its rows (zero rows for labels outside), and two dense layers without activation in between are one dense layer with weights W1 W2 and bias B1 W2 + B2. In floating point grouping and reordering can change the result and the lookup can give NaN next to an infinity; with relu in between no single dense layer need exist.", "quantifier": "all sizes, engines and contents; positive sizes on cblas", "why_tests_cant": "relations between different calls for all matrices; a test compares a few products with expected numbers", "anchors": ["include/ttl/nn/bits/engines/plain_impl.hpp:mm", "include/ttl/nn/bits/engines/cblas_impl.hpp:_gemm", "include/ttl/nn/bits/kernels/cpu/blas.hpp:mm", "include/ttl/nn/bits/layers/dense.hpp:dense", "include/ttl/nn/bits/ops/utility.hpp:onehot"]}
{"id": "C96", "title": "The example programs", "statement": "If every tensor and parameter of the programs in examples/ is given contents when it is made, then example_add, example_conv, example_pool, example_conv1d and both example_mlp programs end normally, give results of the shapes they print and leave memory exactly as before. For the sizes in the sources example_layer_mlp prints 10x30x30x32, 10x28x28x64, 10x7x7x64, 10x3136, 10x1000, 10x1000, 10. With other sizes: example_conv and example_mlp (two convolutions, two pools) succeed exactly when the image sides are multiples of 4 and throw std::invalid_argument otherwise, releasing everything; example_pool exactly for even sides; example_conv1d exactly when the filter is not longer than the signal; example_layer_mlp exactly for multiples of 4, otherwise its pool layer throws std::runtime_error. As written the programs put nothing into their tensors: every one of them reads an indeterminate value in its first operator.", "quantifier": "all sizes within the 32-bit limits of the convolution, all tensor contents, all prior memory states, both engines", "why_tests_cant": "the programs check nothing and only print; they run one fixed size and a read of an uninitialised tensor goes unnoticed", "anchors": ["examples/example_1.cpp:example_add", "examples/example_1.cpp:example_conv", "examples/example_1.cpp:example_pool", "examples/example_ops.cpp:example_conv1d", "examples/example_mlp.cpp:example_mlp", "examples/example_layer_mlp.cpp:example_mlp", "examples/utils.hpp:show_signature"]}
{"id": "C97", "title": "The unit tests pass at every size", "statement": "The parametric unit tests of the repository (matrix products, add, bias, axpy, transpose, concat, flatten, 1-D folding and convolution, the gradient of a sum, linear samples, contractions) end normally with every assertion true, not only for the sizes and constants written in tests/ but for all of them: mm, mmt, mtm, mv, vm and matmul of constant matrices on both engines, bias in every layout with plus and multiplies and any two constants, transposition being a permutation and its own inverse pair, concatenation being a permutation, flattening and its gradient keeping the order, col2im1d of im2col1d multiplying each element by how often it is seen, conv1d equal to im2col1d followed by mv, the affine gradient for any seed and number of rounds, the windows of a linear sample covering a vector exactly, and row and column sums of 0, 1, 2, .... They leave memory as it was.", "quantifier": "all tensor sizes (1-D geometry within 32 bits, channel sums below 2^32), all constants, seeds, paddings, strides and rates the constructors accept, all prior memory states; elements are integers", "why_tests_cant": "each test runs one or a handful of sizes; a kernel wrong only for other sizes, strides or constants passes all of them", "anchors": ["tests/test_plain_la_engine.cpp:test_mm", "tests/test_linag.cpp:test_mm", "tests/test_add.cpp:add_test", "tests/test_bias.cpp:test_apply_bias_nhwc", "tests/test_axpy.cpp:axpy", "tests/test_transpose.cpp:test_transpose", "tests/test_concat.cpp:concat_test", "tests/test_reshape.cpp:test_flatten", "tests/test_conv1d.cpp:test_col2im1d", "tests/test_conv1d.cpp:test_conv1d", "tests/test_affine_grad.cpp:affine_grad_test", "tests/test_linear_sample_trait.cpp:test_linear_sample_ksr_nm", "tests/test_reduce.cpp:reduce_test"]}
{"id": "C98", "title": "Algebra of the convolution gradients and of folding", "statement": "The gradient of a convolution with respect to its input is itself a convolution: of the gradient of the result, its cells spread at distance stride with zeros between, with the filters turned by 180 degrees and channels exchanged, stride 1, the same rate, and padding (k-1)*rate minus the forward padding (for stride 1 the gradient tensor is convolved as it is); this convolution is admissible exactly when the forward padding is at most (k-1)*rate. The gradient with respect to the filters is the convolution of the images (channels as images) with the gradient of the result as filters, stride and rate exchanged, always admissible. Both gradients are linear in each argument, and the filter gradient of a batch is the sum of those of its parts. im2col followed by col2im multiplies each pixel by the number of windows that see it, a product of two per-axis counts with a closed form; for tiling windows it is the identity, and then col2im followed by im2col is the identity too.", "quantifier": "all image, filter and batch sizes, paddings, strides and rates the operators accept, both engines, all contents over any commutative ring (the fold law: over any type of elements)", "why_tests_cant": "tests compare gradients at a few fixed sizes against hand-computed numbers; the relation between three different kernels at every stride, rate and padding is not visible there", "anchors": ["include/ttl/nn/bits/ops/gradients/conv2d.hpp", "include/ttl/nn/bits/kernels/cpu/col2im.hpp", "include/ttl/nn/bits/kernels/cpu/conv2d.hpp", "include/ttl/nn/bits/kernels/cpu/im2col.hpp"]}
{"id": "C99", "title": "Two convolutions in sequence are one", "statement": "A convolution followed by a convolution without padding equals one convolution of the first image: padding of the first, product of the strides, rate 1, (k2-1)*rate2*stride1 + (k1-1)*rate1 + 1 taps, and filters whose tap (a, b) sums the products over all pairs of taps landing on it and all channels between. With biases, the one layer has bias b2[t] plus the sum of b1[m] times the weights of the second towards t. The one convolution is admissible whenever the two are. With a padded second convolution the claim is false.", "quantifier": "all sizes, strides, rates, paddings of the first, channel counts, both layouts, both engines, all contents over any commutative ring", "why_tests_cant": "the tests never chain two convolutions; an error in how strides, rates and paddings compose needs a relation between three calls at all geometries", "anchors": ["include/ttl/nn/bits/ops/conv2d.hpp", "include/ttl/nn/bits/kernels/cpu/conv2d.hpp", "include/ttl/nn/bits/ops/bias.hpp"]}
{"id": "C100", "title": "Rounding error of sums, means and single operations", "statement": "In float and double: add and sub have a relative error of at most u (half an ulp of 1), mul and div at most u plus half the smallest positive number, a*x+y two such roundings. A sum of n numbers (summaries, contractions, bias gradients) differs from the exact sum by at most ((1+u)^(n-1)-1) times the sum of the absolute values and never underflows; a mean (summary, reduction over the last axis, mean pooling over the cells in the image) by at most ((1+u)^n-1) times the mean of the absolute values, plus half the smallest positive number, for n up to 2^prec. A dense layer adds one rounding to the error of its product. Batch normalisation with a correctly rounded square root has a relative error of at most (1+u)^2/(1-u)^2-1 (at most 5u). Integers whose absolute values add up to at most 2^prec are summed exactly and averaged with a single rounding. Sums and means are monotone in every element. It is not true that a mean lies between the smallest and the largest element: mean pooling does not preserve constant images.", "quantifier": "all tensors of finite numbers of any rank and size whose sums cannot overflow, every binary format (precision and exponent range), all pooling geometries", "why_tests_cant": "the tests compare a handful of small integers; the error for data of any size and magnitude, and the loss of exactness beyond 2^prec, are statements about all inputs", "anchors": ["include/ttl/nn/bits/ops/elementary.hpp", "include/ttl/nn/bits/kernels/cpu/blas.hpp", "include/ttl/nn/bits/ops/summary.hpp", "include/ttl/nn/bits/kernels/cpu/reduce.hpp", "include/ttl/nn/bits/kernels/cpu/pool.hpp", "include/ttl/nn/bits/kernels/cpu/normalization.hpp", "include/ttl/nn/bits/ops/gradients/bias.hpp"]}
{"id": "C101", "title": "Rounding error of softmax and cross entropy", "statement": "If std::exp has relative accuracy d on the differences that occur, then every output of softmax in float or double lies between (1-u)/hi and (1+u)/lo times the exact probability, up to underflow and before clamping to eps, where hi and lo are (1+d) e^(uB) (1+u)^(n-1) and (1-d) e^(-uB) (2-(1+u)^(n-1)) for a row of n numbers that differ by at most B; with e = d + uB + nu at most 1/8 these factors are at least 1-2e and at most 1+4e. If std::log has relative accuracy d on the predictions, the cross entropy is off by at most the rounding error of a sum of n products plus d times the sum of the absolute values of its terms.", "quantifier": "all tensors of any rank and row length of finite numbers, all spreads B, all accuracies d below 1, every binary format", "why_tests_cant": "the tests check softmax of equal inputs only; accuracy for arbitrary logits needs an argument about all of them", "anchors": ["include/ttl/nn/bits/kernels/cpu/activation.hpp", "include/ttl/nn/bits/kernels/cpu/loss.hpp"]}
{"id": "C102", "title": "Reordering channels, hidden units and classes", "statement": "Reordering the channels of the input of a bias operator, a batch normalisation (together with their parameters), a pool or an argmax reorders the output in the same way, bit for bit and for every element type; for argmax provided the maximum is unique. Reordering the input channels of a convolution in the image and the filter leaves the result unchanged, reordering the output channels in the filter reorders the result. Reordering the hidden units of a network with one hidden layer (the columns of the first weight matrix, the first bias and the rows of the second weight matrix) leaves the output unchanged. Sums do not depend on the order. Softmax follows a reordering of the classes, cross entropy is unchanged by it, mean, variance and standard deviation depend on the multiset of elements only. It is not true that argmax follows a reordering when the maximum is attained twice, nor that sums or softmax are independent of the order in floating point.", "quantifier": "all shapes, layouts, geometries and permutations; the first group for every element type, the convolution and network statements over every commutative ring, the softmax, cross entropy and summary statements over the reals", "why_tests_cant": "invariance under every permutation of every size is a relation between two runs; tests look at single runs", "anchors": ["include/ttl/nn/bits/kernels/cpu/bias.hpp", "include/ttl/nn/bits/kernels/cpu/normalization.hpp", "include/ttl/nn/bits/kernels/cpu/pool.hpp", "include/ttl/nn/bits/kernels/cpu/conv2d.hpp", "include/ttl/nn/bits/ops/blas.hpp", "include/ttl/nn/bits/kernels/cpu/activation.hpp", "include/ttl/nn/bits/kernels/cpu/loss.hpp", "include/ttl/nn/bits/ops/summary.hpp", "include/ttl/nn/bits/ops/utility.hpp"]}
{"id": "C103", "title": "Rounding error of gradients and variances", "statement": "In float and double the gradients computed by the library differ from the exact gradients of the same inputs by a bounded amount: those of products by one rounding; those of matrix products and of a convolution with respect to its filter by the error of one sum of products; that of a bias over nhwc images by the error of a sum; that of a convolution with respect to its image by at most ((1+u)^(d+k-1)-1) times the sum of the absolute values of the products (plus underflow), for a pixel covered by k taps and d output channels; that of softmax by at most ((1+u)^(n+2)-1) times the sum of the absolute values of its terms; that of cross entropy by two roundings. The variance of n numbers with variance v whose computed mean is off by at most e is off by at most ((1+u)^(n+3)-1) v + (1+u)^(n+3) e^2 plus underflow and is never negative; the standard deviation follows. It is not true that the variance of a constant tensor is 0.", "quantifier": "all tensors of finite numbers of any size whose sums cannot overflow, all convolution geometries, every binary format (precision and exponent range)", "why_tests_cant": "gradients are tested with small integers, for which nothing is rounded; bounds for data of any size and magnitude are statements about all inputs", "anchors": ["include/ttl/nn/bits/ops/gradients/mul.hpp", "include/ttl/nn/bits/ops/gradients/matmul.hpp", "include/ttl/nn/bits/ops/gradients/bias.hpp", "include/ttl/nn/bits/ops/gradients/conv2d.hpp", "include/ttl/nn/bits/ops/gradients/softmax.hpp", "include/ttl/nn/bits/ops/gradients/xentropy.hpp", "include/ttl/nn/bits/ops/summary.hpp"]}
{"id": "C104", "title": "Expressions that go through double", "statement": "A float converted to double and back is unchanged, and one addition, subtraction, multiplication, division or square root of floats carried out in double and stored as float gives the float operation, for all operands including infinities and NaN; for two operations in a row this is false. relu_scalar, whose 0.0 makes it go through double, is the function of ops::relu on float and double; on an integer type of at most 64 bits it returns max(0, x) up to 2^53, beyond that the nearest double if it fits the type, and has undefined behaviour if it does not - so it is not relu on int64_t. The pixel function p / 255.0 stored as float is p / 255 rounded once, in [0, 1], strictly increasing in p, 0 for 0 and 1 for 255. softmax maps a row of n equal finite scores to the larger of eps and 1 / n rounded once, in every entry; with the default eps this is exactly the value (R)(1.0 / n) the unit test expects, for all n up to a million.", "quantifier": "all float operands; all integer types of at most 64 bits and all their values; all pixels; all rows and all n up to 2^precision, every std::exp that meets the C standard at 0", "why_tests_cant": "the tests sample a few values and compare up to four units in the last place; that a double intermediate never changes a float result is a statement about 2^64 pairs of operands", "anchors": ["include/ttl/nn/bits/ops/activation.hpp", "tests/test_softmax.cpp", "tests/test_pointwise.cpp", "examples/example_train_mnist_slp.cpp"]}
{"id": "C105", "title": "Backpropagation through networks of any depth", "statement": "For every network built from add, mul, matmul, bias, convolution, relu, softmax and copy_flatten layers - any number of layers, any sizes, either linear algebra engine - calling the operators forward leaves the value of the composed function in the last tensor, and then calling the operators of ops/gradients from the last layer to the first, starting from any gradient GZ at the output, leaves in the gradient tensors the gradient of <GZ, network> with respect to all parameters and the input at once: the derivative along every direction is the sum of the inner products, and this determines the tensors. With cross entropy and mean at the end, one step computes the mean cross entropy loss and moves every parameter against the gradient of the loss; m steps are m steps of gradient descent. The input, the labels and all other memory are untouched. The gradient claim needs inputs of relu to be nonzero and outputs of softmax to be unclamped; at a corner of relu there is no gradient.", "quantifier": "all lists of layers, all sizes, all parameters, inputs, incoming gradients, directions and numbers of steps", "why_tests_cant": "the tests check the gradient operators one by one on small examples and have no network; whether the operators compose to the gradient of the composed function is a statement about all depths and all directions", "anchors": ["include/ttl/nn/bits/ops/gradients/add.hpp", "include/ttl/nn/bits/ops/gradients/mul.hpp", "include/ttl/nn/bits/ops/gradients/matmul.hpp", "include/ttl/nn/bits/ops/gradients/bias.hpp", "include/ttl/nn/bits/ops/gradients/conv2d.hpp", "include/ttl/nn/bits/ops/gradients/activation.hpp", "include/ttl/nn/bits/ops/gradients/softmax.hpp", "include/ttl/nn/bits/ops/gradients/reshape.hpp", "include/ttl/nn/bits/ops/gradients/xentropy.hpp", "examples/example_train_mnist_slp.cpp"]}
{"id": "C106", "title": "How far changes of input and parameters move a network", "statement": "For every network of C105 and any two inputs whose entries differ by at most d, the results differ by at most d times the product of the factors of the layers: 1 for add, bias, relu and copy_flatten, the largest absolute weight for mul, the largest sum of the absolute weights leading to one output for matmul and convolution, 1/2 for softmax. When the parameters change too, each layer adds its change times a factor given by its sizes and the largest input. Pooling by maximum or mean enlarges no difference; the cross entropy of softmax moves by at most 2 d. A class whose score leads all others by more than twice the distance of the results is predicted for both inputs; a lead of exactly twice the distance does not suffice. The factors of matmul and softmax are exact.", "quantifier": "all lists of layers, all sizes, all pairs of parameters and inputs, all distances", "why_tests_cant": "the tests run single operators on single inputs; a bound for all perturbations of an input is a statement about a continuum of pairs of runs", "anchors": ["include/ttl/nn/bits/ops/elementary.hpp", "include/ttl/nn/bits/ops/blas.hpp", "include/ttl/nn/bits/ops/bias.hpp", "include/ttl/nn/bits/ops/conv2d.hpp", "include/ttl/nn/bits/ops/activation.hpp", "include/ttl/nn/bits/ops/reshape.hpp", "include/ttl/nn/bits/ops/pool.hpp", "include/ttl/nn/bits/kernels/cpu/activation.hpp", "include/ttl/nn/bits/ops/utility.hpp"]}
{"id": "C107", "title": "Rounding in networks of any depth", "statement": "In floating point of any precision, every network of C105 that uses the built-in multiplication gives finite results within a bound of those of exact arithmetic: the bound starts with the distance of the inputs, and every layer multiplies it by its factor (C106) and adds its own roundings (u times the result for sums and products, the bound of C84 for matmul and convolution, that of C101 for softmax, none for relu and copy_flatten), provided the magnitudes, tracked the same way, stay below the overflow threshold. Where the exact result leads by more than twice the bound, argmax after the network finds the class of the exact network. The results of the same network in two formats, such as float and double, differ by at most the sum of their bounds, and a lead of more than twice that sum in one fixes the prediction of the other. For smaller leads the prediction can differ.", "quantifier": "all lists of layers, all sizes, all finite parameters and inputs without overflow, all precisions, any std::exp of known accuracy", "why_tests_cant": "rounding errors compose through the layers in ways that depend on all the data; tests compare a few results with tolerances that are guessed", "anchors": ["include/ttl/nn/bits/ops/elementary.hpp", "include/ttl/nn/bits/ops/blas.hpp", "include/ttl/nn/bits/ops/bias.hpp", "include/ttl/nn/bits/ops/conv2d.hpp", "include/ttl/nn/bits/ops/activation.hpp", "include/ttl/nn/bits/ops/reshape.hpp", "include/ttl/nn/bits/kernels/cpu/activation.hpp", "include/ttl/nn/bits/ops/utility.hpp"]}
{"id": "C108", "title": "Any BLAS library", "statement": "Let the CBLAS library add the products of an entry in any order and grouping, with or without fused multiply-adds, differently for every call, size, position and address. Then in floating point of any precision the bounds stated for the built-in loops hold for it unchanged: matmul, both its gradients, matrix times vector, vector times matrix, conv2d in nhwc and in nchw and the gradient of its filter give every entry within the bound of C84 of the exact sum, the gradient of its image within the bound of C103, and networks of any depth mixing both engines stay within the bound of C107 and predict the class of the exact network where that leads by more than twice the bound. Two libraries give results within twice that bound of each other, and the same prediction where one leads by more than four times the bound. Products of integer matrices whose absolute products add up to at most 2^precision are exact, hence the same with every library. In general two libraries give different results: 2^24 + 1 + 1 - 2^24 in float is 0 or 1 or 2. The library that adds in increasing order is the one of the other properties, over any type of numbers.", "quantifier": "all libraries that form each entry from the products by rounded additions and fused multiply-adds in any order, all sizes, shapes, finite data without overflow, all precisions, all lists of layers", "why_tests_cant": "a test runs with the one library that is installed; another version, another processor or another number of threads adds in another order", "anchors": ["include/ttl/nn/bits/engines/cblas_impl.hpp", "include/ttl/nn/bits/engines/linag.hpp", "include/ttl/nn/bits/ops/blas.hpp", "include/ttl/nn/bits/ops/gradients/matmul.hpp", "include/ttl/nn/bits/kernels/cpu/conv2d.hpp", "include/ttl/nn/bits/ops/conv2d.hpp"]}
{"id": "C109", "title": "VGG networks in floating point", "statement": "In floating point of any precision the VGG network of the examples (any blocks of 3 x 3 convolutions with bias, relu and max pooling, any hidden layers, any number of classes) gives every probability within a computable bound of the exact network with the same parameters: every layer multiplies the error by the largest sum of absolute weights leading to one output and adds its own roundings, pooling, relu and flattening add nothing, softmax halves it and adds the roundings of C101. The classes are listed in the order of the computed probabilities; two classes whose exact probabilities differ by more than twice the bound appear in the exact order (the better one is in the list, earlier), and a class that leads by more than twice the bound comes first. For VGG16 the bound is the one of its sixteen layers. Closer classes can be swapped: scores 2^24 + 1 and 2^24 tie in float, and the worse class is listed first.", "quantifier": "all numbers of images, sizes divisible by 2 per block, blocks, hidden layers, classes, k, finite parameters and images without overflow, all precisions, any std::exp of a given accuracy", "why_tests_cant": "the result of a network of sixteen layers has no closed form to compare with; comparing with another implementation compares two rounded results, and only on the images at hand", "anchors": ["examples/example_model_vgg16.cpp", "include/ttl/nn/bits/layers/conv.hpp", "include/ttl/nn/bits/layers/dense.hpp", "include/ttl/nn/bits/layers/pool.hpp", "include/ttl/nn/bits/kernels/cpu/pool.hpp", "include/ttl/nn/bits/kernels/cpu/utility.hpp"]}
{"id": "C110", "title": "Training in floating point", "statement": "In floating point of any precision the training loop of the example keeps every weight and bias finite, whatever the scores are and however inaccurate std::exp is, provided it has the special cases of the C standard: softmax keeps every probability between its positive lower bound and 1, so one step moves a parameter by at most about the largest pixel, and the parameters after any number of steps are below a computable bound. For the example itself (float, 28 x 28 pixels, batches of 100, weights .5, biases 0, at most 60000 images of any content) no parameter exceeds 602. If std::exp has a given relative accuracy, the parameters are within a computable bound of those of exact gradient descent on the same images, the error of each step being the previous error, what it does to the scores and probabilities, and the roundings of all operations of the step. Rounding can stop training altogether: parameters of 2^26 do not move although exact descent moves them by 1/2. With the lower bound 0 in softmax a single step makes all parameters NaN.", "quantifier": "all images and labels, image sizes, class counts up to 255, batch sizes, numbers of steps, precisions, finite starting parameters without overflow, any std::exp and std::log as described", "why_tests_cant": "training is compared with nothing in the tests; a run on one data set cannot exclude overflow or NaN on another one, nor say how far rounding drives the parameters from the exact ones", "anchors": ["examples/example_train_mnist_slp.cpp:93-149", "include/ttl/nn/bits/kernels/cpu/activation.hpp", "include/ttl/nn/bits/ops/gradients/softmax.hpp", "include/ttl/nn/bits/ops/gradients/xentropy.hpp", "include/ttl/nn/bits/kernels/cpu/blas.hpp"]}
{"id": "C111", "title": "The training program from files to files", "statement": "main of example_train_mnist_slp.cpp, run in float on MNIST files of any content with any working std::exp: it reads both data sets, trains, writes the trained parameters to w.idx and b.idx, and prints three accuracies. If tar works, params.idx.tar holds the trained parameters and the three numbers are identical: one minus the share of test images whose largest score is not at their label, within 1e-6. Every parameter is finite and at most 602, no other file changes, and no tensor remains allocated. In general the third number is the accuracy of the parameters the archive holds after the call of system(), because its result is ignored: with a failing tar and an archive of an earlier run the program ends normally and reports the earlier parameters. A missing or malformed data set, an unwritable file, and a missing archive or one whose length is not a multiple of 512 end in std::runtime_error with all tensors released. An unset HOME is undefined behaviour.", "quantifier": "all images, labels 0 to 9 in the test set, file systems, home directories, std::exp and std::log with the special cases of the C standard, effects of system()", "why_tests_cant": "the program needs the MNIST files and a shell and is not run by the tests; that the written and re-read parameters give the same accuracy must hold for every outcome of training", "anchors": ["examples/example_train_mnist_slp.cpp:153-213", "include/ttl/nn/bits/ops/io.hpp", "include/ttl/nn/bits/ops/io_tar.hpp", "include/ttl/nn/experimental/bits/datasets/mnist.hpp"]}
{"id": "C112", "title": "How far rounding moves a reported accuracy", "statement": "test_slp_model in floating point of any precision, with parameters within e of exact ones and pixels within g of exact ones, reports an accuracy that differs from the one exact arithmetic reports by at most the share of images whose exact scores have no leader by more than twice a computable error, plus 3 / 2^24 for the two roundings of the final division and subtraction. Images with such a leader are counted the same way. For the training program (C111, 28 x 28 bytes, 10 classes, parameters at most m) a lead of m / 6 suffices. Images without a lead can be counted differently: one image with exact scores 2^24 and 2^24 + 1 has accuracy 1 exactly and 0 in float.", "quantifier": "all images, labels, sizes, class counts up to 255, up to 2^24 images, precisions, parameters and pixel functions without overflow", "why_tests_cant": "a test sees the reported number only; that it is the accuracy of the exact computation up to the close calls is a statement about all images and parameters", "anchors": ["examples/example_train_mnist_slp.cpp:153-168", "examples/example_train_mnist_slp.cpp:61-76", "include/ttl/nn/bits/ops/utility.hpp:50-67"]}
{"id": "C113", "title": "Losses and mistakes during one pass of training", "statement": "One run of train_slp_model over T batches (exact arithmetic, no clamped probability): let P o be the parameters the function gives on the first o batches. The sum over all batches of the loss under P o, the loss printed before the step, is at most that of any fixed parameters Q plus half the squared distance of Q from the start plus half the sum of the squared lengths of the steps. If the mean squared length of the images of every batch is at most M < 1, then (1 - M) times the sum is at most twice the sum for Q plus the squared distance, and the images that P o misclassifies before their step number at most n / ((1 - M) ln 2) times that. For long images no such factor exists: on two equal images with different labels the losses exceed any multiple of those of the starting parameters.", "quantifier": "all data sets, labels, pixel functions, sizes, class counts up to 255, numbers of batches, starting and competing parameters, both matrix engines", "why_tests_cant": "the bound compares one run with all parameters and holds for every order and number of batches; a run shows one sequence of losses", "anchors": ["examples/example_train_mnist_slp.cpp:92-151", "include/ttl/nn/bits/kernels/cpu/activation.hpp", "include/ttl/nn/bits/ops/gradients/softmax.hpp", "include/ttl/nn/bits/ops/gradients/xentropy.hpp"]}
{"id": "C114", "title": "The images written by example_mnist", "statement": "example_mnist built with OpenCV calls imwrite once for every image of the test file, in order: the name is images/N.png with N the decimal numeral of its number counted from 1, so no two images share a name, and the bytes are those of the image in the file. The array of 32 characters for the name suffices exactly for numbers of at most 20 digits. Afterwards memory is as before. Without OpenCV nothing is written. A missing file or one for another shape gives std::runtime_error and leaves no storage behind. A file that ends early is accepted, and with OpenCV the missing pixels are read uninitialised: undefined behaviour. HOME unset is undefined behaviour too.", "quantifier": "all file systems and file contents, numbers and sizes of images below 2^32, all states of memory", "why_tests_cant": "a run shows one file; that no name overflows the array or repeats, and what happens with every shorter file, concerns all of them", "anchors": ["examples/example_mnist.cpp:16-39", "include/ttl/nn/bits/ops/io.hpp", "include/ttl/nn/bits/kernels/cpu/io.hpp:104-122"]}
