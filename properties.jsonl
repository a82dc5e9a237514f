{"id": "C01", "title": "Evaluation returns the mathematical value of every requested tensor", "statement": "Evaluating any list of tensors of a graph that contains no in-place update returns, for each requested tensor, exactly the value obtained by recursively applying the tensors' operations to the current variables and fed placeholders; the value does not depend on which other tensors are requested, nor on their order.", "quantifier": "every finite acyclic graph, every operation semantics, every variable state, every feed, every list of distinct targets", "why_tests_cant": "The evaluator walks an arbitrary DAG with an explicit stack and caches results; only finitely many graph shapes and target orders can be tried.", "anchors": ["src/evaluation.rs: Graph::eval, would_not_visit, OpOutputStorage", "src/evaluation.rs: Evaluator::run"]}
{"id": "C02", "title": "Every operation runs at most once, after its inputs, and only if needed", "statement": "During one evaluation an operation is executed at most once even when its result is used many times, never before the operations it reads from, and only if some requested tensor depends on it; every needed operation does run.", "quantifier": "every acyclic graph and every target list", "why_tests_cant": "Sharing patterns in a DAG are unbounded; a test sees only specific diamonds.", "anchors": ["src/evaluation.rs: Graph::eval"]}
{"id": "C03", "title": "Evaluation terminates in time linear in the graph", "statement": "On an acyclic graph the evaluator finishes after at most 2*(targets + edges) traversal steps. A cyclic graph, which depends_on lets a user create, makes evaluation run for ever.", "quantifier": "every acyclic graph and target list for termination; a concrete user-constructible cycle for non-termination", "why_tests_cant": "Termination and non-termination are statements about every number of steps.", "anchors": ["src/evaluation.rs: Graph::eval", "src/tensor_ops/mod.rs: control_dependencies", "src/tensor.rs: Tensor::depends_on"]}
{"id": "C04", "title": "A failing operation fails exactly its dependents", "statement": "If an operation returns an error, the requested tensors that depend on it are returned as that error (an error of one of their ancestors), the dependents' operations are not executed, and every requested tensor that does not depend on a failing operation is returned with its normal value.", "quantifier": "every acyclic graph, every set of failing operations, every target list", "why_tests_cant": "The combinations of failing operations and graph shapes are unbounded.", "anchors": ["src/evaluation.rs: Graph::eval (incoming_nodes_status)", "src/op.rs: OpError"]}
{"id": "C05", "title": "Placeholder feeds: first match wins, shapes are checked, missing feeds panic", "statement": "Reading a placeholder yields the first feed, in feed order, whose key is that tensor or that tensor's name; it panics if that feed violates the placeholder's declared shape (rank, or any declared positive dimension; -1 matches anything) or if no feed matches. Feeds for other placeholders never influence it. Installing a feeder discards all feeds given earlier. Creating a placeholder panics exactly if a declared dimension is neither -1 nor positive (or the graph is full).", "quantifier": "every feed list, placeholder, declared shape and fed shape", "why_tests_cant": "Feed lists are arbitrary and may contain duplicates, id- and name-keyed entries in any order.", "anchors": ["src/evaluation.rs: find_placeholder_value_by_key, Evaluator::feed, Evaluator::set_feeder", "src/tensor.rs: KnownShape::validate"]}
{"id": "C06", "title": "Variables are only changed by executed in-place operations", "statement": "An evaluation changes a variable only if some executed operation was given that variable as an in-place operand; an evaluation that executes none leaves every variable unchanged. A variable requested as a target is returned with the value it has after the whole evaluation.", "quantifier": "every graph, target list and initial variable state", "why_tests_cant": "Which variables may change depends on the whole set of executed operations.", "anchors": ["src/evaluation.rs: Graph::eval (allow_mut, array_list clone)", "src/op.rs: OpInput"]}
{"id": "C07", "title": "Requesting the same computed tensor twice", "statement": "The intended contract is that each entry of the target list gets a result. For variables and placeholders this holds with repetitions. For any computed tensor that occurs twice among the targets of one evaluation the run panics.", "quantifier": "every graph and every target list", "why_tests_cant": "The outcome must be known for every repetition pattern.", "anchors": ["src/evaluation.rs: OpOutputStorage::take, Graph::eval"]}
{"id": "C08", "title": "Graph construction invariants", "statement": "Every tensor created through the builder gets a fresh identity equal to the number of tensors created before; creating tensors never alters existing ones; every tensor's inputs were created before it and its rank exceeds the rank of each of its inputs, so the graph is acyclic; creation panics once more than 500001 tensors would exist. depends_on breaks the ordering invariant: afterwards a tensor may have an input of larger rank. A chain of builder calls makes a tensor with exactly the inputs appended, in order, with their mutability and selectors; it is differentiable unless the last set_differentiable said otherwise; gradients go to the backprop inputs if any were appended and to the inputs otherwise; its rank is 0 without inputs and else one more than the largest rank of an input; the chain panics only for declared dimensions that are 0 or below -1, or when the graph is full. Functions of tensors make a tensor from exactly the operands given, in that order; gradients pass through all of them (also through the tensors made for gradients) except stop_gradient and shape; functions of one tensor attach the operand's shape tensor to the result, except neg and clip, which attach none; flatten attaches the shape of its operand, not the flattened one.", "quantifier": "every sequence of tensor constructions", "why_tests_cant": "It is an invariant over all construction histories.", "anchors": ["src/graph.rs: Graph::install", "src/tensor.rs: TensorBuilder::build", "src/tensor_ops/mod.rs: control_dependencies"]}
{"id": "C09", "title": "One tensor per variable per graph", "statement": "Within a graph, asking for a variable's tensor repeatedly returns the same tensor, different variables never share a tensor, and clearing the context forgets all tensors so that later requests create fresh valid ones.", "quantifier": "every interleaving of variable lookups, other constructions and clears", "why_tests_cant": "It quantifies over all construction histories.", "anchors": ["src/variable.rs: GetVariableTensor, variable_by_id", "src/graph.rs: Context::clear"]}
{"id": "C10", "title": "depends_on orders effects but loses gradients", "statement": "After x.depends_on(ds), every evaluation that computes x first executes every tensor of ds, and x's value is otherwise computed from the same operands. The gradient contribution flowing through x's first operand is dropped.", "quantifier": "every graph, x and ds for which the result is acyclic", "why_tests_cant": "Execution order has to hold for every graph around x.", "anchors": ["src/tensor_ops/mod.rs: control_dependencies", "src/tensor_ops/graph_ops.rs: ControlDependency"]}
{"id": "C11", "title": "Reverse-mode differentiation sums over all paths", "statement": "For distinct, and distinct-from-y, leaf tensors xs and distinct ys, the gradient returned for x evaluates to the sum over all differentiable paths from ys to x of the composed vector-Jacobian products of the operations along the path, whatever order equal-rank tensors are processed in. Without any y the call panics.", "quantifier": "every ranked graph of operations with additive vector-Jacobian products, every ys, gys, xs, every tie-breaking of the work queue", "why_tests_cant": "The number of paths is exponential in the graph; accumulation order and sharing cannot be exhausted by tests.", "anchors": ["src/gradient.rs: compute_gradients, init_gradient_map, GradientInfo::gradient", "src/tensor_ops/mod.rs: grad, grad_with_default"]}
{"id": "C12", "title": "The gradient is the derivative (scalar graphs over the reals)", "statement": "For every graph of elementwise operations from the library's smooth set, evaluated at a point where each operation is differentiable, the value of the gradient tensor equals the derivative of the output with respect to that input in the sense of real analysis.", "quantifier": "every graph over the modelled operations, every input point inside the domains", "why_tests_cant": "Finite differences test single points with tolerance; the claim is about a limit at every point.", "anchors": ["src/gradient.rs: compute_gradients", "src/tensor_ops/math_ops.rs", "src/tensor_ops/binary_ops.rs", "src/tensor_ops/activation_ops.rs"]}
{"id": "C13", "title": "Backpropagation visits each tensor once, consumers first", "statement": "With distinct ys, during gradient construction each operation's gradient rule is invoked at most once and only after the rules of all its on-path consumers, so the number of rule invocations is at most the number of tensors; construction always terminates.", "quantifier": "every ranked graph, ys, xs and tie-breaking", "why_tests_cant": "A worklist property over all graph shapes.", "anchors": ["src/gradient.rs: compute_gradients"]}
{"id": "C14", "title": "Gradients of unreachable or non-differentiable inputs are absent", "statement": "If no differentiable path leads from ys to x then x is reported as not reached, and the public API returns zeros of x's shape; if at least one rule propagates something to x the API returns the accumulated gradient. If x lies on a differentiable path but every rule on every path yields no gradient, the API panics instead of returning zeros.", "quantifier": "every graph, ys, xs", "why_tests_cant": "Reachability ranges over all graphs.", "anchors": ["src/gradient.rs: GradientMap::extract_grad, init_gradient_map", "src/tensor_ops/mod.rs: grad"]}
{"id": "C15", "title": "Repeated and intermediate differentiation targets", "statement": "Asking for the gradient of the same multiply-used tensor twice in one call, of a multiply-used intermediate tensor, or passing the same output twice with explicit output gradients, should give the same value as asking once. It does not: witnesses give values that double count.", "quantifier": "claimed for all ys, xs; refuted by concrete graphs", "why_tests_cant": "A test would have to guess the pattern; the proof shows exactly which side condition the correctness theorem needs.", "anchors": ["src/gradient.rs: GradientInfo::gradient, compute_gradients", "src/tensor_ops/mod.rs: grad_with_default"]}
{"id": "C16", "title": "Building gradients does not disturb the graph", "statement": "Computing gradients only adds tensors: every previously existing tensor keeps its operation and operands, hence evaluates to the same value afterwards.", "quantifier": "every graph and gradient request", "why_tests_cant": "Non-interference must hold for all graphs.", "anchors": ["src/gradient.rs: compute_gradients", "src/op.rs: GradientContext::compute_input_grads"]}
{"id": "C17", "title": "stop_gradient is the identity with no gradient", "statement": "stop_gradient(x) evaluates to x, and no path through it contributes to any gradient.", "quantifier": "every graph containing stop_gradient tensors", "why_tests_cant": "Needs all graph contexts.", "anchors": ["src/tensor_ops/mod.rs: stop_gradient", "src/tensor_ops/gradient_ops.rs", "src/gradient.rs: init_gradient_map"]}
{"id": "C18", "title": "Broadcasting gradients are adjoint", "statement": "For operands whose shapes broadcast to a non-empty result, the gradient of +, -, *, / with respect to an operand that has the result's rank (or rank 0) has that operand's shape and is the vector-Jacobian product: its inner product with every direction is the real derivative along that direction. The helper operations that reduce and broadcast gradients are each other's gradients, so this also holds for second derivatives. An operand of smaller nonzero rank makes the gradient panic although the value exists (vector plus matrix), or gives a silently wrong gradient for some shapes; broadcasting against a zero-length axis makes the gradient panic.", "quantifier": "every pair of broadcastable shapes, every data", "why_tests_cant": "Shapes and ranks are unbounded.", "anchors": ["src/tensor_ops/binary_ops.rs: MaybeReduceSum, MaybeBroadcast, AddOp, SubOp, MulOp, DivOp, maybe_reduce"]}
{"id": "C19", "title": "Elementwise arithmetic follows broadcasting and is commutative where expected", "statement": "a+b and a*b have the broadcast shape, hold the elementwise sum/product, and are symmetric in a and b; subtraction and division likewise elementwise (division by a one-element vector is elementwise or panics, depending on how ndarray treats an empty index). Shapes that do not broadcast panic. The shape tensor attached to the result is the result's shape when ranks agree or one operand is rank 0; for other unequal ranks asking for it is an error although the value exists.", "quantifier": "all shapes and data", "why_tests_cant": "Shape pairs are unbounded and the code has scalar special cases.", "anchors": ["src/tensor_ops/binary_ops.rs: add_forward, mul_forward, SubOp::compute, DivOp::compute"]}
{"id": "C20", "title": "Gradient rules of elementwise functions are the true derivatives", "statement": "For each of sin, cos, tan, asin, acos, atan, sinh, cosh, tanh, asinh, acosh, atanh, exp, exp2, exp10, ln, log2, log10, sqrt, pow, square, inv, inv_sqrt, neg, abs, sigmoid, softplus, relu, elu, the value propagated to the input equals the output gradient times the derivative at the input, at every interior point of the domain (away from the kink for abs, relu, elu).", "quantifier": "every real input in the domain and every incoming gradient", "why_tests_cant": "Continuum of inputs.", "anchors": ["src/tensor_ops/math_ops.rs", "src/tensor_ops/activation_ops.rs"]}
{"id": "C21", "title": "Variable registration, lookup and shadowing", "statement": "Registering an array returns a fresh identifier through which exactly that array is found from then on; name lookups in a namespace return the most recently registered array of that name in that namespace; registrations never change other arrays, other names or other namespaces.", "quantifier": "every history of registrations and lookups over any namespaces and names", "why_tests_cant": "It is a refinement to a map over all histories.", "anchors": ["src/variable.rs: VariableEnvironment::register_variable, VariableSlot, NamedVariableSlot, VariableNamespace"]}
{"id": "C22", "title": "Saving and loading variables is a round trip", "statement": "If no namespace or variable name contains the reserved separator character, loading what was saved restores every array, name and namespace. With the separator in a name the round trip fails: names are truncated or two variables collapse into one.", "quantifier": "every environment", "why_tests_cant": "All names and environments.", "anchors": ["src/variable.rs: VariableEnvironment::save, load, initialize, load_internal, prepare_for_save, FullName"]}
{"id": "C23", "title": "Failed loads and crashes around save", "statement": "A load that fails leaves the environment untouched. Saving is not atomic: a crash after the file is opened destroys the previously saved state.", "quantifier": "every file content, every crash point", "why_tests_cant": "Crash points and file contents cannot be enumerated by tests.", "anchors": ["src/variable.rs: save, initialize, load_internal"]}
{"id": "C24", "title": "SGD and momentum training", "statement": "Over exact arithmetic: an update call for one parameter, whose gradient tensor overwrites nothing, returns when the step is possible, replaces the parameter and its state by the optimizer's step computed from the values before the call, and changes no other variable. After any number of update calls with gradients g1..gn (of the parameter's shape, in any graphs) the parameter is p0 - lr*(g1+...+gn) for SGD; for momentum, started with a fresh optimizer, the velocity stored under the parameter's name is -lr*sum momentum^(n-k)*gk and the parameter has moved by the sum of the velocities.", "quantifier": "every parameter value and shape, gradient history of any length, learning rate, momentum, graph, feeds and operations", "why_tests_cant": "Histories are unbounded.", "anchors": ["src/tensor_ops/gradient_descent_ops/sgd.rs", "src/optimizers/sgd.rs", "src/optimizers/momentum_sgd.rs", "src/optimizers/mod.rs: Optimizer::update"]}
{"id": "C25", "title": "AdaGrad and Adam training follows the published recurrences", "statement": "Over exact arithmetic, from a fresh optimizer: after any number of update calls with gradients g1..gn the AdaGrad accumulator is the sum of squared gradients and the parameter has moved by the sum of -lr*gk/(sqrt(sum of squares up to k)+1e-7); the Adam moments are the exponential averages (1-b)*sum b^(n-k)*gk (and gk squared), the step counter is n+1 and the parameter has moved by the sum of the bias-corrected published moves, provided powf agrees with whole powers of b1 and b2. With 0<=b1,b2<1 and eps>0 no update divides by zero or takes the root of a negative number.", "quantifier": "every gradient history of any length, parameter shape and hyper-parameters", "why_tests_cant": "Histories are unbounded.", "anchors": ["src/tensor_ops/gradient_descent_ops/adagrad.rs", "src/tensor_ops/gradient_descent_ops/adam.rs", "src/optimizers/adagrad.rs", "src/optimizers/adam.rs", "src/optimizers/mod.rs: Optimizer::update"]}
{"id": "C26", "title": "Multi-parameter updates are simultaneous only when readers are shared", "statement": "One update call updates the listed parameters from the last to the first. If every tensor that reads one updated parameter for the gradient of a parameter listed before it is also used for the gradient of that parameter or of one listed after it, the call steps every parameter from the values before the call and changes nothing else, and it returns when every step is possible. Without that the expectation fails: for y = w1*w2 updated by SGD with parameters w1, w2, the gradient of w1 is computed after w2 was updated, so w1 becomes w1 - lr*(w2 - lr*w1) instead of w1 - lr*w2, for every non-zero lr and w1.", "quantifier": "every graph, optimizer, list of parameters and feeds; the failure for every learning rate and value", "why_tests_cant": "Order of effects in one evaluation depends on graph shape.", "anchors": ["src/optimizers/mod.rs: Optimizer::update", "src/evaluation.rs: Graph::eval"]}
{"id": "C27", "title": "Reduce-sum and its gradient", "statement": "Over exact arithmetic, a reduction (sum, product, minimum, maximum) over any set of distinct axes, given with positive or negative indices in any order, combines exactly the elements that agree on the other axes, with and without keep_dims; with sparse_axes the axes are the positions of the ones in the mask; the gradient of reduce_sum and of sum_all is the vector-Jacobian product. Boundaries: an axis named twice removes a further axis; an empty vector is returned unchanged instead of the sum 0; an axis out of range panics. (Operands stored by rows; see C76 and C77 for others.)", "quantifier": "all shapes, axes sets, data", "why_tests_cant": "Shapes and axes are unbounded.", "anchors": ["src/tensor_ops/reduction_ops.rs: ReduceSum, ReduceGradCommon", "src/ndarray_ext.rs: normalize_negative_axes"]}
{"id": "C28", "title": "Second-order gradient of reductions has the wrong shape", "statement": "The gradient of reduce_sum's gradient with respect to the upstream gradient should be reduce_sum with the same keep_dims (proved to be the vector-Jacobian product). The code inverts the flag, so for every shape and every non-empty set of axes the result has the wrong shape and is not the gradient.", "quantifier": "all shapes and axes", "why_tests_cant": "All shapes.", "anchors": ["src/tensor_ops/reduction_ops.rs: ReduceGradCommon::grad"]}
{"id": "C29", "title": "Concatenation, its inverse and its gradient", "statement": "concat of equally shaped (except along the axis) tensors along a non-negative axis is the tensor in which each operand occupies the block after the previous ones; split with the operands' sizes returns the operands and concat of the parts of a split returns the tensor; a negative axis always panics. The gradient for the first operand is the block of the output gradient that the operand occupies, which is the vector-Jacobian product. For every later non-empty operand that does not start at position 0 the computed block is a different one (it starts one operand early and ends at the operand's own length), so the gradient is wrong for some output gradient.", "quantifier": "all ranks, shapes, numbers of operands, data", "why_tests_cant": "All shapes and operand counts.", "anchors": ["src/tensor_ops/array_ops.rs: Concat, ConcatGrad, Split", "src/tensor_ops/mod.rs: concat, split"]}
{"id": "C30", "title": "Slice and split and their gradients", "statement": "slice with in-range bounds (negative bounds count from the end, an end of -1 means to the end) returns that block; the i-th part of split with sizes summing to the axis length is the block of that size after the previous ones; the gradient of either is the vector-Jacobian product (the incoming gradient placed into zeros).", "quantifier": "all ranks, shapes, bounds, axes (also negative), data", "why_tests_cant": "All shapes.", "anchors": ["src/tensor_ops/array_ops.rs: Slice, SliceGrad, Split, SplitGrad"]}
{"id": "C31", "title": "Gather and its gradient", "statement": "gather along any valid axis with any non-empty index array (repeats allowed, gather_common also accepts negative indices) returns the tensor whose index is the parameter's with the axis replaced by the index array's axes. For a non-negative axis and no index -1 the gradient is the vector-Jacobian product, accumulating over repeated indices. The gradient panics for every negative axis and whenever an index is -1; an empty index array panics. (Operands stored by rows; see C76 and C77 for others.)", "quantifier": "all ranks, shapes, index arrays, data", "why_tests_cant": "All shapes and index arrays.", "anchors": ["src/tensor_ops/array_ops.rs: Gather, GatherGrad"]}
{"id": "C32", "title": "Tile and its gradient", "statement": "tile repeats the tensor along the axis: entry i on that axis is the operand's entry i modulo its length. The gradient has length one on the tiled axis whatever the operand's length: it is the vector-Jacobian product when that length is one and has the wrong shape otherwise.", "quantifier": "all ranks, shapes, axes, counts, data", "why_tests_cant": "All shapes.", "anchors": ["src/tensor_ops/array_ops.rs: Tile"]}
{"id": "C33", "title": "Reshape, flatten, squeeze, expand_dims", "statement": "reshape to any shape with the same number of elements (one entry may be -1) keeps the elements in order, and nothing else succeeds; flatten gives the elements as a vector; for non-negative distinct axes expand_dims inserts unit axes at those positions and squeeze removes them, squeeze undoes expand_dims, and the gradients of all are vector-Jacobian products. For negative axes: expand_dims with -1 puts the axis before the last one and its gradient panics; squeeze with -1 is right but its gradient has the wrong shape; squeezing the two last axes as -1 and -2 panics. (Operands stored by rows; see C76 and C77 for others.)", "quantifier": "all ranks, shapes, axis lists, data", "why_tests_cant": "All shapes.", "anchors": ["src/tensor_ops/array_ops.rs: Reshape, Squeeze, ExpandDims", "src/tensor_ops/mod.rs: flatten"]}
{"id": "C34", "title": "Transpose and its gradient", "statement": "transpose with a permutation rearranges the axes as given, the inverse transpose restores the tensor, and the gradient (for the transpose and for the inverse transpose that gradients use) is the vector-Jacobian product; axes that miss a position panic.", "quantifier": "all ranks, shapes, permutations, data", "why_tests_cant": "All shapes and permutations.", "anchors": ["src/tensor_ops/math_ops.rs: Transpose, do_transpose"]}
{"id": "C35", "title": "Matrix product and its gradients", "statement": "matmul computes the matrix product of its operands, each optionally transposed first, answers mismatched inner dimensions with an error and panics on operands that are not matrices. For the untransposed product both gradients are the vector-Jacobian products. The rules for products with a transposed operand, which arise when differentiating twice, ignore the transposition: the gradient of the transposed operand is the transpose of the right one, and the other gradient fails unless that operand is square (and is wrong then).", "quantifier": "all matrix sizes and real data", "why_tests_cant": "All sizes.", "anchors": ["src/tensor_ops/dot_ops.rs: MatMul"]}
{"id": "C36", "title": "Softmax and log-softmax", "statement": "softmax(x, axis) is exp(x_i) over the sum of the exponentials along the axis: every entry is positive and at most 1, each line sums to one, adding an amount that is constant along each line changes nothing, and the exponential is never applied to a positive number. Its gradient is the vector-Jacobian product. log_softmax is x minus the logarithm of that sum; its gradient is the vector-Jacobian product for axis 1 only: for a vector it panics, and for another axis it is wrong (the sum is always taken over axis 1).", "quantifier": "all shapes without empty dimensions, all axes in either notation, all real data", "why_tests_cant": "Continuum of inputs, every shape; the existing tests use axis 1.", "anchors": ["src/tensor_ops/activation_ops.rs: softmax_impl, Softmax", "src/tensor_ops/xent_ops.rs: LogSoftmax"]}
{"id": "C37", "title": "im2col/col2im and convolution", "statement": "Over exact arithmetic, if the kernel has yh by yw places on the padded image (and the sizes fit 32-bit integers) conv2d returns the directly defined cross-correlation with padding, stride and dilation, whatever was in the freshly allocated memory; the columns it returns give, with another filter, conv2d of the same image with that filter. Differing channel counts are an error. If the places cover the padded image, conv2d_transpose returns the directly defined transposed convolution and is the adjoint of conv2d: <y, conv2d(x)> = <conv2d_transpose(y), x>.", "quantifier": "all batch sizes, channels, image and kernel sizes, pads, strides, dilations, real data and uninitialised memory contents", "why_tests_cant": "All sizes.", "anchors": ["src/tensor_ops/conv_ops/mod.rs: im2col, col2im, im2col_batch", "src/tensor_ops/conv_ops/conv2d.rs", "src/tensor_ops/conv_ops/conv2d_transpose.rs"]}
{"id": "C38", "title": "Convolution gradient shape for inexact strides", "statement": "If the gradient of conv2d for its image is computed, it has the image's shape exactly if the stride divides the sliding range (padded size minus the dilated kernel size) on both axes; otherwise the gradient is smaller than the image. With overflow checks the gradient panics if twice the padding is larger than stride*(output height - 1), although the convolution itself succeeds.", "quantifier": "all sizes, strides, pads, dilations", "why_tests_cant": "All sizes.", "anchors": ["src/tensor_ops/conv_ops/conv2d.rs: Conv2D::grad", "src/tensor_ops/conv_ops/conv2d_transpose.rs: conv2d_transpose_extract_params"]}
{"id": "C39", "title": "Parallel batch loops are schedule independent", "statement": "Every interleaving of the memory accesses of the batch items in conv2d, conv2d_with_cols, conv2d_transpose and im2col_batch leaves the same memory (bit for bit, for any element arithmetic) as processing the items one after the other.", "quantifier": "every interleaving of the items' individual loads and stores, every memory, any element type", "why_tests_cant": "Schedules cannot be enumerated.", "anchors": ["src/tensor_ops/conv_ops/mod.rs: im2col_batch", "src/tensor_ops/conv_ops/conv2d.rs", "src/tensor_ops/conv_ops/conv2d_transpose.rs"]}
{"id": "C40", "title": "Max pooling", "statement": "Without padding each output of max_pool2d is the first (row by row) largest pixel of its window and its position is recorded, as long as positions fit the float's significand; the gradient adds each output's gradient to the recorded pixel and is the vector-Jacobian product where every window has one largest pixel and the windows cover the image; the second-order rule is right. With padding it panics (overflow checks on) or windows beginning before the image give the lowest number and position 0 (off). If the windows do not cover the image the gradient never has the image's shape and can write outside its buffer (5 by 5 image, 2 by 2 windows, stride 2). For f32 images of more than 2^24 elements gradients go to wrong pixels. A window with no element comparing greater than the lowest number (NaN, negative infinity) records position 0 of the whole batch.", "quantifier": "all batch sizes, channels, image and window sizes, strides, pads, real data and uninitialised memory contents", "why_tests_cant": "All sizes and data; out-of-bounds writes go unnoticed in tests; f32 rounding needs enormous images.", "anchors": ["src/tensor_ops/conv_ops/max_pool2d.rs"]}
{"id": "C41", "title": "add_n is the sum", "statement": "add_n of any number of equally shaped tensors is their elementwise sum, and each operand's gradient is the incoming gradient.", "quantifier": "any number of operands", "why_tests_cant": "Unbounded arity.", "anchors": ["src/tensor_ops/array_ops.rs: AddN", "src/tensor_ops/mod.rs: add_n"]}
{"id": "C42", "title": "setdiff1d", "statement": "setdiff1d returns exactly the elements of a that are not in b, strictly ascending, for tensors of integers. Elements with a fraction are truncated first, so for them the result is not the set difference. (Operands stored by rows; see C76 and C77 for others.)", "quantifier": "all finite lists", "why_tests_cant": "Unbounded inputs.", "anchors": ["src/tensor_ops/array_ops.rs: SetDiff1D"]}
{"id": "C43", "title": "argmax/argmin return the first extremal index", "statement": "Along the first axis of any array, and along the rows of a matrix, argmax and argmin return for each line the smallest position at which the largest (smallest) element occurs, with the reduced axis removed or kept as 1, for non-negative and negative axis numbers. For arrays with three or more axes of length at least two every axis but the first panics; with a leading axis of length one the last axis silently yields wrong positions. (Operands stored by rows; see C76 and C77 for others.)", "quantifier": "all shapes, data, axes and both settings of keep_dims; elements within the range of the element type", "why_tests_cant": "Unbounded inputs.", "anchors": ["src/tensor_ops/reduction_ops.rs: argx_helper, ArgMin, ArgMax", "src/ndarray_ext.rs: roll_axis"]}
{"id": "C44", "title": "clip and its gradient", "statement": "For min <= max, clip leaves elements within the bounds, replaces smaller ones by min and larger ones by max. If no element lies on a bound (or the bounds do not satisfy min < max) the gradient is the vector-Jacobian product and passes through exactly where min < x < max. On a bound the gradient is zero.", "quantifier": "all shapes, data and bounds", "why_tests_cant": "Continuum.", "anchors": ["src/tensor_ops/array_ops.rs: Clip, ClipGrad"]}
{"id": "C45", "title": "Optimizer state is separate per parameter", "statement": "Creating a momentum, AdaGrad or Adam optimizer for known parameters registers for each of them its own state arrays of the parameter's shape, zero (Adam's step counter: the scalar 1), found under names made from the parameter's identifier; no state array is shared by two parameters or is a parameter, existing arrays are untouched and no other name changes its meaning. An unknown identifier panics. The names do not mention the optimizer: momentum and AdaGrad optimizers created in one namespace use the same state array.", "quantifier": "every list of parameters (also with repetitions), environment, namespace and optimizer", "why_tests_cant": "Parameter lists and identifiers are unbounded; a name clash needs the right pair of identifiers.", "anchors": ["src/optimizers/momentum_sgd.rs: new", "src/optimizers/adagrad.rs: new", "src/optimizers/adam.rs: new", "src/variable.rs: register_variable"]}
{"id": "C46", "title": "access_elem and its gradient", "statement": "access_elem(i) returns the i-th element in row-major order, a negative i counting from the end, and panics outside that range; its gradient is the vector-Jacobian product. (Operands stored by rows; see C76 and C77 for others.)", "quantifier": "all ranks, shapes, positions, data", "why_tests_cant": "All shapes.", "anchors": ["src/tensor_ops/array_ops.rs: IndexOp, IndexOpGrad"]}
{"id": "C47", "title": "tensordot contracts the named axes", "statement": "tensordot along distinct (possibly negative) axes whose sizes agree pairwise returns the array whose axes are the remaining axes of the first operand, then those of the second, each entry being the sum of products over all values of the contracted axes. If the products of the contracted sizes differ, it fails.", "quantifier": "all ranks, shapes, axis lists and real data", "why_tests_cant": "Arbitrary rank and axis lists.", "anchors": ["src/tensor_ops/dot_ops.rs: TensordotPreprocess", "src/tensor_ops/mod.rs: tensordot"]}
{"id": "C48", "title": "batch_matmul multiplies matrix by matrix", "statement": "For operands in standard memory layout with at least one batch axis and no empty axis, batch_matmul (optionally transposing the matrices of an operand) returns the product of each pair of matrices, and without transposition its gradients are the vector-Jacobian products. It panics for plain matrices, does not check the inner dimensions, and for operands whose batch axes were permuted by transpose it can multiply the wrong matrices.", "quantifier": "all batch shapes, matrix sizes and real data", "why_tests_cant": "Arbitrary batch rank and sizes; memory layout.", "anchors": ["src/tensor_ops/dot_ops.rs: BatchMatMul, batch_mat_mul_impl"]}
{"id": "C49", "title": "Log-sum-exp", "statement": "reduce_logsumexp(x, axis, keep_dims=true) is the logarithm of the sum of the exponentials along the axis and its gradient is the vector-Jacobian product. With keep_dims=false the same holds for the first axis; on the second axis of a matrix it panics unless the matrix is square or has one row or column, and on a square matrix it returns wrong values (the maxima are subtracted from the wrong elements).", "quantifier": "all shapes without empty dimensions, all axes, all real data", "why_tests_cant": "Continuum of inputs and all shapes.", "anchors": ["src/tensor_ops/math_ops.rs: logsumexp_forward, LogSumExp"]}
{"id": "C50", "title": "Cross entropies", "statement": "sigmoid_cross_entropy is the binary cross entropy of the sigmoid and its gradient for the logits is the vector-Jacobian product; its gradient for the labels is right only where labels equal logits. softmax_cross_entropy returns minus the sum of label times log-softmax for each row; its gradient for the logits is right for one row (labels summing to one), panics for several rows unless there are as many rows as classes (or one class), and in the square case is right exactly if the incoming gradient is the same wherever prediction and label differ; its gradient for the labels is wrong. sparse_softmax_cross_entropy returns minus the log-softmax of each row's class, with the right gradient, and panics if a row has no label or a label that is not a class.", "quantifier": "all batch sizes, class counts, labels and real data", "why_tests_cant": "Continuum of inputs and all batch sizes.", "anchors": ["src/tensor_ops/xent_ops.rs: SigmoidCrossEntropy, SoftmaxCrossEntropy, SparseSoftmaxCrossEntropy, SparseSoftmaxCrossEntropyGrad"]}
{"id": "C51", "title": "Gradients of conv2d", "statement": "For a non-empty batch the gradient of conv2d for the filter is the vector-Jacobian product, for any stride; for an empty batch it is the previous contents of freshly allocated memory instead of zero. The gradient for the image is the vector-Jacobian product if the kernel's places cover the padded image; if they do not, whatever is returned is not the gradient.", "quantifier": "all batch sizes, channels, image and kernel sizes, pads, strides, dilations and real data", "why_tests_cant": "All sizes, continuum of data; uninitialised memory happens to be zero in tests.", "anchors": ["src/tensor_ops/conv_ops/conv2d.rs: Conv2D::grad, Conv2DFilterGrad::compute"]}
{"id": "C52", "title": "Gradients of conv2d_transpose", "statement": "The gradient of conv2d_transpose for its input is the vector-Jacobian product. Its gradient for the filter is right if the input is square or the batch is one image. For two or more images higher than wide it never returns a value; for images wider than high the second and later images' columns are read from the wrong place, so the result is wrong (two 2 by 3 images of ones, 1 by 1 filter, incoming gradient 1..12: 66 instead of 78). (Operands stored by rows; see C76 and C77 for others.)", "quantifier": "all batch sizes, channels, image and kernel sizes, pads, strides, dilations and real data", "why_tests_cant": "The tests use square images.", "anchors": ["src/tensor_ops/conv_ops/conv2d_transpose.rs: Conv2DTranspose::grad, Conv2DTransposeFilterGrad::compute"]}
{"id": "C53", "title": "Second-order convolution gradients", "statement": "The gradient rules of the filter-gradient operators are right: that of conv2d's filter gradient, for the image (if the places cover the padded image) and for the incoming gradient; that of conv2d with given columns, for the filter; that of conv2d_transpose's filter gradient, for both operands (square input or one image).", "quantifier": "all batch sizes, channels, image and kernel sizes, pads, strides, dilations and real data", "why_tests_cant": "All sizes; second-order gradients of convolutions are untested.", "anchors": ["src/tensor_ops/conv_ops/conv2d.rs: Conv2DFilterGrad::grad, Conv2DWithCols::grad", "src/tensor_ops/conv_ops/conv2d_transpose.rs: Conv2DTransposeFilterGrad::grad"]}
{"id": "C54", "title": "Gradients of whole array graphs are vector-Jacobian products", "statement": "For every graph built from variables, placeholders and constants by elementwise arithmetic (with broadcasting of equal ranks or rank-0 operands), the elementwise functions, matmul, reduce_sum, reduce_mean, reduce_prod, reduce_max, reduce_min, sum_all, add_n, reshape, transpose, expand_dims, squeeze, slice, split, tile (of a unit axis), access_elem, softmax, log_softmax (axis 1), reduce_logsumexp (keeping the axis), sigmoid_cross_entropy, sparse_softmax_cross_entropy, conv2d and max_pool2d (without padding, applied to relu), grad(ys, xs) returns for each leaf x a tensor of x's shape whose value g satisfies: for every direction v, the derivative of the sum of all elements of all ys as x moves along v is the inner product of g and v; with grad_with_default each y is weighted by its given gradient. Evaluating the returned tensor yields that array. Excluded because the code's rules are wrong there: matmul with transposition flags, differentiating a reduction gradient again, maximum/minimum with unequal shapes, division (also inside rules) by a one-element vector, empty arrays under elementwise operations, stop_gradient on the path, variation of the labels of sigmoid_cross_entropy, reductions other than sums without axes, log_softmax along other axes, means over more than 2^24 elements, concat, tile of longer axes, gather (see C67), convolutions and windows that leave pixels over, differentiating the gradient of access_elem, slice, split, sparse cross entropy, convolution or pooling again. Products must be differentiated at nonzero elements and maxima and minima where each group has a single extreme element. (Tensors are arrays without a memory layout here; C77 says for which graphs the layout makes no difference.)", "quantifier": "every such graph, every ys, xs, all shapes, all real data at which the operations are differentiable, every tie-breaking of the work queue", "why_tests_cant": "Composition of rules over all graphs and shapes; a continuum of inputs and directions.", "anchors": ["src/gradient.rs: compute_gradients", "src/tensor_ops/mod.rs: grad, grad_with_default", "src/tensor_ops/binary_ops.rs", "src/tensor_ops/math_ops.rs", "src/tensor_ops/dot_ops.rs: MatMul", "src/tensor_ops/reduction_ops.rs", "src/tensor_ops/array_ops.rs: Reshape, ExpandDims, Squeeze, IndexOp, Slice, Split, Tile", "src/tensor_ops/activation_ops.rs: Softmax", "src/tensor_ops/xent_ops.rs"]}
{"id": "C55", "title": "Composite operations compute averages, variances and normalizations, with the right gradients", "statement": "reduce_mean, mean_all, reduce_variance, mean_squared_error, leaky_relu, normalize and batch_norm, called on tensors of suitable shapes, make a tensor of the expected shape whose elements are: the average or the variance of the group of elements that the reduced axes combine, the average of all elements, the average squared difference along the last axis, max(x, alpha x), (x - average) / sqrt(variance + 1e-5) of the element's group, and that times scale plus shift. Gradients of the sum of these elements with respect to any leaf the operands depend on smoothly are their derivatives. Every group of a normalized tensor has average 0 and variance v/(v+1e-5) where v is the variance before. Axes must be named and each group may have at most 2^24 elements: the group size is computed in f32, so the f64 mean of 2^24+1 ones is not 1. (Operands stored by rows; see C76 and C77 for others.)", "quantifier": "all graphs containing the operands, all shapes, axes and data; for gradients every point where the operands are smooth, and x <> alpha x for leaky_relu", "why_tests_cant": "Quantifies over all shapes, axis sets, data and surrounding graphs; the f32 boundary needs 2^24 elements.", "anchors": ["src/tensor_ops/mod.rs: reduce_mean, mean_all, reduce_variance, mean_squared_error, leaky_relu, normalize, batch_norm", "src/tensor_ops/reduction_ops.rs: ReduceMean"]}
{"id": "C56", "title": "Hessian-vector products are second derivatives", "statement": "For a graph that consists of twice differentiable operations (listed by `twice`: all elementwise operations except ELU, clip, maximum and minimum, broadcasting, sums of all elements, reshapes, transpositions, softmax, log-softmax, log-sum-exp, axis insertion and removal), `hessian_vector_product(ys, xs, vs)` returns, for every x, a tensor of x's shape whose inner product with any direction u is the derivative, along u, of the derivative of the sum of all elements of ys along the vectors vs. Through matrix products it returns transposed (wrong) results; through axis reductions the returned tensor cannot be evaluated; ELU contributes nothing to it (or the call panics); through element access, and in debug builds through maximum, the call panics.", "quantifier": "all graphs and types of graphs in the stated class, all outputs, variables, vectors, points and directions at and near which the operations are twice differentiable", "why_tests_cant": "Second derivatives depend on the gradient rules of operations that only occur inside other operations' gradient rules; tests check one polynomial.", "anchors": ["src/tensor_ops/mod.rs:218-236", "src/gradient.rs:20-86", "src/tensor_ops/dot_ops.rs:560-628", "src/tensor_ops/reduction_ops.rs:459-512", "src/tensor_ops/activation_ops.rs"]}
{"id": "C57", "title": "Dropout and random arrays", "statement": "Random arrays hold consecutive samples of the generator in row-major order. In training mode dropout keeps element k exactly if draw k is below 1 - ratio and zeroes it otherwise, its second output is the 0/1 mask, and one draw per element is consumed; in test mode it scales by 1 - ratio without drawing, which is the mean over uniform draws of the training output. The gradient tensor of a training-mode dropout, evaluated with anything else, is the vector-Jacobian product of the function applied in that same evaluation (same mask). In test mode the gradient can never be evaluated (it panics unless an earlier error occurred). Dropouts made with the default generator drop the same positions of equally shaped inputs, in one graph or across rebuilt graphs. The gradient through the mask output is not 0 although the mask does not depend on x. Glorot initialisers do not have Glorot's variance 2/(n_in+n_out): the normal one only for square shapes, the uniform one never.", "quantifier": "all generators and distributions, ratios, arrays, graphs around the dropout, targets, feeds and variables", "why_tests_cant": "Tests look at one random array; equal masks of different tensors and missing test-mode gradients are never exercised.", "anchors": ["src/tensor_ops/random_ops.rs:218-245", "src/ndarray_ext.rs:216-389", "src/tensor_ops/mod.rs:545-555", "src/tensor_ops/mod.rs:2888-2925"]}
{"id": "C58", "title": "The gradient checker accepts right gradients and bounds the error of what it accepts", "statement": "check_theoretical_grads(objective, gradients, variables, eps, tol) on variables in standard layout passes exactly if every element of every gradient differs by at most tol from the central difference of the objective, and leaves the variables as they were; otherwise it reports a difference. If the third derivative along each element is bounded by M between the test points, a gradient that passes is off by at most tol + M eps^2/6, and exact gradients pass if M eps^2/6 <= tol; in particular the gradients returned by grad pass. Variables beyond the number of gradients are not checked; NaN gradients always pass; for a variable whose memory layout is not row-major (e.g. a transposed array) right gradients are rejected and wrong ones accepted, since the numeric gradients are taken in memory order.", "quantifier": "all objectives, variables, gradients, steps and tolerances (reals; NaN and layouts for the refutations)", "why_tests_cant": "A claim about the tests' own oracle: for all objectives and all elements.", "anchors": ["src/test_helper.rs:9-150"]}
{"id": "C59", "title": "Jacobians are the matrices of partial derivatives", "statement": "For every graph covered by C54, jacobians(y, xs, n) with 0 < n <= number of elements of y returns for each leaf x a matrix of n rows and as many columns as x has elements; entry (i, j) is the partial derivative of the i-th element of y with respect to the j-th element of x (both in row-major order), so the product with any flattened direction is the velocity of the first n elements of y. Evaluating the returned tensor yields that matrix. With n = 0 and at least one x it panics. flatten itself, which jacobians applies to each gradient, attaches the shape of its operand instead of the vector's: the gradient of sum_all(square(flatten(x))) for a 2 x 3 matrix is built but its evaluation always panics, so flatten cannot be used on the path of a gradient in general.", "quantifier": "every such graph, every y, list of distinct leaves, row count, data at which the operations are differentiable, every tie-breaking of the work queue", "why_tests_cant": "All graphs, shapes and points; the tests evaluate one product of matrices and look at the shapes only.", "anchors": ["src/tensor_ops/mod.rs: jacobians (188-216), flatten (1344-1355), concat, expand_dims, access_elem", "src/gradient.rs: compute_gradients"]}
{"id": "C60", "title": "Views and lifetimes of results", "statement": "The evaluator keeps results either as arrays or as views of feeds or of earlier results (views of variables are copied when stored). The traversal never reads released memory, and no stored result changes when a variable is overwritten later in the same evaluation: it goes step by step as if every result were copied. The arrays returned by eval are also those of the copying evaluator, without touching released memory, provided every requested tensor but the last comes from an operation with a single output. Otherwise it is false: returning the first output of an operation releases its other outputs, so requesting t and then nth_tensor(t, k), k >= 1, in one eval reads released memory (use after free in safe code).", "quantifier": "all graphs, operations (arbitrary functions returning arrays or views and overwriting mutable inputs), targets, feeds, variables, in debug and release builds", "why_tests_cant": "Dangling reads usually return plausible data; tests cannot observe lifetimes, and no test requests two outputs of one operation.", "anchors": ["src/evaluation.rs:182-362", "src/op.rs:131-136", "src/op.rs:262-299", "src/tensor_ops/mod.rs: nth_tensor (540-554)"]}
{"id": "C61", "title": "Hooks, map and assign", "statement": "A tensor returned by register_hook (show, raw_hook, ...) has its operand's value, or its error, in every graph built from there. An evaluation calls each hook whose returned tensor is needed exactly once, unless something it depends on failed, and calls no other hook: registering returns a new tensor, and the hook never runs if only the old one is used. The hook sees the returned array (if requested) and the operand's value from before the evaluation (if nothing it reads was overwritten first). map(x, f) has the value f(x). Evaluating assign(x, y) leaves in the variable of x the value y had before the evaluation, broadcast to the variable's shape, and returns an empty array; or y failed and the variable is unchanged. It succeeds exactly if y's shape broadcasts to x's. grad passes through a hooked tensor as if it were its operand. map has no gradient rule: in debug builds differentiating through it panics; in release builds the gradient silently omits all paths through it (d(map(x, 3v) + x)/dx = 1 instead of 4).", "quantifier": "all graphs, operations, hooks, functions, targets, feeds, variables and builds; all array shapes for assign", "why_tests_cant": "The tests print through a hook and inspect nothing; they do not count calls, do not evaluate several targets around an assignment and never differentiate map.", "anchors": ["src/tensor_ops/hook_ops.rs", "src/hooks.rs", "src/tensor_ops/higher_order_ops.rs", "src/tensor_ops/array_ops.rs:92-105", "src/tensor.rs:170-202", "src/tensor_ops/mod.rs: map, assign (2930-2989)", "src/op.rs:365-380"]}
{"id": "C62", "title": "Shapes, axes and indices as floats", "statement": "Every tensor is a float array, also those holding shapes, axes and indices; operators convert the elements back with to_usize or to_isize. Evaluation in this representation computes exactly the values that C54 describes with integer shapes, every array has its predicted shape, and every shape tensor holds its integers, provided all integers occurring as shapes, axes, indices and sizes in the graph are exact in the float type. Those with absolute value up to 2^24 are exact in f32, up to 2^53 in f64. Beyond that it is wrong: for a vector x of 2^24 + 1 elements in f32, shape(x) holds 16777216, zeros(shape(x)) and the gradient of sum_all(x) silently have one element less than x, and reshape(x, shape(x)) panics.", "quantifier": "all well-formed graphs over the operations of C54, leaf values, feeds, variables, builds, roundings of integers; all mantissa widths for the exact range", "why_tests_cant": "The tests use dimensions below 100; the limit only shows with more than 16 million elements along a dimension.", "anchors": ["src/ndarray_ext.rs:29-31, 67-80", "src/tensor_ops/array_ops.rs:107-240", "src/tensor_ops/const_gen_ops.rs:27-81", "src/tensor_ops/reduction_ops.rs:139-159", "src/tensor_ops/xent_ops.rs", "src/tensor_ops/mod.rs: shape, size, zeros, reshape"]}
{"id": "C63", "title": "Training steps end to end", "statement": "For a loss built from the operations of C54, the tensors that grad returns for several variables are together its derivative: when all variables move at once in any directions, the loss changes at the rate given by the sum of the inner products of gradients and directions. Passing them to an optimizer's update replaces each parameter and its state by what the optimizer's rule makes of them and the exact gradient at the parameters before the call, and changes nothing else (under the conditions of C26; they hold for a single parameter). The call returns. Without accumulated momentum (SGD and AdaGrad always, MomentumSGD and Adam at their first step) every sufficiently small learning rate makes the evaluated loss smaller, unless all gradients are zero. Shapes travel as floats as in C62. (Operands stored by rows; see C76 and C77 for others.)", "quantifier": "all well-formed graphs over the operations of C54, sets of parameters and outputs, leaf values, feeds, environments, the four optimizers and their hyperparameters, learning rates below a bound that depends on the state; differentiable points", "why_tests_cant": "The examples train on data and look at accuracies; no test checks that one step uses the gradients of the old parameters, nor that the loss falls.", "anchors": ["src/gradient.rs", "src/optimizers/mod.rs:58-89", "src/optimizers/sgd.rs", "src/optimizers/momentum_sgd.rs", "src/optimizers/adagrad.rs", "src/optimizers/adam.rs", "src/tensor_ops/gradient_descent_ops", "src/evaluation.rs", "src/graph.rs"]}
{"id": "C64", "title": "Borrowed and aliased variables", "statement": "Variables are RefCells; the caller may hold guards on them (for instance from get_array_by_id(..).borrow()) while evaluating. An evaluation panics if a guard forbids an access it makes: any guard on a variable that an operation to be run has as a mutable operand, or an exclusive guard on a variable that is an operand or is itself requested. Otherwise results, variables and log are as without guards, and all guards are as before. The evaluator's own accesses never conflict with each other, because each guard is dropped before the view made from it is used; so nothing keeps one operation from holding a mutable view of a variable and another view of the same variable (assign(x, x) runs). On such views assign, SGD, momentum SGD and Adam nevertheless compute what they compute on copies of the operands, whichever view the gradient is; AdaGrad does unless the gradient is its own accumulator, and then it moves the parameter by a different amount.", "quantifier": "all graphs, operations, feeds, targets, environments, borrow states; for the updates all arrays, hyperparameters, gradients that are own arrays or views of any variable", "why_tests_cant": "The tests never hold a guard during an evaluation and never pass a variable as its own gradient; aliasing bugs depend on the operation's internal order of reads and writes.", "anchors": ["src/variable.rs:116, 685-703", "src/evaluation.rs:291-361", "src/op.rs:126-130, 206-286", "src/tensor_ops/array_ops.rs:90-105", "src/tensor_ops/gradient_descent_ops"]}
{"id": "C65", "title": "Convolutional classifiers", "statement": "The network of examples/cnn_mnist.rs: reshape to images, any number of blocks of convolution, bias, relu and max pooling, flattening, a last linear layer, sparse softmax cross entropy, average. Its evaluated loss is the average over the images of the negative log probability of the label, as the formulas of correlation, maximum and softmax define it. If no convolution or window leaves pixels over and the current values are away from ties and kinks (no relu argument is 0; in every window the largest is unique or all are negative), the tensors that grad returns for the images, filters, biases and last layer have their shapes and together are the derivative of that loss, and one step of an optimizer without momentum with any sufficiently small learning rate makes the loss smaller unless all gradients are zero. For the step the parameters must be listed from the last layer to the first (or satisfy the condition of C26 otherwise): update changes the last listed parameter first, and in layer order the earlier layers' gradients are computed with already changed later layers. The examples list parameters in hash-map order. (Operands stored by rows; see C76 and C77 for others.)", "quantifier": "all numbers of blocks, images and classes, sizes, paddings, strides, labels, leaf values at differentiable points, sets of leaves, tie-breaking of the work queue; debug and release builds", "why_tests_cant": "A composition of ten operations for all sizes and real values; the example only reports accuracies, and a wrong gradient of one layer or a step that mixes old and new parameters still trains.", "anchors": ["examples/cnn_mnist.rs:36-51, 97-107", "src/tensor_ops/mod.rs: conv2d, max_pool2d, relu, reshape, sparse_softmax_cross_entropy, reduce_mean", "src/tensor_ops/conv_ops", "src/gradient.rs", "src/optimizers/mod.rs:21-89", "src/evaluation.rs"]}
{"id": "C66", "title": "Softmax, cross entropies and activations on floats", "statement": "In IEEE-754 arithmetic of any precision (f32 and f64 among them), with a platform exp/ln/tanh that is right at special values and has the right sign and bounds: for finite inputs and minus infinities, not all minus infinite, and sums taken in any order, softmax gives numbers between 0 and 1, exactly 0 for minus infinities, that add up to 1 within (n-1) rounding errors; logsumexp is finite and not below any element, however large the elements are; log_softmax is never NaN and never positive; the loss of sparse_softmax_cross_entropy is never NaN or negative (both are finite for elements up to an eighth of the largest float) and its gradient stays within the incoming gradient. A NaN or plus infinity makes its whole softmax lane NaN, as does a lane of minus infinities. sigmoid is between 0 and 1 for everything but NaN, with a bounded gradient. sigmoid_cross_entropy is finite and not negative for every finite logit and target between 0 and 1. Its gradient and softplus are bounded only while exp(x) is finite: from there on softplus is infinite, and the gradients of both are NaN. relu is the positive part of finite numbers but maps NaN to 0. elu stays within |alpha| below 0 and its gradient is never NaN.", "quantifier": "all precisions and exponent ranges, lane lengths up to 2^precision, inputs including infinities and NaN, targets, incoming gradients, orders and groupings of sums, platform functions satisfying the assumptions", "why_tests_cant": "Overflow appears only for inputs around 88 (f32) or 709 (f64), which tests with small random inputs never reach; the order of additions depends on the memory layout.", "anchors": ["src/tensor_ops/activation_ops.rs:60-220", "src/tensor_ops/math_ops.rs:540-593", "src/tensor_ops/xent_ops.rs"]}
{"id": "C67", "title": "Gradients through gather", "statement": "C54 also holds for graphs that look up slices with gather along a non-negative axis and without the position -1 (embedding tables): for every leaf x, grad(ys, xs) returns a tensor of x's shape whose inner product with every direction v is the derivative of the sum of all elements of the ys as x moves along v; moving all leaves at once gives the sum of these inner products; evaluating the returned tensor yields that array. Positions that occur several times receive the sum of their contributions, positions never looked up zero. But the shape tensor that grad attaches to a gradient of gather is that of the positions: for every table of n rows and m columns and every non-empty list of row positions, shape(grad) evaluates to [number of positions] although the gradient's shape is [n, m], so anything built from that shape tensor is wrong. Optimizer steps on such losses do what C63 says: every parameter and its state become what the update rule makes of them and of the exact gradient before the call, the call returns, and without momentum every sufficiently small learning rate decreases the loss unless all gradients are zero. (Operands stored by rows; see C76 and C77 for others.)", "quantifier": "every such graph, every ys, xs, all shapes, all positions in range, all real data at which the operations are differentiable, every tie-breaking of the work queue", "why_tests_cant": "The test gathers two rows of a fixed matrix and never asks for the shape of the gradient; compositions and repeated positions are not covered.", "anchors": ["src/tensor_ops/array_ops.rs: Gather, GatherGrad", "src/gradient.rs: compute_gradients", "src/tensor_ops/mod.rs: gather_common, gather (2252-2300), grad", "src/tensor.rs: shape"]}
{"id": "C68", "title": "Recurrent language model", "statement": "The model of examples/lstm_lm.rs: looking up word vectors, LSTM steps that pass output and cell on, scores of the next word, sparse softmax cross entropy at every position, sum over the positions. For sentences of any length of at least two words its evaluated loss holds, for every sentence, the sum over its positions of the negative log of the probability that the LSTM equations (zero initial state, gates in the order input, forget, content, output) give to the next word. The tensors that grad returns for any of the variables (table, input, recurrent and prediction weights, bias) have the variables' shapes and are, at every point, the derivative of the summed loss through all steps: the derivative as the variables move together along any directions is the sum of the inner products. One step of SGD, AdaGrad, or a first step of MomentumSGD or Adam, with any sufficiently small learning rate decreases the summed loss unless all gradients are zero, provided update is given the variables in an order in which none is changed before another gradient reads it.", "quantifier": "every vector dimension, vocabulary, number and length of sentences, words, values of the weights, directions, set of variables to differentiate, every tie-breaking of the work queue", "why_tests_cant": "The example checks one toy batch of two sentences of three words by finite differences at one random point.", "anchors": ["examples/lstm_lm.rs:22-52, 95-130", "src/tensor_ops/mod.rs: gather, matmul, slice, sigmoid, tanh, zeros, sparse_softmax_cross_entropy, add_n, grad", "src/gradient.rs: compute_gradients"]}
{"id": "C69", "title": "Optimizers on floating-point numbers", "statement": "In IEEE-754 arithmetic (any precision, rounding to nearest even): starting from a parameter that is not NaN and a non-negative accumulator, AdaGrad with |learning rate| at most 1 never turns finite gradients into NaN over any number of steps; a step of Adam whose bias-corrected mean is finite gives no NaN and keeps the second moment non-negative. But one finite gradient whose square overflows (2^64 and more in f32) makes the accumulator infinite for good: that step and all later steps of AdaGrad, and of Adam as long as its means stay finite, leave the parameter exactly as it was, whatever gradients follow. Adam's step counter counts exactly up to 2^precision and then stays there. Steps of SGD below a quarter of the parameter's unit in the last place have no effect, however many there are. While nothing overflows, a step of SGD, MomentumSGD, AdaGrad or Adam is the published formula with every single operation rounded to the nearest float.", "quantifier": "every float format, hyperparameters in range, state, finite gradients, number of steps; powf of the platform only assumed to give a number in [0, 1) for powers of at least 1", "why_tests_cant": "Tests run a few steps with gradients of ordinary size and compare losses; overflow of the accumulator and stagnation need extreme values or millions of steps.", "anchors": ["src/tensor_ops/gradient_descent_ops/sgd.rs:14-40", "src/tensor_ops/gradient_descent_ops/adagrad.rs:8-22", "src/tensor_ops/gradient_descent_ops/adam.rs:11-58"]}
{"id": "C70", "title": "Matrix products in builds with BLAS", "statement": "With the feature blas, matmul gives for all operands and flags what it gives without it, whether the call goes to BLAS or falls back, for operands in any layout whose entries lie at distinct addresses or repeat along an axis. batch_matmul of operands in standard layout gives the products provided that (a) when the operands have two or more batch axes the second does not have length 1 and (b) the call does not multiply matrices of several rows with column vectors while the left operand is transposed or has one column. Without (b) it panics: the operands are exchanged, but not the distances between consecutive matrices, so no gradient reaches the second operand of a batch of matrix-vector products. Without (a) transposed operands are read untransposed, so batch_matmul and both its gradients are wrong. Operands whose batches lie inside their matrices, as after moving a batch axis by a transposition, are copied first and give the right products (without the feature they do not), unless the other operand is in standard layout and to be transposed: then the original memory is read with the strides of the copy, giving other products. Operands of rank below 2, of different ranks or with different batch axes give an error. The calls made by convolutions compute what the calls of the other builds do.", "quantifier": "all sizes up to 2^31-1, flags, layouts, offsets, previous contents of the new arrays, element values; batches of any rank", "why_tests_cant": "The features are not built by default and need an installed BLAS; the tests of batch_matmul use one batch axis and no vectors.", "anchors": ["src/tensor_ops/dot_ops.rs:20-130, 150-420", "src/tensor_ops/conv_ops/conv2d.rs", "src/tensor_ops/conv_ops/conv2d_transpose.rs", "Cargo.toml:30-45"]}
{"id": "C71", "title": "Elementwise functions in builds with MKL", "statement": "With the features blas and intel-mkl, the functions that are handed to MKL (exp, ln, sqrt, sin and the others) give the function of each element for operands in standard layout with at most 2^31-1 elements. Operands in another layout lose it: for a transposed matrix the result is that of the untransposed elements, in the transposed shape. Operands of 2^31 to 2^32-1 elements are not computed at all: the result is what the new array held before.", "quantifier": "all functions, shapes and elements", "why_tests_cant": "Needs MKL; the tests apply these functions to freshly made arrays, which are in standard layout and small.", "anchors": ["src/tensor_ops/math_ops.rs:205-290", "Cargo.toml:30-45"]}
{"id": "C72", "title": "Training through get_update_op", "statement": "The tensor get_update_op returns does what update does: evaluated alone, it succeeds exactly when update returns, leaves the same variable arrays, and its value is the scalar 0. Evaluated together with other tensors, when whatever a gradient reads of other parameters is also used by the gradient of a parameter listed at or after them or by a tensor requested after the update, all parameters make their steps from the values before the call, nothing else changes, and the other tensors show values from before the call if they are requested after the update or read parameters only through such shared tensors; such an evaluation succeeds. In general a tensor requested before the update is computed from the updated parameters. Without parameters get_update_op panics.", "quantifier": "all optimizers, graphs, parameter lists, requested tensors and array values", "why_tests_cant": "The tests call update only; which values the requested tensors show depends on the order of traversal of the whole graph.", "anchors": ["src/optimizers/mod.rs:87-98", "src/tensor_ops/mod.rs:831-847", "src/tensor_ops/array_ops.rs:504-528", "src/evaluation.rs:252-362", "examples/sine.rs:25-42"]}
{"id": "C73", "title": "Gradients with respect to the variables of a namespace", "statement": "grad_helper returns, in the order of the namespace, exactly those variables of it that some loss depends on through differentiable tensors; each comes with the gradient of the sum of all elements of the losses, the tensor that grad would return for these variables. Variables no loss depends on are left out but have a tensor afterwards. The losses need not be scalars. Without a loss the call panics.", "quantifier": "all array graphs over the modelled operations (with or without lookups), losses, namespaces and points where the operations are differentiable", "why_tests_cant": "The tests use grad_helper in one training loop; which variables are dropped depends on all paths of the graph.", "anchors": ["src/optimizers/mod.rs:21-46", "src/gradient.rs", "src/variable.rs", "examples/sine.rs", "examples/cnn_mnist.rs"]}
{"id": "C74", "title": "When gradients exist", "statement": "On an array graph whose tensors have compatible shapes, with room left in the node table, grad returns a tensor for every variable asked for if and only if each of these variables that some output depends on through tensors marked differentiable is reached by a path along which every operation supplies a gradient; otherwise it panics, whatever the order in which equally ranked tensors are visited, and it always terminates. In particular the gradient through floor, ceil or sign is not zero: asking for it panics. The same holds for grad_helper and the variables of the namespace. Evaluating tensors of such a graph never fails, the gradient tensors included; so when gradients flow the whole sequence (differentiate, evaluate) returns arrays of the shapes of the variables, and wherever the operations are differentiable these are the gradients. Debug builds need that no comparison lies between outputs and variables. (Tensors are arrays without a memory layout here; C77 says for which graphs the layout makes no difference.)", "quantifier": "all array graphs over the modelled operations (with or without lookups), outputs, variables, visiting orders and array values", "why_tests_cant": "Whether a gradient exists depends on all paths of the graph; the tests only differentiate graphs for which it does.", "anchors": ["src/gradient.rs:14-172", "src/tensor_ops/mod.rs: grad", "src/optimizers/mod.rs:21-46", "src/evaluation.rs:252-362", "src/op.rs:206-380", "src/tensor_ops/math_ops.rs: floor, ceil, sign, comparisons"]}
{"id": "C75", "title": "Registering variables through slots", "statement": "Whatever slots are used (env.slot(), env.name(..), env.set(..), namespace_mut(..).slot(), named or not), a registration returns the number of registrations before it, and that identifier gives the array last stored there. ctx.variable(name) is the tensor of the last registration under that name in the default namespace, ctx.variable((ns, name)) of the last in the namespace given, and both panic if there was none; the array found by name is the one that variable holds now. The default namespace is the one with the empty name. Variables registered without a name are listed by their namespace; of those that share a name only the last is listed, the earlier ones being reachable by identifier only. var_tensors_by_id gives one tensor of the right variable per identifier, in order.", "quantifier": "every sequence of registrations and writes, any names and namespaces; generated UUIDs distinct and not used as names", "why_tests_cant": "It is a statement about all histories of registrations through all the kinds of slots.", "anchors": ["src/variable.rs:114-147, 164-223, 287-358, 414-416, 600-660, 758-763"]}
{"id": "C76", "title": "Operations on transposed and sliced operands", "statement": "A tensor that is a view of other memory (the result of transpose, slice or split) has the elements its strides describe. reshape, transpose, slice, split and squeeze give on every view what they give on a row-major copy of it. expand_dims and the gradients of reductions do so when the elements are stored by rows or by columns and panic otherwise; so for x of shape [n,a,b,c] with a, b, c >= 2 the gradient of transpose(reduce_sum(x,[0]),[1,0,2]) panics. access_elem on a view stored by columns returns the element counted by columns, and panics for views stored neither by rows nor by columns. gather takes the elements of a contiguous index tensor in the order of memory instead of its logical order (gather_common does not); the gradient of gather is right for row-major gradients and panics for gradients stored neither by rows nor by columns, and a column-major gradient of a two-dimensional lookup is added to the wrong rows. setdiff1d panics unless both operands are row-major. argmax and argmin of standard-layout operands are right; along the first axis of a column-major operand results come in the wrong places. The filter gradient of conv2d_transpose is right for row-major operands and ignores strides otherwise.", "quantifier": "all views with non-negative strides (all shapes, strides, offsets, memories and element types), all arguments", "why_tests_cant": "Tests build their operands as row-major arrays; a statement about all strides cannot be enumerated.", "anchors": ["src/tensor_ops/array_ops.rs:187-240, 281-315, 353-473, 698-724, 780-882", "src/tensor_ops/math_ops.rs:426-466", "src/tensor_ops/reduction_ops.rs:365-499", "src/tensor_ops/conv_ops/conv2d_transpose.rs:303-431", "src/ndarray_ext.rs:107-112"]}
{"id": "C77", "title": "Graphs whose tensors are views of memory", "statement": "Take a graph of array operations whose variables and placeholders hold views of memory, where transpose, slice, split, squeeze and expand_dims return views and every other operation puts its new array somewhere, products possibly by columns and concatenations and tilings in any order. (1) If the operands of access_elem and the images of the filter gradient of a transposed convolution are stored by rows, whatever an evaluation returns has exactly the elements that evaluation with row-major arrays gives, and the variables are unchanged. (2) If also the operands of expand_dims, of gradients of reductions and of gradients of lookups are stored by rows or by columns, the evaluation returns. (3) If the variables are stored by rows (or: by rows or by columns, or: in any way) and every operation of the graph is fit for such operands and their gradients, then asking for gradients returns, evaluating them returns, and the elements are the derivatives. For example graphs without transpose, slice, split, concat, tile, access_elem and conv2d_transpose, with variables stored by rows or by columns. (4) Without the condition in (1) it is false: access_elem(transpose(x,[1,0]),1) returns x[0,1].", "quantifier": "all well-typed graphs, all placements of new arrays allowed by the operation, all storage orders of the leaves, all shapes and real elements, all heap orders and fuel above a bound", "why_tests_cant": "Layout errors appear only in particular combinations of a view with an operation that reads memory directly; tests of single operations use row-major arrays.", "anchors": ["src/tensor_ops/array_ops.rs:187-240, 281-315, 401-473, 698-724, 780-882", "src/tensor_ops/math_ops.rs:426-466", "src/tensor_ops/reduction_ops.rs:459-512", "src/tensor_ops/dot_ops.rs:560-628", "src/tensor_ops/conv_ops/conv2d_transpose.rs:274-480", "src/evaluation.rs:180-420", "src/gradient.rs:1-247"]}
{"id": "C78", "title": "Tensordot and its gradients in graphs", "statement": "tensordot of two tensors of a well-formed array graph, along distinct (possibly negative) axes whose sizes agree pairwise, makes a tensor whose shape is the remaining sizes of the first operand followed by those of the second, whose elements at any values of the leaves are the contraction of the operands' elements, and leaves earlier tensors as they were. If the operands can be differentiated, so can the result, so that gradients of anything computed from it are right (C54); in particular the gradient of the sum of its elements with respect to a variable, in any direction, is the rate of change of the sum of the elements of the contraction, also when both operands depend on the variable.", "quantifier": "all array graphs, ranks, shapes, axis lists, leaf values, directions, heap orders and fuels", "why_tests_cant": "Arbitrary rank and axis lists, all real inputs and directions.", "anchors": ["src/tensor_ops/mod.rs:1914-1947", "src/tensor_ops/dot_ops.rs:560-628, 723-798", "src/tensor_ops/array_ops.rs:187-240", "src/tensor_ops/math_ops.rs:426-466"]}
{"id": "C79", "title": "Random tensors over successive evaluations", "statement": "Over any sequence of evaluations of a growing graph (any feeds, variables, targets and new tensors in between), a random tensor (normal, uniform, Bernoulli, exponential, log-normal, gamma) holds consecutive samples of its own generator: an evaluation that needs it draws one sample per element in row-major order, after those drawn by the evaluations before; the shape is the one its shape tensor holds in that evaluation; the returned array and all operations reading the tensor in that evaluation see the same samples; an evaluation that does not need it, or in which its shape failed, draws nothing. Likewise a training-mode dropout decides by new samples in every evaluation. Two random tensors made without passing a generator, by one function with equal parameters and the same shape tensor, are not independent: they are equal in every evaluation, as long as each evaluation needs both or none. Nor are tensors of different graphs: in the first evaluations needing them, two such tensors of equal parameters, wherever and whenever their graphs are built, are equal if their shapes are, and otherwise one's data is the beginning of the other's; a training loop that builds its graph in each epoch (examples/sine.rs) sees one batch only.", "quantifier": "all generators, distributions, parameters, graphs, sequences of evaluations, targets, feeds and variables; debug and release builds", "why_tests_cant": "A test sees one fixed seed and one or two evaluations; which samples a tensor holds depends on all earlier evaluations.", "anchors": ["src/tensor_ops/random_ops.rs:6-238", "src/ndarray_ext.rs:29-31, 243-389", "src/tensor_ops/mod.rs:2426-2676", "src/evaluation.rs:252-362"]}
{"id": "C80", "title": "Classification accuracy", "statement": "In any graph, reduce_mean(equal(argmax(z, -1, true), y), [0, 1], false) of scores z with n rows and c > 0 columns and labels y of shape [n, 1] (0 < n <= 2^24, no score below the least number of the element type) evaluates to the scalar m / n, where m is the number of rows i whose label is the position of the first largest score of the row. The rows counted are the same if z is replaced by its softmax or log-softmax. With labels of shape [n] every evaluation that needs the accuracy panics.", "quantifier": "all graphs, other operations, scores, labels, numbers of rows and columns, feeds, variables and further targets; debug and release builds", "why_tests_cant": "A test computes the accuracy of one batch; ties between scores, labels that are no column and the wrong label shape are left out.", "anchors": ["examples/mlp_mnist.rs:99-100", "src/tensor_ops/reduction_ops.rs:187-239, 365-457", "src/tensor_ops/math_ops.rs:86-175", "src/tensor_ops/mod.rs:868-879, 955-963, 1227-1242"]}
{"id": "C81", "title": "Operations with two outputs", "statement": "nth_tensor(x, k) of the result of an operation has as value the k-th output of that operation; there is none if the operation has at most k outputs, and an error of the operation is its error. Of a variable or placeholder it is that tensor itself, for every k. The tensors that the grad functions of sparse_softmax_cross_entropy (for the scores), conv2d and dilated_conv2d (for the filter), max_pool2d without padding (windows covering the image, unique maxima) and softmax_cross_entropy (one row, labels that sum to one) build from output 1 of the node evaluate, wherever they stand in a graph, to the vector-Jacobian product of the operation at the operands. The gradient tensor of softmax_cross_entropy of n rows and c classes (n and c neither equal nor 1), for an incoming gradient of the loss's shape [n], makes every evaluation panic. A convolution of operands with different channel numbers is an error, and so is its filter's gradient; in a debug build evaluation panics instead.", "quantifier": "all graphs containing the operation and its rule's tensors, other operations, operand values and sizes as stated, feeds, variables; debug and release builds", "why_tests_cant": "A test differentiates one loss on one input; which output a gradient reads, errors that pass through it and batches of several rows are not varied.", "anchors": ["src/tensor_ops/mod.rs:545-555, 1803-1840, 2733-2887", "src/tensor_ops/xent_ops.rs:63-202", "src/tensor_ops/conv_ops/conv2d.rs:531-587, 736-744", "src/tensor_ops/conv_ops/max_pool2d.rs:166-279"]}
{"id": "C82", "title": "Gradients cost a constant factor", "statement": "When grad returns, it has added at most 66 tensors per gradient rule it called, 4 per tensor asked for, one per output and 3 more, whatever the graph. On array graphs with compatible shapes the rules called are those of tensors between outputs and targets (and of the sums of the outputs), each once, so tensors and operands together are at most 145 times those of the given graph, counting outputs and targets; and evaluating outputs and gradients together runs each operation at most once, at most 67 operations per tensor and output (plus 4 per target and 3), whatever functions evaluate the operations. Tensors on no path from outputs to targets cost nothing.", "quantifier": "all graphs, outputs, targets, orders of equally ranked tensors, feeds, variables and sets of tensors evaluated", "why_tests_cant": "A test measures the time of one graph; growth with depth, sharing and fan-out needs all graphs.", "anchors": ["src/tensor_ops/mod.rs:94-153", "src/gradient.rs:20-184", "src/op.rs:365-434", "src/evaluation.rs:252-364"]}
{"id": "C83", "title": "Labels' gradients and second-order gradients of convolution and pooling", "statement": "Wherever they stand in a graph: (1) the two tensors made by the grad function of sparse_softmax_cross_entropy evaluate, the first, to the gradient of the loss with respect to the scores, the second (the one credited to the labels) to an array of the scores' shape [n, c] whose entry (i, j) is p_ij gy_i (sum_k p_ik log p_ik - log p_ij), p the softmax; with two or more classes that is not a gradient with respect to the labels. (2) The tensor softmax_cross_entropy's grad makes for the labels has no value when n, c are unequal and neither is 1; otherwise it has entries gy_j (sum_k p_ik log p_ik - log p_ij) loss_j, the gradient and the loss of row j standing in column j. (3) The two tensors conv2d's grad makes evaluate to the gradients with respect to image and filter; differentiating the filter's gradient again gives two tensors, credited to the image and to the incoming gradient in that order, which evaluate to the gradients of the filter's gradient with respect to these two. (4) Differentiating the gradient of max_pool2d (no padding, windows covering the image) with respect to the incoming gradient gives a tensor that evaluates to that gradient: it holds, for each window, the entry of the outer gradient at the window's first maximum.", "quantifier": "all graphs containing the operations and the rules' tensors, other operations, operand values and sizes as stated (convolution: windows covering the image; with overflow checks 2*pad <= stride*(out-1)), feeds, variables; debug and release builds", "why_tests_cant": "A gradient check perturbs scores and filters of one first-order loss; nobody differentiates with respect to labels or twice through a convolution for all sizes.", "anchors": ["src/tensor_ops/xent_ops.rs:115-202", "src/tensor_ops/conv_ops/conv2d.rs:556-598, 736-775", "src/tensor_ops/conv_ops/conv2d_transpose.rs:249-272", "src/tensor_ops/conv_ops/max_pool2d.rs:236-328"]}
{"id": "C84", "title": "Debug builds, and second derivatives through slices, concatenations, lookups and sparse cross entropy", "statement": "(1) For graphs of any operations, computing gradients in a debug build gives the same tensors and the same graph as in a release build if every rule called supplied as many gradients as its operation sends gradients to, and at least one; it panics if release builds panic or if some called rule did not. (2) In well-formed graphs of the array operations with known shapes the offending operations are exactly: operations without operands reached as differentiated outputs, the gradients of element access, of split and of sparse_softmax_cross_entropy, and the comparisons. (3) It is false that hessian_vector_product returns second derivatives through slice, concat and gather, in either build, and through split, element access and sparse_softmax_cross_entropy in release builds: with two outputs p*p (p the piece taken from x; for the cross entropy, the loss itself) and x*x, the result is the second derivative of the sum of x*x alone for every x and v; the terms of the piece are left out (2 u0 v0 for a slice [0..1), 4 u.v for concat(x,x), p0 p1 (u0-u1)(v0-v1) for the entropy); debug builds panic for split, element access and sparse cross entropy. (4) With p or p*p as the only output, hessian_vector_product panics in both builds for each of the six.", "quantifier": "all graphs and rules, ys, xs, initial gradients, heap orders (1, 2); all values of x, v and directions u for the graphs of (3)", "why_tests_cant": "Tests run in one build mode and take second derivatives of elementwise functions; a lost term gives a plausible finite result.", "anchors": ["src/gradient.rs:20-81", "src/op.rs:365-380", "src/tensor_ops/array_ops.rs:348-350, 469-472, 672-677, 746-748, 820-825", "src/tensor_ops/xent_ops.rs:115-157", "src/tensor_ops/mod.rs:218-236"]}
{"id": "C85", "title": "A regression network (examples/sine.rs)", "statement": "A network of any number of tanh layers of any sizes and a linear last layer, built as in examples/sine.rs: (1) mse evaluates to the mean, over all entries of the batch, of the squared distance of the network's prediction from the sine of the input. (2) The tensors that grad returns for any of the leaves (weights, inputs) have the leaves' shapes and are, at every point, the derivative of that distance along every direction. (3) One step of an optimizer without momentum (SGD; Adam, AdaGrad and momentum SGD with states as C63 requires) makes the distance smaller for every sufficiently small rate unless all gradients are zero, provided the update reads its gradients before the variables they share are written (C26).", "quantifier": "all numbers of hidden layers, batch sizes, dimensions, weights, inputs, directions, heap orders, debug and release builds; values are real numbers", "why_tests_cant": "The example prints a loss and asserts nothing; a wrong factor, a wrong sign in one layer or predictions compared with the wrong sines still give a loss that goes down at first.", "anchors": ["examples/sine.rs:26-37", "src/tensor_ops/mod.rs:295-305, 1149-1178, 1870-1882"]}
{"id": "C86", "title": "Transposed convolutions in graphs", "statement": "Wherever they stand in a graph: (1) conv2d_transpose evaluates to the gradient of conv2d with the same filter, for any image, its operand being the incoming gradient. (2) For operands as high as wide, or batches of one, the tensors its grad function makes evaluate to the gradients with respect to operand and filter, and the two tensors made by differentiating the filter's gradient again evaluate to the gradients of the filter's gradient with respect to the incoming gradient and the operand, credited in that order. (3) For batches of two or more operands that are higher than wide the filter's gradient has no value: its evaluation panics or reads behind a buffer. (4) It is false that the filter's gradient is right for batches of operands wider than high.", "quantifier": "all graphs containing the operations and the rules' tensors, other operations, operand values, sizes as stated (windows covering the image; with overflow checks 2*pad <= stride*(out-1)), feeds, variables; debug and release builds", "why_tests_cant": "The tests check shapes or a single square image; the wrong offset only shows in batches of images that are not square, and second derivatives of transposed convolutions are not tested.", "anchors": ["src/tensor_ops/conv_ops/conv2d_transpose.rs:249-300, 303-479", "src/tensor_ops/mod.rs:242-252, 2799-2856"]}
{"id": "C87", "title": "Convolution gradients of every order", "statement": "Start from conv2d (or dilated_conv2d) or conv2d_transpose somewhere in a graph and differentiate any number of times: call the grad function of the tensor's operation with any tensor of its shape as incoming gradient, pick one of the two tensors it makes, and repeat. Each tensor reached this way evaluates to one of three functions of the two tensors its gradients are credited to - the convolution of an image by a filter, the transposed convolution of a map by a filter, or the correlation of an image and a map - and the two tensors its own grad function makes evaluate to the gradients of that function with respect to the first and the second of these tensors (so never with respect to the unrolled columns that some of the operations take as input).", "quantifier": "all graphs, numbers of differentiations, choices of tensors and incoming gradients, values and sizes as stated (windows covering the image; with overflow checks 2*pad <= stride*(out-1); maps as high as wide or a batch of one, because of C86), other operations, feeds and variables; debug and release builds", "why_tests_cant": "The tests differentiate convolutions once or twice on a single size; from the third order on the rules of Conv2DWithCols and of the transposed filter gradient call each other in ways no test reaches.", "anchors": ["src/tensor_ops/conv_ops/conv2d.rs:531-631, 736-776", "src/tensor_ops/conv_ops/conv2d_transpose.rs:249-300, 433-479"]}
{"id": "C88", "title": "Third-order gradients of max pooling are lost", "statement": "The tensor that differentiating the gradient of max_pool2d makes (its second-order gradient, C83) depends on the tensor it is made from linearly: the gradient with respect to it is what the library's own MaxPool2DGrad operation computes from the incoming gradient and the positions of the maxima, and its entries sum to those of the incoming gradient. So it is not zero whenever that sum is not. The grad function of MaxPool2DGradGrad nevertheless supplies no gradient for either input: terms that reach it are left out of gradients of third and higher order.", "quantifier": "all sizes whose windows cover the image (no padding), all images above the lowest number, incoming gradients and operands, with and without overflow checks", "why_tests_cant": "No test differentiates max pooling three times; the result is a plausible number (or a missing gradient) rather than an error.", "anchors": ["src/tensor_ops/conv_ops/max_pool2d.rs:281-336"]}
{"id": "C89", "title": "lgamma has a gradient, digamma has none", "statement": "If digamma is the derivative of the log-gamma function at the entries of x, then the tensor that differentiating lgamma makes evaluates to the gradient (the incoming gradient times digamma of the entries). Digamma itself supplies no gradient, although its gradient is the incoming gradient times its derivative: wherever that derivative and the incoming gradient are not zero, leaving it out (or taking zeros) is wrong, so second-order gradients of lgamma lack this term or do not exist.", "quantifier": "all array shapes with entries, values and incoming gradients; any two functions in place of the crate's approximations that are derivative and function at the entries", "why_tests_cant": "The tests compare the first gradient of lgamma at a few points numerically; no test differentiates twice.", "anchors": ["src/tensor_ops/math_ops.rs:1021-1059", "src/tensor_ops/mod.rs:488-538"]}
