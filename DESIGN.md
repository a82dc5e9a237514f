# Design of the formal model of rust-autograd

Target: raskr/rust-autograd 2.0.0-rc3 (`/repo`, pinned). Proof assistant: Coq 8.16.1.
All Coq sources are in `rocq/theories` (logical name `Verif`).

## Method

* The code is modelled function by function as total Gallina functions.
  Each definition cites the file and lines it models and says where it simplifies.
* A Rust panic is an explicit error value; `Result`/`Option` stay data; `&mut`
  becomes "returns the new value"; loops become structural recursion, folds or
  recursion on fuel, with the out-of-fuel case excluded by a theorem.
* `*_Model.v` files hold definitions only, `*_Spec.v` files the small independent
  specifications, `*_Proofs.v` (and `*_Final.v`, `*_Steps.v`, ...) the lemmas, and
  `P_*.v` hold the property theorems (each closed by `exact`, with
  `Print Assumptions` beneath and an `Example` showing that its hypotheses are met
  by a non-trivial case).
* A claim that is false of the code is proved as `..._refuted` (or `..._panics`,
  `..._wrong`, ... when it is false for a whole class of inputs); the property text
  describes what holds and where it stops holding. A theorem that covers only part
  of its claim is called `..._partial`; there is none at present.
* "The gradient is right" always means: the array the gradient rule evaluates to has
  the operand's shape and its inner product with every direction is the derivative
  (`derivable_pt_lim` of the standard library) of `t |-> <gy, f (x + t dx)>` at 0.
  `Vjp_Spec.v` defines this (`vjp`) without reference to any model function.
* Mutation testing: realistic wrong edits of the model definitions, each followed by a
  rebuild; `seeded/LOG.jsonl` records for each edit which property theorems no longer
  held and which theorem was tightened because nothing failed.

## What is modelled

| Source | Model files | Treatment |
|---|---|---|
| `src/graph.rs`, `src/tensor.rs` (builder, install, `depends_on`, known shapes), `src/context`/`VariableEnvironment::run` | `Graph_Model.v` | a graph is the list of its nodes (operation, inputs with mutability and output index, shape tensor, variable id, placeholder name, rank, differentiability); commands append nodes |
| `src/evaluation.rs`, `src/op.rs` (compute context) | `Eval_Model.v` | the DFS loop with stack, storage, feeds, error propagation and in-place variables; the operations are an arbitrary function `compute` |
| `src/gradient.rs`, `grad`/`grad_with_default` in `src/tensor_ops/mod.rs` | `Grad_Model.v` | marking of the paths, work queue with arbitrary tie-breaking (`BinaryHeap` order between equal ranks), accumulation with `add_n`; the operations' rules are a parameter |
| elementwise functions and their gradient rules (`math_ops.rs`, `binary_ops.rs`, `activation_ops.rs`) on rank-0 tensors | `Scalar_Model.v` | real numbers; rules are expressions built into the graph as the code does |
| `ndarray` arrays | `Array_Model.v` | shape and row-major data; broadcasting, `fold_axis`, `into_shape`, `permuted_axes` with their panics |
| `binary_ops.rs` on arrays, `MaybeReduceSum`, `MaybeBroadcast`, `InferBinOpShape` | `Arith_Model.v` | generic elements |
| `reduction_ops.rs`, `ndarray_ext.rs` axis helpers | `Reduce_Model.v`, `Argx_Model.v` | argmax with strides (its bug is a layout bug) |
| `array_ops.rs`, `Transpose` in `math_ops.rs` | `Shape_Model.v`, `Clip_Model.v` | axes, indices and shape tensors are the integers they hold |
| `dot_ops.rs`, `tensordot` in `mod.rs` | `Dot_Model.v`, `Batch_Model.v` | batch products read views (buffer, offset, shape, strides) |
| softmax, log-sum-exp, cross entropies (`activation_ops.rs`, `math_ops.rs`, `xent_ops.rs`) | `Softmax_Model.v` | reals |
| `conv_ops/*.rs` | `Kernel_Model.v`, `Conv_Model.v`, `Pool_Model.v` | kernels as instruction lists on addressed buffers; out-of-bounds access, overflow of `i32`/`usize` and uninitialised memory are explicit |
| `src/variable.rs` | `Var_Model.v` | arrays as a list, names as an association list; save/load with the separator encoding; crash points of a file write |
| `src/optimizers/*`, `gradient_descent_ops/*` | `Opt_Model.v` | the four operations, state registration, `compute_updates`, `update` through the evaluator |

| operations on views of memory | `array_ops.rs:187-240, 281-315, 353-473, 698-724, 780-882, math_ops.rs:426-466, reduction_ops.rs:365-499, conv2d_transpose.rs:303-431` | `Layout_Model.v` (C76) |
| debug assertions of gradient computation; second derivatives through slices, splits, concatenations, lookups, element access, sparse cross entropy | gradient.rs:20-81, op.rs:365-380, array_ops.rs:348-825, xent_ops.rs:115-157 | `Grad_Model.v`, `Tens_Model.v`, `Hess_Model.v` (C84; `P_Builds.v`) |
| the regression network of examples/sine.rs | examples/sine.rs:26-37, mod.rs:1149-1178 | `Sine_Model.v` (C85; `Sine_Spec.v`, `Sine_Proofs.v`, `P_Sine.v`) |
| transposed convolution, its gradients and the gradients of its filter's gradient, in graphs | conv2d_transpose.rs:249-300, 433-479, mod.rs:242-252, 2799-2856 | `Trans_Model.v` (C86; `P_Trans.v`) |
| the `grad` functions of all convolution operations, called repeatedly | conv2d.rs:556-631, 746-775, conv2d_transpose.rs:274-300, 452-478, op.rs:365-380 | `High_Model.v` (C87; `High_Spec.v`, `P_High.v`) |
| `MaxPool2DGradGrad::grad` | max_pool2d.rs:333-336 | `Third_Model.v` (C88; `P_Third.v`) |
| `Lgamma`, `Digamma` | math_ops.rs:1027-1053 | `Gamma_Model.v` (C89; `P_Gamma.v`) |
| size of the graph after `grad` | mod.rs:94-153, gradient.rs:20-184 | `Grad_Model.v`, `Tens_Model.v` (C82; `Grad_Cost.v`, `Tens_Cost.v`, `P_Cost.v`) |
| labels' gradients of the cross entropies, second-order gradients of convolution and max pooling | xent_ops.rs:115-202, conv2d.rs:556-598, 736-775, max_pool2d.rs:281-328 | `Second_Model.v` (C83; `Second_Proofs.v`, `P_Second.v`) |
| operations with two outputs, `nth_tensor`, gradients read from output 1 | mod.rs:545-555, xent_ops.rs:63-202, conv2d.rs:531-587, 736-744, max_pool2d.rs:166-279 | `Multi_Model.v` (C81; `Multi_Proofs.v`, `P_Multi.v`) |
| argmax, equal and reduce_mean in graphs (accuracy) | reduction_ops.rs:187-239, 365-457, math_ops.rs:86-175, mod.rs:868-879, 955-963, 1227-1242 | `Acc_Model.v` (C80; `P_Acc.v`) |
| random operations, sequences of evaluations | random_ops.rs:6-238, ndarray_ext.rs:243-389, mod.rs:2426-2676 | `Sample_Model.v` (C79; `Sample_Spec.v`, `Sample_Proofs.v`, `P_Sample.v`) |
| `tensordot` in graphs | mod.rs:1914-1947, dot_ops.rs:723-798 | `Tdot_Model.v` (C78; `P_Tdot.v`) |
| array graphs of views of memory | the operations of `Tens_Model.v` | `Place_Model.v` (C77) |
| slots for registering variables, lookups from a context | `variable.rs:114-147, 164-223, 287-358, 414-416, 600-660, 758-763` | `Slot_Model.v` (C75) |
| remaining methods of the tensor builder | `tensor.rs:688-802` | `Builder_Model.v` (C08) |
| grad_helper | `optimizers/mod.rs:21-46` | `Helper_Model.v` (C73) |
| get_update_op, the sum of the updates, evaluated with other tensors | `optimizers/mod.rs:87-98, tensor_ops/mod.rs:831-847, array_ops.rs:504-528` | `Joint_Model.v` (C72) |
| matrix products and elementwise functions with the features blas and intel-mkl | `dot_ops.rs, math_ops.rs:211-290, conv_ops` | `Blas_Model.v` (C70, C71) |
| optimizer updates of one element on floats | `gradient_descent_ops/sgd.rs, adagrad.rs, adam.rs` | `Fopt_Model.v` (C69) |
| recurrent language model | `examples/lstm_lm.rs:22-52, 95-119` | `Lstm_Model.v` over `Tens_Model.v` (C68) |
| gather and its gradient inside whole graphs, shapes attached to gradients | `src/tensor_ops/array_ops.rs: Gather, GatherGrad`, `src/tensor_ops/mod.rs: gather` | `Tens_Model.v`, `Tens_Lax.v` (C67) |
| softmax, logsumexp, log_softmax, sparse and sigmoid cross entropy, sigmoid, softplus, relu, elu and their gradients on floats | `activation_ops.rs:60-220`, `math_ops.rs:540-593`, `xent_ops.rs:17-162` | `Float_Model.v` over Flocq's `BinarySingleNaN`: any precision and exponent range, rounding to nearest even, sums in any order and grouping (C66) |
| convolutional classifier | `examples/cnn_mnist.rs:36-51, 97-100` | `Net_Model.v` over `Tens_Model.v`, which now contains conv2d and max_pool2d and their gradients (C65) |
| borrow flags of variables; assign and updates on live views | `variable.rs:116, 685-703`, `evaluation.rs:291-361`, `gradient_descent_ops/*`, `array_ops.rs:90-105` | `Alias_Model.v` (C64) |
| training steps | none new | `Tens_Model.v`, `Opt_Model.v`, `Num_Model.v` and `Eval_Model.v` composed (C63) |
| shapes as floats | `Num_Model.v`, `Num_Spec.v` | all operations of `Tens_Model.v` on float arrays only, `as_shape`, `shape_of_view`, `to_isize` conversions (C62) |
| hooks, map, assign | `Hook_Model.v` | `register_hook`, `map_tensor`, `assign` and their `compute` and `grad` (C61) |
| results as views, releasing of results | `Mem_Model.v` | `eval` over a heap; refines `Eval_Model.v` (C60) |
| `array_gen` (random arrays, Glorot parameters), `Dropout`, `nth_tensor` | `Rand_Model.v` | any generator and distributions; the unchecked writes into the uninitialised vector are modelled as pushes; the other random operations only call the array generators |
| `hessian_vector_product` | `Hess_Model.v` | over `Tens_Model` |
| the array operations together with `grad` on one graph | `Tens_Model.v` | the kernels of `Arith_Model`, `Reduce_Model`, `Mean_Model`, `Shape_Model`, `Dot_Model`, `Softmax_Model` as operations of graph nodes; tensors hold real arrays or integer vectors (labels are integer vectors); builders attach shape tensors and rules append nodes as the code does; the second outputs of sparse cross entropy and conv2d are nodes of their own that read the operands (C81 proves the real arrangement); concat's rule for one or two operands; gather with its gradient, without typing |
| `jacobians`, `flatten` | `Jac_Model.v`, `Tens_Model.v` | over `Tens_Model` |
| composite operations | `Comp_Model.v` | reduce_mean, mean_all, reduce_variance, leaky_relu, mean_squared_error, normalize, batch_norm as expressions over their operands |
| `ReduceMean` | `Mean_Model.v` | real data; the number of averaged elements in single precision, as in the code |
| gradient checker | `Check_Model.v` | `check_theoretical_grads`: generic number type; the objective is any function of the variables; the pointer arithmetic through an explicit memory order |

## What is not modelled

* IEEE-754 rounding, overflow and NaN of *elements*: they are elements of a
  commutative ring, or the reals of Coq's standard library, as stated per theorem.
  (Exceptions: positions stored as floats in max pooling are rounded as floats are;
  C39 holds for any element arithmetic; C66 has the softmax family and the activation
  functions in IEEE-754 arithmetic as defined by Flocq, with the platform's exp, ln and
  tanh assumed to behave as stated in `Float_Spec.v`; C69 has the optimizer updates.)
* The crates `ndarray`, `rayon`, `matrixmultiply`, BLAS/MKL, `serde_json`, `rand`:
  their documented behaviour is written into the model and is part of the trusted base
  (next section). The models are of the default build; what is different with the features
  `blas` and `intel-mkl` is modelled for C70 and C71.
* Memory layout and raw pointers, except in argmax, batch_matmul, the convolution kernels and
  the gradient checker, in C76 (single operations) and in C77 (whole graphs); lifetimes, except those of results within an evaluation (C60). `RefCell` borrow panics are modelled in C64 only; op.rs's
  `input`/`input_mut` panics are modelled throughout.
* Shape *tensors* of array-level models: `x.shape()` is taken to be the operand's
  true shape. (That a stored shape tensor can differ from it is a finding of its own;
  see below.) Float-to-integer conversion of axes and shapes is exact, except in C62 and C63.
* Printing, error message texts, the random number generators themselves, data loading and accuracy computation of the examples (the network of `cnn_mnist.rs` is C65, that of `lstm_lm.rs` C68), Python-like
  conveniences without logic (re-exports, trait plumbing).

## Properties: what is modelled and how it is proved

* C01 (Evaluation returns the mathematical value of every requested tensor; proved) - Eval_Model; spec: inductive relation `value` (Eval_Spec), independent of the evaluator. Invariant of the DFS loop: stored results are values, the stack is consistent.
* C02 (Every operation runs at most once, after its inputs, and only if needed; proved) - The evaluator's trace of executed operations; invariant: stored <-> executed; needed = reachable from a target.
* C03 (Evaluation terminates in time linear in the graph; proved) - Measure on the stack and unstored nodes; the cyclic cases by showing that the loop revisits a state for every fuel.
* C04 (A failing operation fails exactly its dependents; proved) - Error relation `fails` in the spec, same invariant as C01.
* C05 (Placeholder feeds: first match wins, shapes are checked, missing feeds panic; proved) - Feeds as an ordered list of keyed entries; spec: first match. Placeholder creation models the shape check.
* C06 (Variables are only changed by executed in-place operations; proved) - Frame property of the loop: a write needs an executed operation with that variable as a mutable operand.
* C07 (Requesting the same computed tensor twice; proved) - The result extraction takes each computed value out of the storage once.
* C08 (Graph construction invariants; proved) - Graph commands as appends; invariant by induction over command sequences. Builder_Model adds the remaining builder methods; C08_builder_chain describes the tensor made by any chain of calls in terms of the last or all values given (`last_given`, `all_given`), by induction over the chain. P_Flags: C08_functions, C08_attached_shapes, C08_reshaping and C08_gradient_tensors describe the nodes that the constructors of Scalar_Model and Tens_Model add to any graph (operation, inputs, differentiability, attached shape tensor).
* C09 (One tensor per variable per graph; proved) - The variable cache as an association list; same command sequences.
* C10 (depends_on orders effects but loses gradients; proved) - depends_on as an edit of one node's inputs; C02's order theorem; gradient by the index shift in the rule.
* C11 (Reverse-mode differentiation sums over all paths; proved) - Grad_Model over an abstract denotation; spec: sum over paths defined by recursion on the graph. Work-queue invariant: processed nodes hold their final path sum.
* C12 (The gradient is the derivative (scalar graphs over the reals); proved) - Scalar_Model; total derivative by induction on the graph (chain rule), connected to C11's path sum, and to evaluation by C01.
* C13 (Backpropagation visits each tensor once, consumers first; proved) - Work-queue invariant (ranks do not increase, each node popped once).
* C14 (Gradients of unreachable or non-differentiable inputs are absent; proved) - Reachability on differentiable edges; the two API outcomes.
* C15 (Repeated and intermediate differentiation targets; proved) - Computed witnesses on scalar graphs.
* C16 (Building gradients does not disturb the graph; proved) - Gradient construction only appends; values by C01's locality.
* C17 (stop_gradient is the identity with no gradient; proved) - Scalar_Model rule of StopGradient and differentiability flag.
* C18 (Broadcasting gradients are adjoint; proved) - Arith_Model over R; vjp of broadcast arithmetic; adjoint pairs reduce/broadcast.
* C19 (Elementwise arithmetic follows broadcasting and is commutative where expected; proved) - Arith_Model, generic elements; spec: broadcast shape and elementwise index formula.
* C20 (Gradient rules of elementwise functions are the true derivatives; proved) - Each rule interpreted over R equals gy times the derivative (derivable_pt_lim).
* C21 (Variable registration, lookup and shadowing; proved) - Var_Model; refinement to a finite map by induction over registrations.
* C22 (Saving and loading variables is a round trip; proved) - Encoding with the separator; injectivity without it, collapse with it.
* C23 (Failed loads and crashes around save; proved) - File as a state machine with crash points; load as a partial function.
* C24 (SGD and momentum training; proved) - Opt_Model through the evaluator (C01/C06 frame), histories as lists, closed forms by induction.
* C25 (AdaGrad and Adam training follows the published recurrences; proved) - As C24; exponential averages and published Adam/AdaGrad moves as independent sums.
* C26 (Multi-parameter updates are simultaneous only when readers are shared; proved) - Condition on readers relative to the order of the parameters (`shared_readers`); Eval_Order shows in which order evaluation runs the targets' dependencies (last target first), `runs_before` is the resulting order; induction over the update list; counterexample family for all lr, w1 not zero.
* C27 (Reduce-sum and its gradient; proved) - Reduce_Model; spec: fold over the indices that agree on kept axes.
* C28 (Second-order gradient of reductions has the wrong shape; proved) - Shape argument for every shape and non-empty axis set.
* C29 (Concatenation, its inverse and its gradient; proved) - Shape_Model concatenate/concat_grad; blocks at offsets; shifted-block argument for wrong gradients.
* C30 (Slice and split and their gradients; proved) - Ranges with negative bounds; write into zeros is the adjoint.
* C31 (Gather and its gradient; proved) - Loop invariant of the accumulating scatter.
* C32 (Tile and its gradient; proved) - Index arithmetic modulo the length; shape argument.
* C33 (Reshape, flatten, squeeze, expand_dims; proved) - Row-major index invariance of reshape; insertion/removal of unit axes.
* C34 (Transpose and its gradient; proved) - Permutation of indices and its inverse.
* C35 (Matrix product and its gradients; proved) - Sums over the inner dimension; adjoint by exchanging sums.
* C36 (Softmax and log-softmax; proved) - Reals; maximum subtraction cancels; derivative of the quotient.
* C37 (im2col/col2im and convolution; proved) - Instruction lists executed on buffers; loop invariants give the memory contents; adjoint by re-indexing.
* C38 (Convolution gradient shape for inexact strides; proved) - Size arithmetic with truncating division.
* C39 (Parallel batch loops are schedule independent; proved) - Disjoint write sets of batch items; interleavings commute.
* C40 (Max pooling; proved) - Pool_Model; scan invariant (first maximum), scatter as a sum; rounding of positions with N arithmetic.
* C41 (add_n is the sum; proved) - Fold of zip_mut.
* C42 (setdiff1d; proved) - Sorted, duplicate-free filter.
* C43 (argmax/argmin return the first extremal index; proved) - Argx_Model with strides; into_shape on rolled axes.
* C44 (clip and its gradient; proved) - Clip_Model over R; local derivative.
* C45 (Optimizer state is separate per parameter; proved) - Names from decimal identifiers are injective; registration frame.
* C46 (access_elem and its gradient; proved) - Row-major position.
* C47 (tensordot contracts the named axes; proved) - tensordot as transpose, reshape, product; index arithmetic of mixed radices.
* C48 (batch_matmul multiplies matrix by matrix; proved) - Views with strides; standard layout gives the products.
* C49 (Log-sum-exp; proved) - As C36; misaligned broadcast for the dropped axis.
* C50 (Cross entropies; proved) - xent rules over R; vjp or its failure by explicit directions.
* C51 (Gradients of conv2d; proved) - Adjoint of C37 and sums over the batch.
* C52 (Gradients of conv2d_transpose; proved) - As C51; size_cols = yh*yh shifts columns of later batch items.
* C53 (Second-order convolution gradients; proved) - Bilinearity and C51/C52.
* C54 (Gradients of whole array graphs are vector-Jacobian products; proved) - Tens_Model: the array operations as nodes of one graph with the code's builders and gradient rules. Spec: value of a tensor as a function of the leaf arrays (Tens_Spec). Each rule is a vjp of its operation (Tens_Rules*.v, op_correct), building keeps the graph well-formed (Tens_Build), the path sum of C11 is the total derivative (Tens_Deriv), and C01 gives the evaluated value.
* C55 (Composite operations compute averages, variances and normalizations, with the right gradients; proved) - Comp_Model: each composite as an expression over its operands, run by the same builder as gradient rules (Tens_Model.build_expr). Spec: averages and variances of groups (Comp_Spec). Values by evaluating the expression; gradients because every node the builder adds fits its rule and lies in its domain (Tens_Comp.build_expr_nice), then C54.
* C56 (Hessian-vector products are second derivatives; proved) - Hess_Model: mod.rs:218-236 over Tens_Model. Spec: `twice`, `t_dom2`, `fits2`, `smooth2` (Second_Spec). Every node that the gradient rules of such operations create fits its own rule and lies in its domain (Second_Rules.rules_again), so the graph made by the first `grad` is differentiable (Second_Grad.c_denotes instantiates the abstract theorem behind C11 with this invariant); C54 applied twice. Failures by evaluation of concrete graphs.
* C57 (Dropout and random arrays; proved) - Rand_Model: generator and distributions as state-passing functions; dropout as an operation of graphs with arbitrary other operations (the shape tensor of the product in its gradient is left out). Spec: `draw`, `after`, `kept` (Rand_Spec) and `vjp`. Graph statements follow what an execution (C02) fed to each operation (Rand_Proofs.ran_reads); the mean is a Riemann integral of an indicator.
* C58 (The gradient checker accepts right gradients and bounds the error of what it accepts; proved) - Check_Model: src/test_helper.rs over any number type, with the memory order of each variable. Spec: `shift` (one element moved by t), `every_element`, `slope_bound` (Check_Spec). Loop invariant of the element and variable loops; Taylor bound of the central difference by three applications of the mean value theorem; `C58_accepts_grad` from C54 with unit directions.
* C59 (Jacobians are the matrices of partial derivatives; proved) - Jac_Model: mod.rs:188-216 over Tens_Model (one `grad` per element of y, each on the graph left by the one before). Spec: `times` (matrix times flattened direction) and single-element nudges. Each row is C54 applied to the element's tensor, whose smoothness is inherited from y (Jac_Proofs.t_rows_spec); flatten breaks the stored-shape invariant `twf`, so values after it are followed with the weaker invariant `loose` (Tens_Final), which suffices for evaluation but not for differentiating again. The flatten failure by evaluation of a concrete graph with symbolic elements.
* C60 (Views and lifetimes of results; proved) - Mem_Model: the evaluator of Eval_Model with a heap of result arrays; an operation returns new arrays or views (base pointer and a function of the array seen there); taking a result releases the operation's other outputs (evaluation.rs:214-222). Spec: `copying` turns such an operation into one that copies (Mem_Spec), to which C01-C10 apply. Step-by-step simulation with the invariant that every stored view reads, in the present memory, the value the copying evaluator stored. A view of a variable is copied when it is stored (op.rs:282). Arrays appended by failing operations stay allocated. The refutation holds for every operation of the stated form; the example is dropout and its mask.
* C61 (Hooks, map and assign; proved) - Hook_Model: HookOp, MapOp and AssignOp over an arbitrary set of further operations. Values from the evaluation semantics of C01; numbers of calls read off the evaluation log (C02, C04), since a hook's side effect is not part of the model; assignments from Eval_Update (as in C24). A panic inside the user's function is not modelled. The gradient refutations instantiate C11/C14 with the rule list of MapOp, which is empty; C61_hook_gradient: whatever the other operations' rules, if they denote the functions `vjp` then the gradients are the path sums in which hooked tensors are passed unchanged.
* C62 (Shapes, axes and indices as floats; proved) - Num_Model: the operations of C54 on float arrays only; the integer operands are read back with trunc, integer results are stored through rnd. Proved by relating each operation to the one of Tens_Model (num_value_spec) and following the evaluation semantics of C01 through the graph. Simplified: integer operands are read from vectors (rank 1) only, float arithmetic is otherwise over the reals, rnd is applied to integer results (shape, infer_bin_op_shape, size and constants). float_int is rounding to a mantissa width, as in C40.
* C63 (Training steps end to end; proved) - No new code is modelled; the models of C54 (gradients), C24-C26 (optimizers), C62 (one array type) and C01 (evaluation) are composed: the context holds the graph that grad extended. Tens_Joint: the velocity of every tensor under a joint motion is the sum of the velocities under single motions (induction over the graph with the chain rule of each operation). Train_Spec states the joint motion, the loss and the momentum-free states. The bound on the learning rate comes from the definition of the derivative and is not computed. Conditions taken from C26: updatable (parameters are distinct variables, gradients are not variables) and shared_readers; without the latter a step may use already updated parameters (C26_simultaneous_refuted).
* C64 (Borrowed and aliased variables; proved) - Alias_Model, first part: Eval_Model's loop with a borrow flag per variable; as_view/as_view_mut take and drop a guard. Proved by a step-by-step simulation (bstep_cases, beval_cases): every iteration is as without flags, or panics at an operand that the flags forbid; `needed` is C02's notion. Hooks and custom operations that themselves hold guards are not modelled. Second part: the element loops of zip_mut_with and Zip on views of the variables' memory; the loop lemma (live_fold_gen) shows that reading while writing makes no difference for elementwise loops, and each update is compared with the value-level step of Opt_Model (C24, C25). That Rust forbids such aliasing altogether (undefined behaviour) is not modelled; the theorem is about the loops as written.
* C65 (Convolutional classifiers; proved) - Net_Model: examples/cnn_mnist.rs as a builder over Tens_Model, whose operations now include conv2d and max_pool2d with their gradient operations (kernels of C37/C40/C51). Net_Spec: the loss as formulas, the sizes (`net_sizes`) and the regular points (`regular`), independent of graphs. Net_Proofs: every builder step gives a tensor with a known shape and value that is smooth at regular points (`at_`), by induction over the blocks. Gradients from C54, the step from C63 (and C26 for the order). Limits: dropout is left out; labels are integer constants; pooling without padding and after relu (so that every element is above T::min_value()); a convolution must cover its input exactly even if only the filter's gradient is wanted; the target shape of reshape with -1 uses the model's size arithmetic. The example's order of parameters matters: `cnn_layer_order` computes that the condition of C26 holds from the last layer to the first and not in layer order.
* C66 (Softmax, cross entropies and activations on floats; proved) - Float_Model: the operations lane by lane (as fold_axis, sum_axis and mapv work) on Flocq's binary floats of any precision `prec` and exponent bound `emax` (f32: 24/128, f64: 53/1024); sums are a relation: any order and grouping. Float_Spec: the assumptions on the platform's exp, ln and tanh (exact special values, monotone ranges; no accuracy is assumed), met by the correctly rounded functions (`C66_functions_exist`). Float_Proofs/Kernels*: no operation overflows because every intermediate is within the largest finite number; relative error of sums by induction over the grouping. `2*prec+1 < emax` holds for f32 and f64; at most 2^prec elements per lane. Limits: no accuracy of single outputs (only ranges, and the total of softmax); f16/bf16 do not exist in the library; MKL builds replace exp and ln by vectorised ones.
* C67 (Gradients through gather; proved) - Tens_Lax and the `lax` versions of Tens_Grad, Tens_Joint and Tens_Final: gradients of gather carry an attached shape tensor that does not hold their shape, so typing is split in `typed` (attached shapes right; used for everything that is differentiated) and `wtyped` (array shape right, attached shape unknown; used for gradients). `attached`: attached shape tensors are tensors of the graph. `uses` is `fits` of C54 plus gather along non-negative axes without -1 (C31 proves both panic otherwise). The kernels are those of C31. Steps (P_GatherStep): Num_Proofs and Train_Step are stated for both typings; `exact_inx true` is `exact_in` of C62 for the types `wtypes true`.
* C68 (Recurrent language model; proved) - Lstm_Model: examples/lstm_lm.rs as a builder over Tens_Model (words are integer constants instead of columns of a placeholder, so the squeeze of the unit axis is left out). Lstm_Spec: the LSTM equations and the loss as recursive formulas over functions of sentence and component. Lstm_Proofs: every building function with an invariant giving type, value and differentiability of each tensor, then induction on the positions. Gradients by C67 (the table is read with gather). No condition on the weights is needed: all operations used are differentiable everywhere. C68_step_decreases_loss instantiates the step theorem of C67. `tr_order`: with the parameters in the order of examples/lstm_lm.rs:118-124 the condition on the order of evaluation fails, with the last created first it holds.
* C69 (Optimizers on floating-point numbers; proved) - Fopt_Model: the closures of the update operations on one element, over Flocq's `BinarySingleNaN` (Float_Model's arithmetic plus `Bsqrt`). Fopt_Proofs: signs and ranges of products, sums, roots and quotients with overflow (`nonnegative` is a finite number from 0 on or +infinity); the frozen state by induction on the gradients with the invariant that the accumulator is +infinity; absorbed steps by the midpoint characterisation of rounding to nearest; the rounded formulas (`nearest`: Flocq's rounding of a real number) by finiteness going backwards through each operation. `same_number` identifies the two zeros.
* C70 (Matrix products in builds with BLAS; proved) - Blas_Model: dot_ops.rs and the BLAS branches of conv_ops as compiled with the feature blas: matrices in memory (buffer, offset, sizes, signed strides), the checks `is_blas_2d`/`is_blas_nd`, `cblas_gemm` with its i32 conversions and order/transpose arguments (documented behaviour of cblas_sgemm/dgemm), the swap of row/column-major in `mat_mul_blas`, the exchange of operands in `batch_mat_mul_impl` and the parallel iterator over matrices with its step sizes (rayon's `step_by`: rounded up). New arrays hold arbitrary values (`junk`). C70_product and C70_same_as_without: all layouts in `usual_layout` (a 0 stride or entries apart). C70_overlapping_rows_refuted shows why that is needed (not reachable through the public operations). C70_batch_product is proved from the address arithmetic of one matrix and disjointness of the blocks written. C70_batch_copied: operands with strides in `interleaved` (Blas_Spec: the stride of some batch axis is smaller than one of the last two) are copied by `batch_mat_mul_blas`; the theorem covers copied operands with each other and with standard operands that are not to be transposed; C70_copied_with_transposed_refuted is the remaining combination.
* C71 (Elementwise functions in builds with MKL; proved) - Blas_Model: `vm_map` (the macro elem_wise_vm_or_std): a function applied to `x.len() as i32` elements from `x.as_ptr()` on, strides ignored, the result in the operand's shape; elements not written keep arbitrary values (`junk`). That MKL computes nothing for a negative count is MKL's documented behaviour (trusted).
* C72 (Training through get_update_op; proved) - Joint_Model: `get_update_op` as `add_n` of the updates `compute_updates` builds (with the shape node `add_n` adds), and `AddN::compute` as an operation of the evaluator; everything else (graph, evaluator, optimizers) is that of C01 and C24-C26. Proof (Eval_Split, Opt_Joint, Opt_Joint2, Opt_Joint3): evaluating a tensor whose inputs are fresh is the same as evaluating it and its inputs as further targets (the stack below an entry never matters), nodes added later do not matter, and `settled` tensors run before the update that could change them. `sees_old`: whatever the tensor uses that reads the arrays of parameters from number a on is needed by a gradient of a parameter listed at or after it or by a tensor requested after the update. The equivalence with `update` has no such condition.
* C73 (Gradients with respect to the variables of a namespace; proved) - Helper_Model: `grad_helper` (sums of the losses, tensors of the namespace's variables, differentiation, extraction with the unreached variables left out) over the parameters of C11, and `t_grad_helper` for the array graphs of C54. Proof (Helper_Proofs, Helper_Tens): the loop over the path map agrees whether or not targets outside it are listed, so the call is `grad` on the `chosen` variables; the derivative is that of C54. `NoDup (current_var_ids e ns)`: no identifier is bound twice in the namespace (a loaded file could do that; then C11's duplicate-target refutation applies). That the call succeeds is not claimed here .
* C74 (When gradients exist; proved) - Nothing new is modelled. Returns_Spec says through which inputs an operation propagates gradients (`carries`), independently of the rules (`trule`); `flows` is a path of such inputs. Grad_Room proves for the generic traversal that it returns when every rule has room to install its tensors; Tens_Total proves for each operation that its rule returns on well-shaped inputs, adds at most 67 tensors per visited tensor, and gives a gradient to exactly the inputs of `carries`; Tens_New that the tensors added are not leaves, hence evaluation of the extended graph needs no further feeds and (eval_arrays) returns. The iff's left-to-right half: a panic-free traversal has extracted a gradient for each target, whose origin is a path of `carries`. The hypothesis on the node table (67 * (nodes + outputs) + 4 * targets <= 499998) is sufficient, not necessary. `C74_gradient_of_floor_panics` is an instance; `C74_hypotheses_met` the layer of Tens_Examples.
* C75 (Registering variables through slots; proved) - Slot_Model: the four kinds of slots with their `set` and `name`, `VariableEnvironment::set`, the lookups of a context, `var_tensors_by_id`. `Uuid::new_v4` is an arbitrary function of the number of the registration; freshness is a hypothesis (`fresh`) of the theorems about names. Slot_Spec describes calls by what they register (`registers`); Slot_Proofs translates histories of calls to the histories of C21.
* C76 (Operations on transposed and sliced operands; proved) - Layout_Model: `view` (buffer, offset, shape, strides; from Batch_Model) and the operations on views as ndarray 0.16.1 performs them: `into_shape` keeps row-major views as row-major, column-major ones as column-major, and rejects the others; `as_slice`, `as_slice_memory_order`/`into_raw_vec` (`raw`), slicing, axis permutation, deep copies. Layout_Spec says by positions in memory when a view is row-major (`row_major_view`), column-major or addresses as many strides as axes (`view_ok`). The array-level models (Shape_Model, Reduce_Model, Argx_Model, Conv_Model) applied to `contents` are the reference. Left out: negative and zero strides produced by other means than broadcasting inside an operation.
* C77 (Graphs whose tensors are views of memory; proved) - Place_Model: the operations of Tens_Model on views (`pcompute`): view operations and operations that read memory directly are those of Layout_Model (C76), all others compute the elements with Tens_Model's `tcompute` and put them where a parameter `place` says; `place_compute` makes it an operation of the evaluator model (Eval_Model). Place_Spec: `stored k` (by rows / by rows or columns / anyhow, with all elements inside the memory), `result_order` (what is assumed about where ndarray puts results: `places`), `must_be` and `should_be` (operands whose order matters), `order_of` (order of each tensor, computed over the graph), `safe`, `steady` (operations fit for operands in order k; and those in their gradient). Place_Proofs `op_cases`: per operation, on operands in the required order the result has the elements of the array-level result, or it is a panic caused by an operand stored neither way. Place_Graph: strong induction over the graph; the evaluator theorems of C01 carry it to `eval`. Place_Grad: the tensors gradient construction adds are safe (frame argument over the construction with a generic predicate on operations), combined with C54 and C74. Assumptions beyond the model: ndarray places results as `result_order` says (elementwise maps keep the order of a contiguous operand, everything that fills a new vector is row-major, products may be column-major). Not modelled: layouts of integer vectors and of tensors outside Tens_Model (batch products, norms, random tensors); in-place updates.
* C78 (Tensordot and its gradients in graphs; proved) - Tdot_Model: `tdot_pre` (TensordotPreprocess on shapes) and `build_tensordot`, the transposes, reshapes and product of mod.rs:1941-1946 as an expression over Tens_Model. Simplification: the five vectors TensordotPreprocess computes at evaluation are constants for operands of the given shapes; its own gradient rule gives none, so nothing flows through them. Values: `build_expr_spec` and C47's `tensordot_ok`; spec `contraction` (Dot_Spec). Gradients: the expression fits and is smooth (`build_expr_nice`), then C54's theorem; the statement quantifies over any function giving the contractions, which are shown to be unique (`contraction_unique`).
* C79 (Random tensors over successive evaluations; proved) - Sample_Model: the random operations, each with the state of its own generator in the graph, `moved_graph` (the states after an evaluation, from its log of executed operations) and `session` (evaluations one after the other, with new tensors, feeds and variables in between). Sample_Spec states `draws_by` (which distribution an operation samples), `samples` (consecutive draws) and `holds_dims` without the model. Graphs that differ in their operations only have the same dependencies (Sample_Proofs, `same_graph`), which carries the statements through the sequence. Distributions and the generator are parameters; a distribution constructor that rejects its parameters makes the evaluation panic. Not modelled: that the loops write through `get_unchecked_mut` beyond the length of an empty vector (undefined behaviour in Rust, see C57). `C79_epochs_repeat` compares the first evaluations in two graphs (by C79_stream); the generator default is the parameter `default_rng`, equal for both because ndarray_ext.rs:249-265 seeds with a constant.
* C80 (Classification accuracy; proved) - Acc_Model: `argmax`, `equal` and `reduce_mean` as operations beside arbitrary others (`acc_compute`, from the kernels of Argx_Model, Tens_Model and Mean_Model) and the calls that build the accuracy (`accuracy`). P_Acc states `classified` (the label is the position of the first largest score) and proves the value of the tensor for every graph containing it (`C80_accuracy`), that softmax and log-softmax do not change which rows are counted (`C80_probabilities`), and that labels of shape [n] make every evaluation panic (`C80_flat_labels`). Elements are reals (so sums of zeros and ones are exact); the number of averaged elements is computed in single precision, hence n <= 2^24 (cf. C55).
* C81 (Operations with two outputs; proved) - Multi_Model: the two-output operations and the operations their gradients use, beside arbitrary others (`mcompute`, from the kernels of Softmax_Model, Conv_Model, Pool_Model, Arith_Model; positions of max pooling stored as elements and read back), `nth_tensor`, the functions that build the operations and the parts of their `grad` that read output 1 (`sparse_xent_rule`, `xent_rule`, `conv_rule_w`, `pool_rule`). Multi_Proofs: what an input that selects an output reads, in graphs of any operations. The values combine this with C37, C40, C50 and C51. By uniqueness of vjps the tensors have the values Tens_Model (C54) gives them, where the second outputs are computed from the operands by nodes of their own. Left out: the labels' gradient of the cross entropies, shape tensors.
* C82 (Gradients cost a constant factor; proved) - Grad_Cost: for any measure of the graph under construction, what `grad_with_default` adds is bounded by what the rules, `add_n`, the first gradient and `zeros` add; the operands of the `add_n` tensors are counted by the gradients held in the map, which every registered gradient raises by one. Tens_Cost instantiates the measure with tensors and operands (`weight`): every rule of Tens_Model adds at most 64 tensors with 72 operands whatever its arguments (`rule_cost`), and which rules are called comes from the invariant behind C13. The model computes second outputs by nodes of their own (see C81), which the code does not, and leaves out the gradient of class labels (xent_ops.rs:129-133, fewer than 64 tensors with the rest of that rule); concat of three or more operands is not modelled, so the constants do not cover it.
* C83 (Labels' gradients and second-order gradients of convolution and pooling; proved) - Second_Model puts a few more operations (constants, dense sums, transposed convolution, convolution of stored columns, the gradient of max pooling's gradient) beside those of Multi_Model and builds, node by node, the tensors of the whole `grad` functions: both gradients of the two cross entropies, both of `conv2d`, and the second-order rules, which find the operands of the node they differentiate in the graph (`ctx.input`, `get_backprop_input`). P_Second evaluates these tensors by steps over an extending graph (`ext`): each step reads the values of its operands and C36, C37/C38, C39, C40 supply the kernels' meaning, so that conclusions are about values and `vjp` (derivatives of the operation at its operands), not about the tensors built. `tensor_value` is relational: no value means every evaluation that needs the tensor panics. Not modelled here: dispatch from `grad_with_default` to these rules (C11 and C54 treat dispatch), max pooling with padding (C40 refutes its gradient), rounding.
* C84 (Debug builds, and second derivatives through slices, concatenations, lookups and sparse cross entropy; proved) - P_Builds needs no further model: `debug` is a parameter of `grad_with_default` (Grad_Model) that switches the two debug assertions (gradient.rs:63, op.rs:375-378) on. `C84_debug_build` compares the two runs by simulation, for any operations; `complete` says when a rule meets the assertions, by the number of gradients it supplies, which is a function of the operation (`supplied`). `C84_array_graphs` works out which operations of Tens_Model do not (`short`); `C84_pieces_refuted` and `C84_entropy_refuted` state second derivatives as derivatives of derivatives of the outputs' values (`derivable_pt_lim` twice) and compare them with the value of the tensor returned; `C84_alone_panics` runs the graphs with a single output. Assertions elsewhere and the overflow checks of debug builds are not part of this.
* C85 (A regression network (examples/sine.rs); proved) - Sine_Model builds `sin`, the hidden layers, the last product, `mse` (mean_all = sum_all / size) with the builders of Lstm_Model; the number of layers is a list of variables. Sine_Spec gives the prediction as sums of products and tanh, independent of arrays' operations. `sine_made` (induction over the layers) gives shape, value and differentiability everywhere; the gradients follow from C63's total derivative, the step from C63. Simplified: the inputs are a leaf instead of `standard_uniform(..) * 10.` (what that holds: C79; without a generator it is the same batch in every epoch). The example of the repository uses Adam with its default momentum, for which a single step need not decrease the loss; the theorem covers states without momentum. Example: two inputs, layers 1x2, 2x2, 2x1 with the last weights 0; parameters listed from the last layer to the first meet C26's condition, in the other order they do not (`sn_layer_order`).
* C86 (Transposed convolutions in graphs; proved) - Trans_Model adds `StopGradient` and `Conv2DTransposeFilterGrad` to the operations of Second_Model and transcribes the two `grad` functions; the tensor rules are followed node by node (`rule_values`, `step_first` for the first of conv2d's two outputs), the kernels by C51, C52, C53. The filter enters its own gradient through `stop_gradient`, whose flag `differentiable = false` is left out (no value depends on it). A read behind a buffer (undefined behaviour) counts as having no value. `C86_wide_batches_refuted` puts C52's witness into a graph: the tensor holds 66, the derivative is 78.
* C87 (Convolution gradients of every order; proved) - High_Model adds `Conv2DWithCols::grad` and `conv_rule`, which calls the `grad` function of a tensor's operation (five operations). The pads, strides and dilations that `Conv2DWithCols` and `Conv2DFilterGrad` carry only for their `grad` are parameters of `conv_rule` (the code copies them from operation to operation unchanged). High_Spec gives the three functions by the formulas of Conv_Spec. The proof is an invariant (`stands`): each tensor reached is made by one of the five operations, from operands with known values; `stands_value` evaluates it, `rule_stands` shows that the rule's tensors satisfy the invariant again and that their meaning is the gradient, `first_vjp`/`second_vjp` that these are adjoints. How `Gradient` sums the contributions is C11-C17.
* C88 (Third-order gradients of max pooling are lost; proved) - Third_Model states what `MaxPool2DGradGrad::grad` supplies (two times none); the kernels are C40's. The gradient is unique (`vjp_unique`), so showing the right one and that its entries sum to those of the incoming gradient shows that zeros are wrong. What `grad` does with inputs that get no gradient is C14 and C74.
* C89 (lgamma has a gradient, digamma has none; proved) - Gamma_Model has the two functions of the crate `special` as parameters; how well they approximate the mathematical functions is not modelled. The proof is `vjp_pointwise` (elementwise functions) and `mul_same` (products of equally shaped arrays). The example takes `ln` and its derivatives as the parameters, since the gamma function is not in the standard library.

## Trusted base

* Coq 8.16.1's kernel (`vcheck` additionally rebuilds from a clean checkout).
* The faithfulness of the model to the source, as cited definition by definition.
* Assumed behaviour of external code (all written as definitions or Section
  variables, never as axioms):
  * `matrixmultiply::sgemm/dgemm` and cblas store `sum_k a_ik b_kj` (plus the old
    entry for beta = 1) in the addressed entries (`gemm` in `Dot_Model.v`,
    `gemm_call` in `Kernel_Model.v`).
  * ndarray 0.16.1: broadcasting, `Zip`, `fold_axis`, `into_shape` (row-major, or
    column-major when only that fits), `slice` with negative bounds,
    `permuted_axes`, `concatenate`. Indexing an array of rank > 0 with an empty
    index is left open by a Section variable `at_empty` (panic or some value): the
    theorems hold for either.
  * rayon's `step_by`/`zip` give batch item `b` to index `b`; `step_by(0)` panics.
    Parallel items may interleave arbitrarily (C39).
  * `serde_json` maps finite floats to themselves and NaN/infinity to `null`; the
    file codec is a Section variable with exactly the round-trip property stated in
    `Var_Model.v`.
  * `Float::powf` in Adam is a Section variable; C25 asks it to agree with whole
    powers. `exp`, `ln`, ... on f32/f64 are the real functions.
  * `BinaryHeap` pops an element of greatest rank; ties are resolved arbitrarily
    (the theorems quantify over the choice).
* Integers: `usize`/`i32` arithmetic is unbounded except in the convolution and
  pooling models, where overflow panics (checked builds) or wraps (release builds)
  as stated. Oversized kernels in release builds (wrapped `usize` sizes) are not
  modelled for convolutions and are treated as a panic for pooling.
* Uninitialised memory (`Vec::set_len`) holds an arbitrary function `uninit`; the
  theorems quantify over it.
* Axioms, as listed by `Print Assumptions` under every theorem in the `P_*.v` files
  (no axiom is added by this development; all are from Coq's standard library):
  * class 0 - "Closed under the global context";
  * class D - `ClassicalDedekindReals.sig_forall_dec`;
  * class R - class D and `FunctionalExtensionality.functional_extensionality_dep`;
  * class N - class R and `ClassicalDedekindReals.sig_not_dec`;
  * class C - class N and `Classical_Prop.classic`.
  The classes of all theorems are given in the table at the end.

## Where the code departs from the expected behaviour

Each item is a theorem (named) about the model of the unchanged code.

* Evaluation: requesting a computed tensor twice panics (C07); `depends_on` can
  create cycles on which evaluation never returns (C03) and breaks the rank order
  (C08); it also drops the gradient of the first operand (C10).
* Differentiation: targets that occur twice or lie between other targets are double
  counted (C15); a target all of whose rules give nothing panics instead of giving
  zeros (C14); `maximum`/`minimum` give the full gradient to both operands on a tie
  (C20).
* Arithmetic: gradients for operands of smaller non-zero rank panic or are wrong (C18);
  shape tensors fail for unequal ranks (C19).
* Reductions: an axis named twice removes another axis, empty vectors are returned
  unchanged (C27); the second-order rule inverts `keep_dims` (C28).
* Array operations: gradients of `concat` (C29), `tile` (C32), of `gather` with
  negative axes or index -1 (C31), of `squeeze`/`expand_dims` with negative axes
  (C33); `setdiff1d` truncates (C42); `argmax`/`argmin` on higher ranks (C43).
* Products: gradients of transposed products (C35); `batch_matmul` on permuted operands
  and unchecked inner dimensions (C48).
* Softmax family: `log_softmax` gradient off axis 1 (C36); `reduce_logsumexp` without
  `keep_dims` (C49); cross-entropy gradients for labels and for several rows (C50).
* Convolutions: wrong gradient shapes for inexact strides, panics with padding in
  checked builds (C38, C51); uninitialised filter gradient of an empty batch (C51);
  filter gradient of the transposed convolution on non-square inputs (C52).
* Pooling: padding, inexact strides (out-of-bounds write), f32 positions (C40).
* Variables: the separator in names breaks saving (C22), saving is not atomic, a loaded
  file is not validated (C23).
* Optimizers: updates of several parameters are not simultaneous (C26); optimizers in one
  namespace share state arrays (C45).
- The product of two operands that both have stride 1 along their first axis (e.g. two transposed matrices) is stored by columns
  (dot_ops.rs:585-593), so `access_elem` of such a product counts by columns (C76, C77).
- Views left by `transpose`, `slice` and `split` are not copied, and some operations read their memory instead of their elements: `access_elem` of a transposed matrix returns the wrong element, `gather` with transposed indices looks up in the wrong order, `argmax` along the first axis of a transposed array permutes its results, the filter gradient of `conv2d_transpose` ignores strides; the gradient of `transpose(reduce_sum(x,[0]),[1,0,2])` and `expand_dims` of such views panic (C76).
- With the feature `blas`, `batch_matmul` of an operand that has to be copied (its batches lie inside its matrices) with a standard operand that is to be transposed falls back to the other kernel, which reads the memory of the original with the strides of the copy: wrong products (C70_copied_with_transposed_refuted).
- With the feature `blas`, `batch_matmul` of matrices with column vectors panics when the left operand is transposed or has one column (dot_ops.rs exchanges the operands, not the step sizes), so the gradient of every batch of matrix-vector products with respect to the vectors panics; and with operands of rank 4 or more whose second axis has length 1, transposed operands are read untransposed, because `is_blas_nd` looks at the first two axes instead of the last two: results and gradients are wrong (C70).
- With the features `blas` and `intel-mkl`, elementwise functions ignore strides: `exp(transpose(x))` is computed as if `x` had not been transposed; from 2^31 elements on they return uninitialised memory (C71).
- AdaGrad and Adam accumulate squared gradients without guarding against overflow: one finite gradient whose square is beyond the largest float freezes the parameter for the rest of the training, without any error (C69).
- `shape` of a gradient through `gather` is the shape of the positions, not of the table (C67_attached_shape_refuted).
- The gradient of `sigmoid_cross_entropy` is `exp(x)/(1+exp(x)) - t`: once `exp(x)` overflows (x >= 88.8 in f32) it is NaN for every target and incoming gradient, although the loss is finite there. `softplus` becomes infinite and its gradient NaN at the same inputs (C66).
- `relu` uses `max`, which drops NaN: a NaN becomes 0 and its gradient 0, so a diverged value disappears silently; a softmax lane with one NaN or plus infinity, or with minus infinities only, is all NaN (C66).
- tensors requested before the result of `get_update_op` are computed after the parameters have been changed unless the gradients use the same tensors; examples/sine.rs requests its loss first and is saved by that exception, while its gradients are those of one point only if `w1` comes last in hash-map order (C72).
- `floor`, `ceil` and `sign` are marked differentiable but supply no gradient, so asking for the gradient of a variable that is only reached through them panics instead of giving zeros (`stop_gradient`, marked non-differentiable, gives zeros) (C74).
- `grad` panics without outputs and `grad_helper` without losses (indexing their empty lists), the first also when there is nothing to differentiate (C11, C73).
- `get_update_op` panics for an empty list of parameters, `update` does nothing (C72).
- `update` changes the last listed parameter first and recomputes nothing: with parameters in layer order, the gradients of the earlier layers are computed with already changed later layers; the optimizers of the examples list parameters in hash-map order, so a training step depends on it (C26, C65).
- `as_view`/`as_view_mut` drop the `RefCell` guard before the view is used, so an operation can hold a mutable and another view of one variable (`assign(x, x)`, an optimizer fed with a variable as gradient); AdaGrad fed with its own accumulator makes a wrong step (C64).
- Shapes are stored as floats: beyond 2^24 elements along a dimension in f32, `shape` is off by one, gradients of `sum_all` silently get the wrong length and `reshape(x, shape(x))` panics (C62).
- `map` has no gradient rule: debug builds panic when differentiating through it, release builds leave its paths out without notice (C61).
- Requesting a tensor with several outputs and then `nth_tensor(t, k)`, `k >= 1`, in one `eval` reads released memory: taking the first output drops the others while a view of them is still stored (C60).
- `flatten` attaches the shape of its operand as the shape of its result: evaluating the gradient of `sum_all(square(flatten(x)))` panics for a 2 x 3 matrix `x` (C59).
- `jacobians` with no rows panics (C59).
- `check_theoretical_grads` accepts NaN gradients, and indexes variables in memory order but gradients in the order `as_ptr` gives, so it compares different elements for variables that are not row-major (C58).
- `dropout` in test mode has no evaluable gradient: its rule asks for a second output that only training mode produces (C57).
- `dropout` seeds a new generator with a fixed seed for each tensor, so all equally shaped dropouts, and all training steps that rebuild the graph, use the same mask (C57).
- gradients flowing into a tensor taken with `nth_tensor` are credited to the first output (C57).
- `hessian_vector_product` leaves out the terms of slices, concatenations, lookups (both builds), splits, element access and sparse cross entropy (release builds; debug builds panic); if nothing else depends on x it panics (C84).
- The tensor that `sparse_softmax_cross_entropy` credits to its labels has the scores' shape and is not a gradient with respect to the labels; that of `softmax_cross_entropy` multiplies by the loss and lines rows up with columns, and has no value when batch and class numbers differ and neither is 1 (C83).
- `glorot_normal`/`glorot_uniform` use fan-in only; the variances are 1/n and 2/n (C57).
- `hessian_vector_product` through `matmul` returns transposed results, through `reduce_sum` with dropped axes it returns a tensor that cannot be evaluated, through ELU it loses terms or panics, through element access it panics, and through `maximum` it panics in debug builds (C56).
- `ReduceMean` computes the number of averaged elements in `f32` for every element type: the `f64` mean of 2^24+1 ones is not 1 (C55).
- `MaxPool2DGradGrad` supplies no gradient although it is linear in its first input: third-order terms through max pooling are lost (C88).
- `digamma` supplies no gradient, so second-order gradients of `lgamma` lack a term or do not exist (C89).
- examples/sine.rs trains on one batch: its `standard_uniform` is made without a generator, so each epoch's inputs are the same numbers (C79, C85).
- random tensors made without a generator are copies of each other: each call seeds a new generator with the same seed (C79).

## Axioms per theorem

Classes as defined under "Trusted base".

| Property | Theorems (class) |
|---|---|
| C01 | `C01_eval_returns_values` (0), `C01_eval_only_values` (0), `C01_value_unique` (0), `C01_other_targets_irrelevant` (0), `C01_builder_calls` (0) |
| C02 | `C02_once_in_order_needed` (0), `C02_sequential_execution` (0) |
| C03 | `C03_terminates` (0), `C03_fuel_irrelevant` (0), `C03_cycle_never_returns` (0), `C03_depends_on_cycle_diverges` (0) |
| C04 | `C04_failures_propagate_exactly` (0), `C04_debug_error_needs_output` (0) |
| C05 | `C05_placeholder_value` (0), `C05_placeholder_operand` (0), `C05_other_feeds_irrelevant` (0), `C05_set_feeder` (0), `C05_placeholder_creation` (0) |
| C06 | `C06_variables` (0) |
| C07 | `C07_repeated_computed_target_panics` (0), `C07_repeated_sources_fine` (0) |
| C08 | `C08_builder_chain` (0), `C08_builder_panics` (0), `C08_functions` (0), `C08_attached_shapes` (0), `C08_reshaping` (0), `C08_gradient_tensors` (0), `C08_fresh_tensor` (0), `C08_existing_unchanged` (0), `C08_inputs_older_and_acyclic` (0), `C08_always_well_formed` (0), `C08_depends_on_breaks_order_refuted` (0) |
| C09 | `C09_same_tensor` (0), `C09_injective` (0), `C09_at_most_one` (0), `C09_clear` (0) |
| C10 | `C10_depends_on_order` (0), `C10_depends_on_values` (0), `C10_first_operand_gradient_dropped` (0), `C10_gradient_changes_refuted` (0) |
| C11 | `C11_gradient_is_path_sum` (0), `C11_path_sum_unique` (0), `C11_gradient_exists` (0), `C11_no_output_panics` (0) |
| C12 | `C12_grad_is_derivative` (C), `C12_grad_with_default_is_derivative` (C), `C12_second_derivative` (C), `C12_evaluated_gradient` (C), `C12_values_are_evaluated` (C) |
| C13 | `C13_rules_called_once_in_order` (0), `C13_terminates` (0) |
| C14 | `C14_unreached_gives_zeros` (0), `C14_starved_target_panics` (0) |
| C15 | `C15_intermediate_target_refuted` (0), `C15_repeated_target_refuted` (0), `C15_repeated_output_refuted` (0) |
| C16 | `C16_gradients_only_append` (0), `C16_values_unchanged` (0) |
| C17 | `C17_identity_forward` (0), `C17_never_on_a_path` (0), `C17_behind_stop_gets_zeros` (0) |
| C18 | `C18_left_operand` (R), `C18_right_operand` (R), `C18_second_order` (R), `C18_gradient_unique` (R), `C18_unequal_rank_panics` (R), `C18_unequal_rank_refuted` (R), `C18_empty_axis_refuted` (D) |
| C19 | `C19_elementwise` (0), `C19_commutative` (0), `C19_incompatible_shapes` (0), `C19_one_element_divisor` (0), `C19_static_shape` (0) |
| C20 | `C20_unary_rules` (C), `C20_binary_rules` (C), `C20_forward_functions` (C), `C20_maximum_tie_refuted` (C) |
| C21 | `C21_lookup_by_id` (0), `C21_lookup_by_name` (0), `C21_registration_is_local` (0), `C21_namespace_listing` (0), `C21_variable_tensors` (0) |
| C22 | `C22_round_trip` (0), `C22_initialize` (0), `C22_any_names` (0), `C22_separator_refuted` (0), `C22_non_finite_refuted` (0) |
| C23 | `C23_failed_load_keeps_environment` (0), `C23_crash_during_save` (0), `C23_atomic_save_refuted` (0), `C23_create_fails` (0), `C23_bad_file_panics` (0), `C23_dangling_identifier_refuted` (0) |
| C24 | `C24_single_parameter_update` (N), `C24_sgd_training` (N), `C24_momentum_training` (N) |
| C25 | `C25_adagrad_training` (N), `C25_adam_training` (N), `C25_divisions_proper` (N) |
| C26 | `C26_simultaneous_when_shared` (N), `C26_simultaneous_returns` (N), `C26_simultaneous_refuted` (N) |
| C27 | `C27_reduces` (0), `C27_sparse_axes` (0), `C27_gradient` (R), `C27_sum_all` (R), `C27_duplicate_axes` (R), `C27_empty_vector_refuted` (D), `C27_axis_too_large` (0) |
| C28 | `C28_expected` (R), `C28_flag_inverted` (R) |
| C29 | `C29_concat` (0), `C29_concat_determined` (0), `C29_split_after_concat` (0), `C29_concat_after_split` (0), `C29_negative_axis_panics` (0), `C29_expected_gradient` (R), `C29_computed_gradient` (D), `C29_first_operand` (R), `C29_later_operands_refuted` (R) |
| C30 | `C30_slice` (0), `C30_slice_gradient` (R), `C30_split` (0), `C30_split_gradient` (R) |
| C31 | `C31_gather` (0), `C31_gradient` (R), `C31_negative_axis_gradient_panics` (0), `C31_index_minus_one_gradient_panics` (0), `C31_no_indices_panics` (0) |
| C32 | `C32_tile` (0), `C32_gradient_unit_axis` (R), `C32_gradient_refuted` (R) |
| C33 | `C33_reshape` (0), `C33_reshape_only` (0), `C33_reshape_gradient` (R), `C33_flatten` (0), `C33_expand_dims` (0), `C33_squeeze` (0), `C33_squeeze_after_expand` (0), `C33_expand_dims_gradient` (R), `C33_squeeze_gradient` (R), `C33_expand_negative_axis_refuted` (D), `C33_squeeze_negative_axis` (R), `C33_squeeze_two_negative_axes_refuted` (0) |
| C34 | `C34_transpose` (0), `C34_gradient` (R), `C34_not_a_permutation` (0) |
| C35 | `C35_product` (R), `C35_mismatch` (0), `C35_not_matrices` (0), `C35_gradients` (R), `C35_transposed_left` (R), `C35_transposed_right` (R), `C35_transposed_square_refuted` (R) |
| C36 | `C36_softmax` (N), `C36_distribution` (N), `C36_shift_invariant` (N), `C36_no_overflow` (R), `C36_gradient` (N), `C36_log_softmax` (C), `C36_log_softmax_gradient` (C), `C36_log_softmax_vector_panics` (D), `C36_log_softmax_other_axis_refuted` (C) |
| C37 | `C37_value` (R), `C37_columns` (R), `C37_channels` (D), `C37_transposed_value` (R), `C37_adjoint` (R) |
| C38 | `C38_shape` (D), `C38_checked_padding_panics` (D), `C38_inexact_stride_refuted` (R) |
| C39 | `C39_conv2d` (0), `C39_conv2d_transpose` (0), `C39_im2col_batch` (0), `C39_conv2d_with_cols` (0) |
| C40 | `C40_value` (R), `C40_nothing_above_lowest` (0), `C40_gradient_routes` (R), `C40_gradient` (R), `C40_second_order` (R), `C40_padding_panics` (0), `C40_padding_wraps` (R), `C40_inexact_gradient_wrong` (R), `C40_inexact_out_of_bounds_refuted` (R), `C40_oversize_panics` (0), `C40_f32_positions_refuted` (R) |
| C41 | `C41_sum` (R), `C41_gradient` (R) |
| C42 | `C42_setdiff1d` (0), `C42_integer_tensors` (R), `C42_fractions_refuted` (R) |
| C43 | `C43_argmax_first_axis` (R), `C43_argmin_first_axis` (R), `C43_argmax_rows` (R), `C43_argmin_rows` (R), `C43_higher_rank_panics` (R), `C43_last_axis_refuted` (0) |
| C44 | `C44_clip` (R), `C44_gradient` (R), `C44_on_the_bound` (R) |
| C45 | `C45_state_registered` (D), `C45_unknown_parameter` (D), `C45_private_per_optimizer_refuted` (D) |
| C46 | `C46_access_elem` (0), `C46_out_of_range` (0), `C46_gradient` (R) |
| C47 | `C47_tensordot` (R), `C47_mismatch` (0) |
| C48 | `C48_product` (R), `C48_gradients` (R), `C48_matrices_panic` (0), `C48_inner_dimension_unchecked` (R), `C48_transposed_batches_refuted` (R), `C48_copied_operand_refuted` (R) |
| C49 | `C49_value` (C), `C49_gradient` (C), `C49_first_axis_dropped` (C), `C49_second_axis_dropped_panics` (C), `C49_second_axis_dropped_refuted` (C) |
| C50 | `C50_sigmoid` (C), `C50_sigmoid_shapes_differ` (C), `C50_sigmoid_gradient` (C), `C50_sigmoid_label_gradient_wrong` (C), `C50_softmax` (C), `C50_softmax_gradient_one_row` (C), `C50_softmax_gradient_panics` (C), `C50_softmax_gradient_square` (C), `C50_softmax_gradient_refuted` (C), `C50_softmax_label_gradient_refuted` (C), `C50_sparse` (C), `C50_sparse_bad_label` (C) |
| C51 | `C51_image_gradient` (R), `C51_filter_gradient` (R), `C51_inexact_image_gradient_wrong` (R), `C51_empty_batch_uninitialised` (R), `C51_empty_batch_refuted` (R) |
| C52 | `C52_input_gradient` (R), `C52_filter_gradient` (R), `C52_tall_filter_gradient_fails` (D), `C52_wide_filter_gradient` (R), `C52_wide_filter_gradient_refuted` (R) |
| C53 | `C53_filter_gradient_of_image` (R), `C53_filter_gradient_of_gradient` (R), `C53_with_cols_filter_gradient` (R), `C53_transposed_filter_gradient` (R) |
| C54 | `C54_grad_is_vjp` (C), `C54_grad_with_default_is_vjp` (C), `C54_evaluated_gradient` (C), `C54_values_are_evaluated` (C) |
| C55 | `C55_values` (C), `C55_gradient` (C), `C55_normalized_moments` (C), `C55_mean_of_many_elements_refuted` (R) |
| C56 | `C56_hessian_vector_product` (C), `C56_matmul_refuted` (C), `C56_elu_refuted` (C), `C56_reduce_sum_refuted` (C), `C56_access_elem_panics` (C), `C56_maximum_panics` (C) |
| C57 | `C57_random_array` (D), `C57_train` (R), `C57_test` (R), `C57_test_is_mean_of_train` (R), `C57_gradient` (N), `C57_test_mode_gradient_refuted` (N), `C57_masks_repeat` (N), `C57_mask_gradient_refuted` (N), `C57_glorot_refuted` (C) |
| C58 | `C58_passes_iff_close` (R), `C58_passing_bounds_error` (C), `C58_exact_gradients_pass` (C), `C58_unpaired_variables_unchecked` (R), `C58_nan_gradients_refuted` (R), `C58_layout_refuted` (R), `C58_accepts_grad` (C) |
| C59 | `C59_jacobians` (C), `C59_entries` (C), `C59_evaluated` (C), `C59_empty_objective` (0), `C59_flatten_gradient_refuted` (C) |
| C60 | `C60_traversal_safe` (0), `C60_as_if_copied` (0), `C60_hidden_outputs_dangle_refuted` (0) |
| C61 | `C61_hook_value` (0), `C61_hook_calls` (0), `C61_map_value` (0), `C61_assign` (0), `C61_assign_arrays` (0), `C61_map_debug_panics` (0), `C61_map_left_out` (0), `C61_hook_gradient` (0), `C61_map_gradient_refuted` (0) |
| C62 | `C62_float_shapes_agree` (C), `C62_exact_range` (0), `C62_large_dimensions_refuted` (C) |
| C63 | `C63_total_derivative` (C), `C63_step_uses_gradients` (C), `C63_step_decreases_loss` (C), `C63_step_returns` (C) |
| C64 | `C64_guards_out_of_the_way` (0), `C64_conflict_panics` (0), `C64_own_borrows_never_conflict` (0), `C64_exclusive_views_refuted` (0), `C64_live_updates` (N), `C64_adagrad_accumulator_refuted` (N) |
| C65 | `C65_loss` (C), `C65_gradients` (C), `C65_step_decreases_loss` (C) |
| C66 | `C66_softmax` (C), `C66_softmax_special` (C), `C66_logsumexp` (C), `C66_log_softmax` (C), `C66_sparse_xent` (C), `C66_sigmoid` (C), `C66_sigmoid_xent` (C), `C66_sigmoid_xent_gradient` (C), `C66_sigmoid_xent_gradient_refuted` (C), `C66_softplus` (C), `C66_softplus_refuted` (C), `C66_relu_nan_refuted` (C), `C66_relu` (C), `C66_elu` (C) |
| C67 | `C67_grad_is_vjp` (C), `C67_total_derivative` (C), `C67_evaluated_gradient` (C), `C67_attached_shape_refuted` (C), `C67_step_uses_gradients` (C), `C67_step_decreases_loss` (C), `C67_step_returns` (C) |
| C68 | `C68_step_decreases_loss` (C), `C68_loss` (C), `C68_gradients` (C) |
| C69 | `C69_adagrad_not_nan` (C), `C69_adagrad_frozen` (C), `C69_adam_counter` (C), `C69_adam_not_nan` (C), `C69_adam_frozen` (C), `C69_sgd_absorbed` (C), `C69_sgd_rounded` (C), `C69_adagrad_rounded` (C), `C69_adam_rounded` (C) |
| C70 | `C70_product` (R), `C70_same_as_without` (0), `C70_overlapping_rows_refuted` (R), `C70_batch_product` (R), `C70_batch_copied` (R), `C70_copied_with_transposed_refuted` (R), `C70_batch_mismatch` (0), `C70_batch_vector_panics` (0), `C70_batch_vector_gradient_panics` (0), `C70_unit_axis_refuted` (R), `C70_unit_axis_gradients_refuted` (R), `C70_convolution_calls` (0) |
| C71 | `C71_standard_layout` (0), `C71_transposition_lost` (0), `C71_transposed_refuted` (C), `C71_large_operands_unset` (0) |
| C72 | `C72_alone_is_update` (N), `C72_joint_evaluation` (N), `C72_joint_returns` (N), `C72_needs_a_parameter` (0), `C72_requested_before_sees_old_refuted` (N) |
| C73 | `C73_is_grad_of_reached_variables` (0), `C73_gradients` (C), `C73_gradients_with_lookups` (C), `C73_needs_a_loss` (0) |
| C74 | `C74_grad_returns_iff` (C), `C74_grad_panics_iff` (C), `C74_grad_returns_iff_with_lookups` (C), `C74_grad_helper_returns_iff` (C), `C74_evaluation_returns` (C), `C74_gradients_total` (C), `C74_gradients_total_with_lookups` (C), `C74_gradient_of_floor_panics` (C) |
| C75 | `C75_identifiers` (0), `C75_variable_by_name` (0), `C75_array_by_name` (0), `C75_listing` (0), `C75_same_places` (0), `C75_slot_destinations` (0), `C75_tensors_by_id` (0) |
| C76 | `C76_views_agree` (0), `C76_expand_dims` (0), `C76_access_elem` (0), `C76_access_elem_refuted` (0), `C76_reduce_gradient` (0), `C76_sum_then_transpose_panics` (0), `C76_gather` (0), `C76_gather_refuted` (0), `C76_gather_gradient` (0), `C76_gather_gradient_refuted` (0), `C76_setdiff1d` (0), `C76_argmax` (0), `C76_argmax_refuted` (0), `C76_conv2d_transpose_filter` (0), `C76_conv2d_transpose_filter_refuted` (0) |
| C77 | `C77_evaluation_right` (C), `C77_evaluation_returns` (C), `C77_gradients_total` (C), `C77_gradients_total_with_lookups` (C), `C77_access_of_transposed_refuted` (C) |
| C78 | `C78_value` (C), `C78_usable` (C), `C78_gradient` (C) |
| C79 | `C79_stream` (R), `C79_dropout` (R), `C79_default_generators_repeat` (R), `C79_epochs_repeat` (R) |
| C80 | `C80_accuracy` (N), `C80_flat_labels` (N), `C80_probabilities` (C) |
| C81 | `C81_nth_tensor` (C), `C81_nth_of_leaf` (C), `C81_sparse_cross_entropy` (C), `C81_convolution` (C), `C81_max_pool` (C), `C81_cross_entropy_one_row` (C), `C81_cross_entropy_rows_panic` (C), `C81_errors` (C) |
| C82 | `C82_tensors_added` (C), `C82_gradients_linear` (C), `C82_gradients_linear_with_lookups` (C), `C82_operations_run` (C) |
| C83 | `C83_sparse_label_gradient` (C), `C83_dense_label_gradient` (C), `C83_convolution` (C), `C83_max_pool` (C) |
| C84 | `C84_debug_build` (0), `C84_array_graphs` (C), `C84_pieces_refuted` (C), `C84_alone_panics` (C), `C84_entropy_refuted` (C) |
| C85 | `C85_loss` (C), `C85_gradients` (C), `C85_step_decreases_loss` (C) |
| C86 | `C86_gradients` (C), `C86_tall_batches` (C), `C86_wide_batches_refuted` (C) |
| C87 | `C87_every_order` (C) |
| C88 | `C88_max_pool_third_order_lost` (R) |
| C89 | `C89_lgamma_gradient` (R), `C89_digamma_gradient_lost` (R) |
