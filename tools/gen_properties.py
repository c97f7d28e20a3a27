import json
P=[]
def p(title, statement, quantifier, why, anchors):
    P.append(dict(id="C%02d"%(len(P)+1), title=title, statement=statement, quantifier=quantifier, why_tests_cant=why, anchors=anchors))
S="prima_undine/src/"
N=S+"devices/naive/"
p("Shape normal form and equality",
  "Shape::new(dims,batch) succeeds exactly when dims has at most 8 entries, none of them 0, batch>=1 and (in a build with overflow checks) the product fits u32; the result reports, at every index i, the given extent (1 past the end), a depth that is one past the last extent different from 1, that batch, and a volume equal to the product of all extents. Two shapes compare equal iff their extents agree at every index and their batches agree, so trailing 1s never matter. (In a build without overflow checks Shape::new succeeds whether the product fits or not; the volume is the product modulo 2^32, all the rest and equality are the same.)",
  "all dimension lists, all batches","tests try a handful of dimension lists; normal form must hold for all lists incl. every position of 1s",
  [S+"shape.rs: Shape::new, depth, dims, batch, volume, Index<u32>, PartialEq"])
p("Any history of resizes keeps a shape consistent",
  "In a build with overflow checks, after any sequence of resize_dim/update_dim and resize_batch/update_batch calls that return, the shape is exactly the one Shape::new would build from the updated extents and batch: the extent at the resized index is the new one, every other extent is unchanged, and volume and depth are consistent. (In a build without overflow checks the calls return whenever the arguments are in range; the extents, batch and depth are those of that shape, and the shape is the same when no product on the way overflows; a history through a product of 2^32 or more can leave a wrong volume, and then the shape is not equal to the one with its extents.)",
  "all valid start shapes and all finite sequences of resize operations","an invariant over unbounded histories (depth grows and shrinks, volume is maintained incrementally by divide-then-multiply)",
  [S+"shape.rs: update_dim, resize_dim, update_batch, resize_batch"])
p("lower_volume is the stride",
  "For a consistent shape, lower_volume(d) is the product of the extents below d for every d (also past the depth), it divides volume, and lower_volume(d)*extent(d) = lower_volume(d+1). (In a build without overflow checks, after any history of resizes, lower_volume(d) is the product of the extents below d modulo 2^32.)",
  "all consistent shapes, all d","infinitely many shapes and indices",[S+"shape.rs: lower_volume"])
p("Dimension comparison predicates",
  "has_same_dims holds iff extents agree at every index; has_same_loo_dims(rhs,d) holds iff extents agree at every index other than d; has_compatible_batch iff batches are equal or one is 1; is_scalar/is_column_vector/is_matrix iff all extents at index >= 0/1/2 are 1.",
  "all pairs of consistent shapes, all d","the leave-one-out comparison strips trailing ones in a loop depending on depth and d; only samples are testable",
  [S+"shape.rs: has_same_dims, has_same_loo_dims, has_compatible_batch, is_scalar, is_column_vector, is_matrix"])
p("Shape rules of binary operations",
  "elementwise/scalar_op/matmul/transpose accept exactly the compatible operand shapes, panic on all others, and return the shape with the documented extents and the larger batch. (In a build without overflow checks matmul also accepts operands whose product does not fit u32; the extents and the batch are as documented, the volume is the product modulo 2^32. The others cannot overflow and do the same in both builds.)",
  "all pairs of consistent shapes","accept/reject boundary over all shapes",[S+"shape_ops.rs: elementwise, scalar_op, matmul, transpose"])
p("Shape rules of slicing, picking, broadcasting and concatenation",
  "broadcast/slice/pick/concat/batch_pick/batch_slice/batch_concat accept exactly the in-range arguments, panic on all others, and return a consistent shape with exactly the documented extents. (In a build without overflow checks broadcast, concat and batch_concat accept exactly the arguments that are in range whether the result fits or not, except that extents and batches are added modulo 2^32 and a sum of 0 is refused; the volume is the product modulo 2^32. slice and pick do the same in both builds.)",
  "all consistent shapes (lists of shapes), all dims, bounds and id lists","boundaries of every argument combination",[S+"shape_ops.rs: broadcast, slice, pick, concat, batch_pick, batch_slice, batch_concat"])
p("Shape serialization round trip",
  "Deserializing a serialized shape yields the same shape, for every consistent shape; conversely anything that deserializes is a consistent shape. (In a build without overflow checks what deserializes has the serialized extents and batch and the product modulo 2^32 as volume, and round trips; a shape left with a wrong volume by a history of resizes through 2^32 elements or more does not.)",
  "all consistent shapes, all serialized (dims,batch) pairs","infinite domain",[S+"shape.rs: Serialize, Deserialize, ShapeSerde"])
p("Element counts are exact, or the product modulo 2^32",
  "In a build with overflow checks, whenever a shape is obtained (by Shape::new, deserialisation, resizing or any shape rule) volume() is the product of the extents, and if size() returns it is batch times that product. In a build without overflow checks the same shapes are obtained, but volume() of a new, deserialised or resized shape is the product modulo 2^32 and size() is batch times the product modulo 2^32, so the count is right exactly when the product is below 2^32 (65537 x 65537 elements are counted as 131073).",
  "all dimension lists, both overflow modes","needs extents whose product exceeds 2^32, and the claim is about all of them",[S+"shape.rs: Shape::new, size, update_dim"])
p("Pool size class is the least sufficient power of two",
  "For every requested element count 1..2^31 the buffer handed out by Device::new_handle has a capacity that is a power of two, at least 64, at least the request, and, above 64, less than twice the request; requests of 0 or more than 2^31 elements panic.",
  "all u32 sizes","2^32 sizes through bit tricks",[S+"memory_pool.rs: calculate_shifts, MemoryPool::new_handle"])
p("Recycled buffers are large enough",
  "In every history of allocations and drops, the buffer behind any live handle has at least as many elements as were requested for it, whether fresh or recycled.",
  "all finite histories of new_handle/drop_handle by any number of threads, all interleavings of their critical sections","unbounded histories and schedules",[S+"memory_pool.rs: MemoryPool::new_handle, drop_handle"])
p("A live buffer has one owner",
  "In every history and interleaving, new_handle never returns a handle that is currently owned by another caller or is sitting in the pool, and a handle never sits in the pool twice.",
  "all finite histories, all interleavings at lock granularity","schedules cannot be enumerated by tests",[S+"memory_pool.rs: new_handle, drop_handle (two separate locks)"])
p("Pool conserves buffers and frees each exactly once",
  "At any point where no call is in progress every backend buffer ever created is either owned by a caller or in the pool, never both, never lost; after all owners dropped their handles, dropping the pool releases every backend buffer exactly once.",
  "all finite histories, all interleavings","no-leak/no-double-free over unbounded histories",[S+"memory_pool.rs: Drop for MemoryPool, new_handle, drop_handle; "+S+"devices/naive.rs: Naive::new_handle, drop_handle"])
p("Double drop is detected",
  "drop_handle on a handle that is not currently owned (never issued, or already dropped and not reissued) panics and leaves the pool's free lists unchanged.",
  "all reachable pool states, all handles","state space is infinite",[S+"memory_pool.rs: drop_handle"])
p("Tensor lifecycle returns each buffer exactly once",
  "For any sequence of tensor creation, alloc, move_to_device, refer, replace, copy and drop permitted by ownership in which replace is not given a referring tensor and refer not a tensor without buffer, the buffer of a valid non-referring tensor is never shared with another owning tensor, no drop panics, and when all tensors are gone all buffers are back in the pool. Both exceptions are needed: replacing by a referring tensor ends in a double drop that panics and poisons the pool, and referring to a tensor without buffer leaks a buffer.",
  "all finite sequences of tensor lifecycle operations","unbounded histories",[S+"tensor.rs: alloc, refer, replace, move_to_device, Drop; "+S+"device.rs: new_tensor, copy_tensor"])
p("Tensors do not interfere",
  "Writing elements of one tensor never changes what to_vec returns for another tensor that does not share its buffer through refer. (A write through a referring tensor does change the tensor referred to.)",
  "all reachable device states, all pairs of tensors","aliasing through recycled buffers depends on the history",[S+"tensor.rs; "+S+"memory_pool.rs; "+S+"devices/naive/reset_tensor.rs"])
p("Upload, download, copy and reshape preserve values",
  "new_tensor_by_slice(shape,v).to_vec() == v; new_tensor_by_constant gives the constant everywhere; copy_tensor and reshape/flatten preserve the element sequence; length mismatches panic.",
  "all shapes and value vectors, all previous buffer contents","stale contents of recycled buffers and all sizes",[S+"device.rs: new_tensor_by_slice, new_tensor_by_constant, copy_tensor, reset_tensor*, tensor_to_vector, tensor_to_float; "+N+"reset_tensor.rs; "+N+"tensor_to_vector.rs"])
p("Unary elementwise kernels",
  "neg/abs/sqrt/sin/cos/tan/exp/ln/tanh/sigmoid/softplus, the *_const operations, powi, prelu and elu return a tensor of the same shape whose every element is the function of the corresponding input element; no memory outside the buffers is touched and the result does not depend on previous buffer contents.",
  "all shapes, contents, constants, stale buffers","all sizes",[N+"common.rs: define_naive_fw_x_impl, define_naive_fw_const_impl; "+S+"functions.rs: define_fw_x, define_fw_const; "+N+"powi.rs"])
p("Binary elementwise kernels broadcast the batch",
  "add/sub/mul/div/pow of tensors with equal extents and compatible batches give, at every coordinate and batch b, the function of the two operands at that coordinate (using batch 0 for an operand with batch 1); scalar variants use the scalar of the corresponding batch; operator syntax on tensors picks the scalar variant iff one side is scalar and keeps operand order.",
  "all pairs of shapes, contents, stale buffers","all shape/batch combinations",[N+"common.rs: define_naive_fw_ab_impl, define_naive_fw_scalar_impl; "+S+"functions/arithmetic/tensor.rs: define_ab_op, define_const_op"])
p("Elementwise backward kernels accumulate and reduce over a broadcast batch",
  "Each *_bw of unary, const and binary operations adds to the given gradient exactly the per-element contribution, summed over the batch when the operand was broadcast, and changes nothing else. (powi takes the exponent n - 1 in i32: for n = i32::MIN its gradient panics in a build with overflow checks and uses the exponent 2^31 - 1 in one without.)",
  "all shapes, contents","all shape/batch combinations",[N+"common.rs: define_naive_bw_x_impl, define_naive_bw_const_impl; "+N+"add.rs, sub.rs, mul.rs, div.rs, powf.rs"])
p("Reductions along a dimension",
  "sum/max/min/logsumexp(d) return, at every coordinate c and batch b of a shape whose extent d is 1, the reduction in index order of the input elements obtained by letting coordinate d run over its extent.",
  "all shapes, all d < 8, contents","index arithmetic for every shape and axis",[N+"sum.rs, max.rs, min.rs, logsumexp.rs; "+S+"functions/basic/device.rs: sum_fw, max_fw, min_fw, logsumexp_fw"])
p("argmax and argmin return the first extremal index",
  "argmax(d)/argmin(d) return one index per line along d, in the layout of the reduced tensor; the element at that index is >= (<=) all elements of the line and strictly beats all earlier ones, for totally ordered contents.",
  "all shapes, all d, all contents","all contents with ties at any position",[N+"argmax.rs, argmin.rs; "+S+"functions/basic/device.rs: argmax, argmin"])
p("argsort orders each line",
  "argsort(d) returns flat element indices: within each line along d the returned indices are a permutation of the line's flat indices and the referenced elements are non-decreasing.",
  "all shapes, all d, all contents, any comparison-sort that is correct","all contents",[N+"argsort.rs"])
p("broadcast repeats along a dimension",
  "broadcast(d,n) of a tensor with extent 1 at d gives n copies along d: the element at coordinate c is the input at c with coordinate d set to 0.",
  "all shapes, d, n","all shapes and axes",[N+"broadcast.rs; "+S+"functions/basic/device.rs: broadcast_fw"])
p("slice and its backward",
  "slice(d,lo,hi) returns the elements with coordinate d in [lo,hi) shifted to 0; slice_bw adds the gradient to exactly those positions and leaves all others unchanged.",
  "all shapes, d, bounds","all shapes and bounds",[N+"slice.rs; "+S+"functions/basic/device.rs: slice_fw, slice_bw"])
p("pick and its backward",
  "pick(ids,d) selects, for each batch, index ids[b] (or the single id) along d; pick_bw adds each gradient element to the element it was picked from, accumulating repeats.",
  "all shapes, d, id lists","all shapes and ids",[N+"pick.rs; "+S+"functions/basic/device.rs: pick_fw, pick_bw"])
p("concat, split and their inverses",
  "concat(xs,d) puts the inputs one after another along d, broadcasting inputs of batch 1; concat(split(x,d,n),d) = x, and slicing a concatenation at the input boundaries returns the inputs.",
  "all lists of compatible tensors, all d, all n","lists of any length, any shape",[N+"concat.rs; "+S+"functions/basic/tensor.rs: split, concat"])
p("Matrix multiplication",
  "matmul computes, for each batch, y[i,k] = sum_j a[i,j]*b[j,k] over any commutative ring (the 8x8x8 blocking covers every index exactly once), with batch broadcasting of either side; in floating point the bracketing is by blocks of 8.",
  "all matrix sizes, batches, contents","block boundaries for all sizes",[N+"matmul.rs: MatmulFwImpl, MatmulBwAImpl, MatmulBwBImpl"])
p("transpose and triangular masks",
  "transpose swaps the two coordinates (and is an involution); triangular_l(k)/triangular_u(k) keep exactly the elements with i >= j+k (j >= i+k) and zero the rest. (With unchecked overflow the mask is wrong for huge k.)",
  "all square/any matrices, batches, k","all sizes and k",[N+"transpose.rs, triangular_l.rs, triangular_u.rs"])
p("Batch operations",
  "batch_slice/batch_pick/batch_concat/batch_sum select, gather, append and add up whole batch items: item b of the result is the documented item (sum of items) of the input; the backward kernels of batch_slice and batch_pick, called by name, add every item of the gradient to the item it was taken from, as often as it was taken.",
  "all shapes, bounds, ids, lists","all shapes",[N+"batch_slice.rs, batch_pick.rs, batch_concat.rs, batch_sum.rs; "+S+"functions/basic/tensor.rs: batch_split"])
p("Compound assignment adds in place",
  "y += x and y -= x with equal extents and compatible batches add (subtract) elementwise, repeating x if x has batch 1 and summing over x's batch if y has batch 1; y *= k scales every element.",
  "all compatible shapes and contents","all shape/batch combinations",[N+"add_assign.rs, sub_assign.rs, mul_assign.rs; "+S+"functions/arithmetic/device.rs: add_assign, sub_assign, mul_assign_const"])
p("Which safe calls can access memory out of bounds",
  "In a build with overflow checks no call of a public tensor function, with any argument and after any history of such calls, reads or writes outside the buffers of its operands (it returns or panics), with two exceptions: += and -= on tensors whose shapes do not agree, and the gradient function of batch_pick, which do write out of bounds. In a build without overflow checks every history of calls that runs through with checks behaves the same, but a call that would have panicked on overflow may write out of bounds.",
  "all public tensor operations, all arguments","memory safety for all arguments",[N+"*.rs unsafe blocks; "+S+"functions/arithmetic/device.rs: add_assign, sub_assign"])
p("Tensors of different devices do not mix",
  "Every tensor operation panics if an operand lives on another device (or on the host), before touching any buffer.",
  "all operations, all operand combinations","all operations",[S+"functions.rs; "+S+"functions/basic/device.rs; "+S+"functions/arithmetic/device.rs; "+S+"device.rs: PartialEq"])
p("Graph shape inference agrees with execution",
  "For every graph operator, if node creation succeeds in a build with overflow checks and the arguments meet what creation does not check (reshape to as many elements; triangular on a square matrix with k that does not overflow; fewer than 2^32 ids or parts; for softmax_cross_entropy that the product shape fits), executing the operator yields tensors of exactly the inferred shapes (so storing the result cannot panic), and Node::shape() before forward equals the shape of the computed value and never changes. Without these conditions it fails: a reshape node to another number of elements is always accepted at creation and can never be evaluated.",
  "all operators, all operand shapes","operators x shapes",[S+"operators/*.rs: forward_shape, forward; "+S+"tensor.rs: replace"])
p("Node expressions compute what the tensor expressions compute",
  "For every function available on both nodes and tensors, other than the following, evaluating it on nodes and reading to_vec gives the same elements as evaluating it on tensors, and it is accepted for the same operands. Exceptions: node elu computes prelu, whatever the operand; + - * / (and softmax_cross_entropy) between a scalar node and a non-scalar node are refused although the tensor function accepts them.",
  "all functions, all operands","two parallel implementations over all operands",[S+"functions/basic/node.rs, functions/basic/tensor.rs, functions/arithmetic/node.rs, functions/arithmetic/tensor.rs, operators/common.rs: define_operator_ab, operators/elu.rs"])
p("forward evaluates the expression, in any tie order",
  "For every graph, forward() (to_vec, to_float...) gives each ancestor of the node the value of the expression it denotes, whatever order the priority queue returns nodes of equal depth, and touches no other node.",
  "all DAGs, all roots, all tie-breaking orders, any operators","graphs and schedules",[S+"graph.rs: forward, OperatorInfo::new, OperatorInfoCmp"])
p("Each operator runs forward at most once",
  "In any history of graph construction and forward/backward/to_vec calls, each operator's forward is executed at most once, and never before all its arguments have been computed; values once computed never change.",
  "all histories of node creation and evaluation","unbounded histories",[S+"graph.rs: forward, forwarded flag"])
p("backward accumulates exactly the reverse-mode sums",
  "On a graph not yet differentiated, backward() from a node leaves in each ancestor output the sum, over all consumers among the ancestors (with multiplicity), of the consumer's backward contribution computed from its final output gradients, seeded with 1 at the node; each ancestor's backward runs exactly once, after all of its consumers; non-ancestors are untouched; the order among equal depths does not matter.",
  "all DAGs, all roots, all tie-breaking orders, any operators","graphs and schedules, diamonds and repeated arguments",[S+"graph.rs: backward"])
p("backward computes the gradient",
  "Over the real numbers, after loss.backward() each parameter's gradient is its previous value plus the derivative of the sum of the loss elements with respect to that parameter, for graphs built from the differentiable operators at points of differentiability.",
  "all graphs over the operator catalogue, all parameter values and directions","numerical gradient checks sample points; this is the chain rule over all graphs",[S+"graph.rs: backward; "+S+"operators/*.rs: backward; "+S+"operators/parameter.rs"])
p("Elementwise derivative kernels are derivatives",
  "For each differentiable unary/const kernel the backward kernel multiplies the output gradient by the derivative of the forward kernel (over the reals, on the domain of differentiability).",
  "all real inputs and constants","continuum of inputs",[N+"abs.rs, cos.rs, exp.rs, ln.rs, sigmoid.rs, sin.rs, sqrt.rs, tan.rs, tanh.rs, prelu.rs, elu.rs, powf.rs, powi.rs, div.rs"])
p("What several backward passes over one graph accumulate",
  "Calling backward() on several roots of one graph in turn does not leave in each parameter the sum of the gradients. Over the reals, a pass adds to each parameter the derivative of the sum of its root plus all outputs the root uses weighted with the gradients that earlier passes left on them; so two losses that share only parameters leave 2 dL1 + dL2 in the shared ones and dL1 + dL2 in the others; a pass from a root that already has a gradient never succeeds. For any numeric type, operators the root does not use keep their gradients.",
  "all graphs and pairs of roots","graph topologies",[S+"graph.rs: backward (gradients of intermediate nodes are not reset)"])
p("What backward on an output of a multi-output operator differentiates",
  "backward() on one output of an operator with several outputs adds the derivative of the sum of the elements of ALL its outputs, whichever output was chosen; and if below the root there is a split one of whose outputs is neither used nor touched, backward() never succeeds, for every numeric type, heap order and history.",
  "all multi-output graphs","which outputs are used",[S+"graph.rs: backward; "+S+"operators/split.rs, batch_split.rs"])
p("Which graph operators have a working backward",
  "For every operator that can be created except the following, backward returns without panicking once forward has run (products of matmul and sparse cross-entropy within the 2^31 elements of the pool, powi with an exponent other than i32::MIN), and adds the adjoint of the forward map given by its rule. The exceptions: Neg, BatchSlice, BatchSplit, BatchPick of any number of ids other than two, and Sum/Logsumexp along a dimension at or past the depth never succeed, whatever the operands (and no node that depends on one of the first four can be differentiated); BatchPick with two ids can add to wrong elements.",
  "all operators, all operand shapes","operators x shapes",[S+"devices/naive.rs: registrations; "+S+"functions/basic/device.rs: batch_slice_bw, batch_pick_bw; "+S+"operators/batch_split.rs, sum.rs, logsumexp.rs"])
p("SGD update rule",
  "SGD's update replaces each parameter element v by v - (scale*eta)*g using the gradient at the time of the call, and zeroes the gradient.",
  "all parameters, gradients, settings","all contents",[S+"optimizers/sgd.rs; "+S+"optimizer.rs: update_parameters"])
p("Momentum SGD update rule",
  "After any number of updates the velocity is the momentum-weighted sum of past scaled gradients and the value is the initial value plus the sum of all velocities (over a commutative ring).",
  "all step counts, gradient histories","unbounded histories",[S+"optimizers/momentum_sgd.rs"])
p("Adam update rule",
  "After any number of updates the moments are the exponentially weighted sums of past gradients and squared gradients, and each step uses bias correction with the step number (epoch+1).",
  "all step counts, gradient histories","unbounded histories",[S+"optimizers/adam.rs"])
p("Weight decay and clipping are applied before the update, in that order",
  "update_parameters first adds strength*value to every gradient if strength>0, then, if the threshold is positive and the global norm over all parameters exceeds it, scales all gradients by threshold/norm so that the global norm becomes exactly the threshold (over the reals), then updates every parameter once, zeroes every gradient and increments epoch by one.",
  "all parameter lists, values, gradients, settings","all contents and list lengths",[S+"optimizer.rs: update_parameters"])
p("Optimizer settings and configuration",
  "Setters reject negative values (and NaN); configuring a parameter twice keeps the accumulated statistics; updating with Adam/MomentumSGD an unconfigured parameter panics.",
  "all settings, all histories of configure/update","histories",[S+"optimizers.rs: define_optimizer_struct; "+S+"optimizers/adam.rs, momentum_sgd.rs: configure_parameter; "+S+"parameter.rs: add_stat, has_stat"])
p("A model enumerates each parameter exactly once",
  "For a struct deriving Model (nested structs, vectors of models or parameters, skipped fields) parameters() and parameters_mut() return every non-skipped parameter exactly once in declaration order, so configure/update/move_to_device act on each exactly once.",
  "all nestings of models","unbounded nesting",[S+"model.rs; prima_undine_derive/src/lib.rs: derive_model"])
p("Saving and loading a model preserves it",
  "Serializing a parameter (value, gradient, optimizer statistics), deserializing and moving to a device gives a parameter with the same shape and element values everywhere; serialized tensors with the wrong number of values are rejected when moved. A parameter in a field with #[parameter(skip)] is left exactly as it is by move_to_device, configure and update on the model, so after loading it stays unusable (saving or reading it panics) until it is moved by hand.",
  "all parameters and statistics","all contents",[S+"tensor.rs: Serialize, Deserialize, move_to_device; "+S+"parameter.rs"])
p("Softmax and cross entropy",
  "Over the reals softmax(d) is positive and sums to 1 along d, ln_softmax is its logarithm, logsumexp is ln of the sum of exponentials, softmax_cross_entropy is -sum t*ln_softmax and sparse_softmax_cross_entropy(ids) picks -ln_softmax at ids.",
  "all shapes and real contents","continuum",[N+"logsumexp.rs; "+S+"functions/basic/tensor.rs: ln_softmax, softmax, softmax_cross_entropy, sparse_softmax_cross_entropy"])
p("Cross-entropy gradient",
  "The gradient of the logits added by softmax_cross_entropy's backward is the derivative of the loss exactly when the targets sum to one along the dimension (e.g. one-hot); the gradient of the targets, and the gradient of the sparse variant, are always the derivatives.",
  "all logits and targets","continuum",[S+"operators/softmax_cross_entropy.rs"])
p("Contrib statistics",
  "mean and batch_mean are the arithmetic means; slice_sum is the sum of its inputs (an empty list is refused); batch_normalization gives each coordinate g*(x-mean)/sqrt(var+eps)+b over the batch; layer_normalization of tensors the same over the elements of each batch item, while for nodes it is refused for every operand with more than one element per item; with enabled=false batch_normalization returns the input.",
  "all shapes and contents","all shapes",["prima_undine_contrib/src/functions/contrib/tensor.rs, node.rs"])
p("Dropout",
  "With rate in [0,1) each element is either 0 or x/(1-rate) according to the mask, with the mask shared along the dimension for dropout_dim; rate>=1 gives 0*x; disabled gives 1*x.",
  "all shapes, contents, rates, random masks","all random outcomes",["prima_undine_contrib/src/functions/contrib/tensor.rs: dropout, dropout_dim"])
p("Initializers allocate and fill",
  "new_parameter with any provided initializer yields a parameter whose value is fully initialised with the sampled/constant values, whose gradient is all zero, with batch 1 (a batched shape panics); XavierUniform requires a matrix and uses bound scale*sqrt(6/(n+m)).",
  "all shapes, all random outcomes, all stale buffers","all random outcomes",[S+"initializers/*.rs; "+S+"device.rs: new_parameter; "+S+"parameter.rs: Parameter::new"])
p("permute_dims, flip and identity kernels",
  "The registered permute_dims kernel moves the element at coordinate c to the coordinate with perm applied, for every permutation; flip reverses one coordinate; their backward kernels are the adjoints (scatter by the inverse map); the registered identity kernel turns a square matrix into the identity matrix, whatever it contained.",
  "all shapes, permutations, axes","all permutations of up to 8 axes and all shapes",[N+"permute_dims.rs, flip.rs, identity.rs"])
p("Function registry",
  "call_*_impl runs the implementation most recently registered under that name in that table and panics for a name that was never registered there; registering one name never affects another.",
  "all registration histories and names","histories",[S+"device.rs: register_*_impl, call_*_impl"])
p("A failed forward pass is treated as done",
  "If a forward pass does not return normally (an operator panics) and the panic is caught, the operator it stopped at counts as evaluated in every later history: it is never run again, it holds no value, and forward on it succeeds at once. If every pass returned normally, every operator that counts as evaluated holds the right values.",
  "all graphs, all crash points","crash points",[S+"graph.rs: forward"])
p("Memory safety of graph programs",
  "In a build with overflow checks no sequence of node creations through the node functions, evaluations (also ones that panicked and were caught) and backward passes from nodes that use no batch_pick reads or writes outside a tensor's buffer, whatever the buffers contained, for every operator and heap order, provided each Parameter's value and gradient have the same shape. Both conditions are needed: differentiating a batch_pick node, and a Parameter made of a value and a gradient of different shapes (which Parameter::new accepts), write out of bounds.",
  "all graphs, all operators, all shapes and contents, all histories including caught panics, all tie orders","histories and all shapes",[S+"graph.rs: add_operator, forward, backward; "+S+"operators/*.rs; "+S+"parameter.rs: Parameter::new"])
p("Training follows the gradient of the loss",
  "A training step - build a graph from the parameters, call backward on the loss, call update_parameters, with zero gradients before - gives the optimizer exactly the partial derivatives of the loss by every element of every parameter (zero for parameters the loss does not use), and leaves the gradients zero again; so after N steps SGD has subtracted learning rate times derivative in each step, and Momentum and Adam follow their formulas with the derivatives as gradients, whatever programs the steps use.",
  "all programs of node functions with a differentiable loss, all parameters and contents, all numbers of steps, optimizers and settings, all tie orders","all programs, all histories of steps",[S+"graph.rs: backward, From<&mut Parameter> for Node; "+S+"optimizer.rs: update_parameters; "+S+"optimizers/*.rs"])
p("References into the graph",
  "A forward or backward pass never meets a RefCell conflict of its own, whatever the graph (the same node as several operands, several outputs). With references from inner_value() or inner_gradient() still alive: forward panics exactly when one of them reads a value it has to compute, backward exactly when one reads the gradient of the root or of an argument of an operator the root uses; otherwise the references do not change what is computed. Reading and building nodes never panics because of them. A refused forward leaves the node it could not write marked as computed: dropping the reference and trying again does not compute it.",
  "all graphs, operators, sets of live references, histories, tie orders","histories and sets of live references",[S+"graph.rs: NodeData, forward, backward, Node::inner_value, Node::inner_gradient, Node::create; "+S+"operators/*.rs: backward"])
p("Maximum, minimum and sorting of f32 with NaN",
  "On IEEE single precision numbers: argmax/max give the first of the greatest numbers of each line (argmin/min the first of the least), ignoring NaNs, except that a line that starts with a NaN gives position 0 and NaN; a line whose extremum is NaN receives no gradient; argsort of a tensor without NaN lists the positions of each line in ascending order of the numbers, and panics if a line of two or more elements contains a NaN.",
  "all shapes, dimensions and contents (NaN, infinities, signed zeros, subnormals included), both build modes","all contents",[N+"argmax.rs, argmin.rs, max.rs, min.rs, argsort.rs"])
p("Rounding of tensor arithmetic",
  "On IEEE single precision numbers: every element of a+b, a-b, a*b, a/b and sqrt is the correctly rounded exact result and overflows only when that has magnitude 2^128 or more; negation and absolute value are exact. If an element of sum/batch_sum over n elements is finite, all of these are finite and it differs from the exact sum by at most ((1+2^-24)^(n-1)-1) times the sum of magnitudes; an element of matmul with inner extent n by at most ((1+2^-24)^(ceil(n/8)+7)-1) times the sum of magnitudes of the products, plus underflow. Sums and matrix products of integers are exact as long as the magnitudes add up to at most 2^24.",
  "all shapes and contents (NaN, infinities, subnormals included), both build modes","all contents and all lengths",[N+"sum.rs, batch_sum.rs, matmul.rs, add.rs, sub.rs, mul.rs, div.rs, sqrt.rs, neg.rs, abs.rs"])
p("Activation functions on f32",
  "On IEEE single precision numbers: relu, lrelu, prelu (finite slope) and elu return every positive element unchanged, infinity included; for the other finite elements relu returns a zero and lrelu/prelu the correctly rounded product with the slope; NaN stays NaN. relu and softplus of minus infinity are NaN. sigmoid of a number lies in [0, 1] provided tanh lies in [-1, 1].",
  "all shapes and contents, both build modes, all implementations of exp, ln and tanh","all contents",[N+"prelu.rs, elu.rs, softplus.rs, sigmoid.rs; "+S+"functions/tensor.rs: relu, lrelu"])
p("logsumexp and log softmax on f32",
  "On IEEE single precision numbers, logsumexp folds each line from left to right in double precision. For finite lines of n numbers up to A in magnitude the result differs from ln(sum of exp) by at most 2^-24*(A+n) plus n*(2*eps+3*2^-53*(A+n+1)) (eps: error of the library's exp and ln), ln_softmax correspondingly, nothing overflows on the way, and the result is never below an element of the line. Elements minus infinity (masked) do not count unless the line starts with two of them; a line that starts with two minus infinities, contains plus infinity twice or a NaN gives NaN, for logsumexp and for all of ln_softmax's line.",
  "all shapes, dimensions and contents (NaN and infinities included), both build modes, all implementations of exp and ln within the stated contract","all contents and all lengths",[N+"logsumexp.rs; "+S+"functions/tensor.rs: ln_softmax"])
p("Release builds compute what debug builds compute",
  "A program (which may choose its next call by everything it has seen) made of tensor functions, node creations, evaluations, backward passes, parameters, initializers, optimizers, models and contrib functions, whose calls do not panic in a build with overflow checks, gets the same replies and leaves the same graph in a build without them; the first call with a different outcome is one that panics with the checks. So the gradients and training steps of release builds are those of debug builds. (Not conversely: without the checks, calls with sizes over 2^32 succeed.)",
  "all programs and numbers of calls, all replies, all starting graphs, all contents, tie orders and random outcomes","all programs and histories",[S+"shape.rs, shape_ops.rs, graph.rs, tensor.rs, device.rs, optimizer.rs, model.rs; "+S+"operators/*.rs; "+N+"*.rs: all u32 arithmetic (overflow-checks of the build profile)"])
p("What recycled memory contained never shows",
  "The memory pool hands out blocks without clearing them. Two runs of the same program - which may choose its next call by everything it has seen, and is made of tensor functions, random tensors, node creations, evaluations, backward passes, parameters, initializers, optimizers, models and contrib functions - that differ only in what those blocks contained have the same outcome: the same replies (tensors, numbers, nodes, gradients, parameters), or a panic at the same call. Every function writes every element of a buffer it was given before reading it. The exception is Tensor::alloc, whose purpose is to give the memory as it is.",
  "all programs and numbers of calls, all contents of all blocks handed out, all shapes, contents, tie orders and random outcomes","all contents of the memory, all programs and histories",[S+"memory_pool.rs; "+S+"tensor.rs: alloc; "+S+"device.rs: new_tensor_by_*; "+N+"*.rs; "+S+"graph.rs: forward, backward; "+S+"operators/*.rs; "+S+"optimizer.rs, model.rs, parameter.rs; prima_undine_contrib/src/functions"])
p("The pool takes no more memory than the peak demand",
  "Requests of up to 2^31 elements are served in size classes of 64, 128, ..., 2^31 elements. In every history and interleaving of new_handle and drop (without a panic inside the pool) the number of blocks of a class ever requested from the backend equals the greatest number that was in use at one moment, counting handles held and calls in progress; so a phase of a program that never uses more blocks of a class than the pool already has requests none, and the memory held does not grow with the length of the program. The block of a handle just dropped is what the next request of the same class gets.",
  "all histories of handle creations and drops, all sizes, all interleavings of concurrent calls","all histories and interleavings",[S+"memory_pool.rs: new_handle, drop_handle"])
p("Different ways to compute the same tensor agree",
  "Element for element and for every arithmetic (so bit for bit on f32): (ab)^T = b^T a^T (commutative multiplication, as on f32); rows and columns of a product are products of the rows and columns; a slice of a slice is a slice; concat of concats is one concat; the sum over rows of the transpose is the transpose of the sum over columns; elementwise functions commute with transpose, slice, broadcast and batch_slice; pick at argmax/argmin is max/min; max(x) = -min(-x) (also with NaN). With the laws of a ring: matmul is associative and distributes over +, sums over two dimensions commute, triangular_l(0) + triangular_u(1) is the matrix (on f32 except that -0 becomes 0). Over the reals softmax and ln_softmax ignore a constant added to all logits, logsumexp adds it, and the sum of n broadcast copies is n times the tensor.",
  "all shapes (minibatches included), contents and dimensions, both build modes, all arithmetics with the stated laws","all shapes and contents",[N+"matmul.rs, transpose.rs, slice.rs, concat.rs, sum.rs, max.rs, min.rs, argmax.rs, pick.rs, triangular_l.rs, triangular_u.rs, broadcast.rs, logsumexp.rs; "+S+"functions/tensor.rs"])
p("Clipping and updates on f32",
  "On IEEE single precision numbers update_parameters is one step of the bare update rule (SGD, momentum or Adam) with some gradients G in place of the gradients after weight decay: if all of these are finite, no element of G has a larger magnitude or the opposite sign, and for a threshold t whose square is finite the sum of the squares of G is at most 17/16/(1 - D/2^24) * (t^2 + count/2^140), D bounding the additions per element. If one of them is NaN, nothing is clipped. If none is NaN but one is infinite or at least 2^64, G is zero where they are finite (so SGD leaves finite parameters unchanged) and NaN where they are infinite. With 2^24 or more gradients of 1 and a threshold of 4096 nothing is clipped, however many there are.",
  "all optimizers and their settings, all lists of parameters, shapes and contents, both build modes","all contents (NaN, infinities, overflow, rounding) and all sizes",[S+"optimizer.rs: update_parameters; "+S+"optimizers.rs: update_parameter"])
p("Training runs keep NaN and leave alone what has no gradient",
  "On IEEE single precision numbers, over every run of update_parameters calls with any optimizers, settings and gradients: an element of a parameter that is NaN stays NaN; an element whose momentum or Adam statistic is NaN becomes NaN with the next step of that optimizer and the statistic stays NaN; an element whose gradient is zero in every step and whose statistics are zero at the beginning keeps its number (no weight decay, finite settings, for Adam a positive eps and 1 - beta^t other than zero), whatever the gradients of the other elements. Adam with eps = 0 turns such an element into NaN.",
  "all numbers of steps, all sequences of gradients, optimizers and settings, all lists of parameters, both build modes","all histories and contents",[S+"optimizer.rs: update_parameters; "+S+"optimizers.rs: update_parameter"])
p("A minibatch is its examples one by one",
  "For a network made of any functions on nodes other than the batch_* ones (and without a reshape that changes the minibatch size), evaluated on a minibatch of B examples, to_vec of a node is the concatenation, for b = 0 ... B-1, of to_vec of the same node of the network run on example b alone: inputs with a minibatch are replaced by their b-th element, the id lists of pick and sparse_softmax_cross_entropy by the b-th id, everything without a minibatch is used for every example. This holds for every arithmetic, so bit for bit on f32. Over the reals, the gradients backward() adds to the parameters for the minibatch are the sums of the gradients it adds for the examples, and their means if it is called on batch_mean() of the loss.",
  "all networks (graphs of any size), minibatch sizes, contents, examples, tie orders and allocator contents","all programs and contents",[S+"functions/basic/node.rs; "+S+"graph.rs: forward, backward; "+S+"operators/*.rs; "+N+"*.rs; "+S+"shape_ops.rs"])
p("How far the optimizers move a parameter",
  "A program that makes a new optimizer, configures its parameters and then alternates gradients and update_parameters (no weight decay, no clipping) numbers its steps from 1 and starts from zero statistics; another step is always possible until 2^32 - 1 steps. Over the reals, whatever the gradients: the first step of Adam moves an element by exactly alpha*g/(|g|+eps), as does every step while the gradient of the element has never changed; step n of Adam (0 < beta1, beta2 < 1, beta1^2 < beta2, eps > 0) is at most alpha * (1-beta1)/(1-beta1^n) * sqrt((1-beta2^n)/((1-beta2)(1-beta1^2/beta2))), so never more than alpha/sqrt((1-beta2)(1-beta1^2/beta2)); with eps = 0 multiplying all gradients of an element by k > 0 changes nothing. Momentum SGD with 0 <= mu < 1 and gradients of at most G never moves an element by more than eta*G/(1-mu) in a step, moves it by eta*g*(1-mu^n)/(1-mu) in step n of a constant gradient, and is SGD if mu = 0.",
  "all histories of gradients, parameters, numbers of steps, settings","arbitrarily long histories of real gradients",[S+"optimizers/adam.rs; "+S+"optimizers/momentum_sgd.rs; "+S+"optimizer.rs: update_parameters, configure_parameter; "+S+"optimizers.rs: new; "+S+"parameter.rs: add_stat"])
p("Training can be interrupted",
  "update_parameters sees only shapes and elements: on two sets of parameters with the same shapes, elements and statistics (on any devices, with any buffers, in either build) it succeeds on both or on neither and leaves the same elements, gradients and statistics. So when a training is interrupted after any number of updates, its parameters are saved, loaded (by the same or another program, the statistics in any order) and moved to any device, then the training that goes on from there, with the same settings and with gradients that are the same as long as the parameters are, has the same parameters as the uninterrupted one after every further update. For SGD and MomentumSGD a new optimizer with the same constants will do; for Adam the epoch, which is not among the saved data, has to be restored through epoch(): with a new optimizer the values differ.",
  "all trainings, points of interruption, devices, allocations, settings, orders of statistics","all histories cut at all points",[S+"optimizer.rs: update_parameters; "+S+"optimizers.rs: epoch, new; "+S+"optimizers/*.rs; "+S+"parameter.rs: Serialize, Deserialize, move_to_device; "+S+"tensor.rs: Serialize, Deserialize, move_to_device"])
p("Networks that compute the same function train in the same way",
  "Over the reals the gradients depend on the function a network computes and not on how it computes it: if two losses, built of different operators, on different devices, from graphs with any unused nodes and evaluated in any order, agree as functions of an element of a parameter near its value, then backward() on either adds the same number to the gradient of that element, whatever gradients were there before. So two trainings with the same optimizer constants whose losses agree in this way in every step (as long as the parameters are the same) have the same parameters, gradients and statistics after every step.",
  "all programs, losses, orders of evaluation, devices, optimizers, numbers of steps","arbitrary networks and arbitrarily long trainings over the reals",[S+"graph.rs: backward; "+S+"operators/*.rs; "+S+"optimizer.rs: update_parameters; "+S+"optimizers/*.rs"])
p("Weight decay is the L2 penalty",
  "Over the reals, training with set_weight_decay(l) and training without weight decay a network whose loss is, in every step, the first loss plus l/2 times the sum of the squares of the elements of the parameters (however that network is built, on whatever device) are the same training: with the same optimizer constants, learning rate scalings and gradient clipping (clipping sees the decayed gradients) the values, gradients and statistics of all parameters are the same after every step, with SGD, MomentumSGD and Adam. One update goes through with decay if and only if it goes through on the penalized gradients.",
  "all programs, losses, optimizers, settings that may change from step to step, numbers of steps, devices","arbitrary networks and arbitrarily long trainings over the reals",[S+"optimizer.rs: update_parameters; "+S+"optimizers.rs: set_weight_decay; "+S+"optimizers/*.rs; "+S+"graph.rs: backward"])
p("Gradients accumulate over several graphs",
  "Over the reals, when backward is called on the losses of any number of graphs, one after the other and without an update or reset in between, each graph having made nodes of the same parameters, then values and statistics of the parameters stay, and the gradient of each parameter grows by the partial derivatives of the sum of all those losses. In particular, calling backward on a graph per example leaves the parameters as one backward on the graph of the whole minibatch does (for programs whose minibatch loss is the sum over its elements), and the next Optimizer::update_parameters does the same in both cases, whatever the optimizer and its settings.",
  "all sequences of programs and losses, numbers of passes, parameters, minibatch sizes, heap orders, optimizers and settings","arbitrarily many graphs of arbitrary programs over the reals",[S+"graph.rs: backward, forward; "+S+"operators/parameter.rs; "+S+"optimizer.rs: update_parameters"])
p("For which types Model can be derived",
  "#[derive(Model)] succeeds exactly on structs with named fields that have a lifetime parameter (it panics, a compile error, on all others, also on a struct without lifetime). What it writes is an implementation for that struct, with the struct's where clause, of Model for the struct's first lifetime, which visits the fields that are not marked skip, in order. The generic arguments it gives to the struct are the struct's own parameters exactly when no type parameter is declared after a const one, and the header is one that the compiler takes exactly when moreover no generic parameter has a default; otherwise (Rust accepts such structs) the generated code does not compile.",
  "all declarations: every list of generic parameters, bounds, defaults, where clauses, fields and attributes","all declarations in any order of parameters; a test of a macro compiles a few structs, and one whose derive must fail cannot be in a test at all",["prima_undine_derive/src/lib.rs: derive_model"])
p("Printed shapes",
  "A consistent shape prints (with {:?}) as Shape { [extents], batch }, with the extents up to the last one that is not 1, and two consistent shapes print the same exactly when they are equal. This also holds for what Shape::new returns in a build without overflow checks; but there a shape left with a wrong volume by a history of resizes prints like one it is not equal to.",
  "all pairs of consistent shapes","infinitely many pairs of shapes",[S+"shape.rs: impl Debug for Shape, dims, batch"])
with open("/verif/properties.jsonl","w") as f:
    for x in P: f.write(json.dumps(x)+"\n")
print(len(P)); [print(x["id"],x["title"]) for x in P]
