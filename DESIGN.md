# Formal model of vbkaisetsu/prima-undine in Rocq (Coq 8.16.1)

## 1. Layers and files (rocq/theories)

| file | models | used for |
|---|---|---|
| `Base.v` | outcome monad `res` (`Ok`, `Panic`, `UB`), counted loops, raw pointer reads/writes on buffers (out of bounds = `UB`) | everything |
| `Num.v` | the numeric interface the kernels use (f32 operations as fields of a record `num`); instances: `Znum` (integers, for executable examples), `Rnum` (Coq reals, in `Rnum.v`) | everything |
| `Shape.v`, `ShapeOps.v` | `shape.rs`, `shape_ops.rs` with u32 arithmetic, debug (overflow panics) and release (overflow wraps) builds; facts in `ShapeFacts.v` | C01-C08 |
| `MemPool.v` | `memory_pool.rs` sequentially and at lock granularity | C09-C13 |
| `Spec.v` | the small independent specification: coordinates, column-major position, element of a tensor | C16-C30, C55 |
| `Kernels.v` | one definition per kernel in `devices/naive/*.rs`; facts in `KLib`, `KElem`, `KLib2`, `KRed`, `KSort`, `KMove`, `KMove2`, `KMat`, `KConcat`, `KPerm` | C16-C31, C55 |
| `Elem.v`, `Api.v` | the scalar formulas of the elementwise kernels, the registration of kernels, `functions.rs` macros, `functions/{basic,arithmetic}` for devices and tensors; facts in `Api*.v`, `Mode.v` (debug and release agree on successes) | C16-C34, C50 |
| `Graph.v`, `Ops.v` | `graph.rs` (an engine for arbitrary operators), `operators/*.rs`, node functions; facts in `Graph*.v`, `OpsFacts`, `Typed`, `Create`, `BwSem`, `Agree`, `NodeFacts` | C33-C42, C57 |
| `AutoDiff.v`, `LocalDiff.v`, `GraphDiff.v`, `GraphGrad*.v`, `RSum.v` | no code: derivatives of every operator over R, and the chain rule along a graph | C38, C39, C51 |
| `Optim.v` | `optimizer.rs`, `optimizers.rs`, `optimizers/*.rs`, statistics of `parameter.rs` | C43-C47 |
| `Lifecycle.v` | `tensor.rs` handles, references, drop, on top of the pool; facts in `LifeFacts.v` | C14, C15 |
| `Calls.v` | every function of the tensor API as one type of calls, for statements about all of them; facts in `Safe*`, `Release`, `CallFacts`, `CallRel`, `CallDev` | C31, C32 |
| `SafeGraph*.v` | no code: every operator and the graph engine only make calls that stay in bounds | C58 |
| `Program.v` | no code: the graphs programs can build with the node functions, for statements about all programs | C38, C59 |
| `Borrow.v` | graph.rs L10-13, L91-222 again, with the guards (`Ref`, `RefMut`) of every RefCell that are alive; facts relating it to `Graph.v` | C60 |
| `Float32.v`, `KNan.v`, `Rounding.v`, `LseAcc.v` | f32 as Flocq's IEEE binary32 (an instance of `num`), its order; scans and argsort with incomparable elements; error bounds; the double precision loop of logsumexp | C61-C64 |
| `RelGraph.v`, `RelMore.v` | no code: debug results are release results, for everything above tensors | C65 |
| `PropsCount.v` | no code: what shape.rs counts in a build without overflow checks (C08) |
| `PropsPeak.v` | no code: peak demand and reuse of blocks in the model of memory_pool.rs | C67 |
| `PropsIdent.v`, `PropsIdent2.v` | no code: identities between tensor functions | C68 |
| `PropsOptimF32.v`, `PropsClip.v` | no code: weight decay, clipping and updates on f32 | C69 |
| `PropsFixed.v` | no code: training runs on f32 | C70 |
| `Minibatch.v`, `PropsMinibatch.v`, `PropsMinibatchGrad.v` | no code: one element of a minibatch at a time | C71 |
| `PropsSteps.v` | no further code: runs of a new optimizer | C72 |
| `PropsResume.v` | `set_epoch`: writing through `epoch()`, optimizers.rs L24-26 | C73 |
| `PropsEqual.v` | no further code | C74 |
| `PropsDecay.v` | no further code | C75 |
| `PropsShapeRelease.v` | no further code (shape_ops.rs without overflow checks) | C05, C06 |
| `PropsShapeHistory.v` | no further code (shape.rs without overflow checks) | C01, C02, C03, C07 |
| `PropsSkipped.v` | no further code (the parameters in skipped fields) | C49 |
| `PropsAccum.v` | no further code | C76 |
| `Derive.v`, `PropsDerive.v` | `prima_undine_derive/src/lib.rs`: the header of the generated implementation (its fields: Model.v) | C77 |
| `Text.v`, `PropsText.v` | `Debug` of `Shape` | C78 |
| `PropsByName.v` | no further code (the kernels registered as batch_pick_bw_impl, batch_slice_bw_impl and identity_impl, which no function of the library calls) | C29, C55 |
| `PropsPowi.v` | no code: the gradient of powi with the exponent i32::MIN | C19 |
| `Fresh.v` … `Fresh7.v` | no code: results do not depend on the contents of new buffers (kernels, tensor functions, operators, graph engine, optimizers, models, contrib) | C66 |
| `Registry.v` | the function tables of `device.rs` | C56 |
| `Init.v` | `random.rs`, random kernels, `initializers/*.rs`, `Device::new_parameter` | C54 |
| `Model.v` | `model.rs`, the derive macro, serialization of tensors and parameters | C48, C49 |
| `Contrib.v`, `NodeContrib.v` | `prima_undine_contrib` on tensors and on nodes | C52, C53 |
| `PVocab.v` | vocabulary of the statements (what "maps", "accumulates", ... mean) and concrete tensors for the examples | |
| `Props*.v` | the property theorems, and `Example`s showing that their hypotheses are met | |

Names: `Cnn_...` is a theorem of property Cnn; `_refuted`: the property, or a clause of it, fails, with a concrete program; `_partial` (none at present): part of the property;
`_applies`, `_example`: a concrete case meeting the hypotheses.

## 2. Modelling decisions

* **Outcomes.** Every function returns `res A`: `Ok a`, `Panic` (a Rust panic: assert, unwrap, index, overflow in a debug build) or `UB`
  (a raw pointer access outside of the allocation behind it). Proving `= Ok _` therefore includes memory safety and absence of panics.
* **u32.** Shapes use `N` with an explicit build mode: `Debug` panics on overflow, `Release` wraps modulo 2^32. Kernels index with `usize`;
  these products are bounded by the product of two u32 and cannot wrap on a 64 bit target, so they are `nat`.
* **Buffers** are lists whose length is the pool's size class (a power of two >= 64), *not* the tensor's size, and whose contents at allocation are
  arbitrary ("stale"): theorems show that results do not depend on them.
* **Numbers.** Kernels are parametric in a record of operations; theorems about kernels hold for every such record, in particular for IEEE f32 with
  the exact order of operations of the code. Laws of a commutative ring or of R are assumed only where the property speaks about sums or derivatives.
* **Priority queue order.** `BinaryHeap` is modelled as any queue that returns an element of minimal (maximal) depth: theorems quantify over all tie orders.
* **HashMap/registry.** association by name.
* **Threads.** Pool operations are split at the points where the code takes/releases a lock; an execution is any interleaving.

## 3. Properties: what is modelled and how it is proved

| id | model and method |
|---|---|
| C01-C04 | `Shape.v`; normal form lemma, induction over the dims list; statements over `extent s i` for all i |
| C05, C06 | `ShapeOps.v`; iff characterisation of acceptance and of the result extents |
| C07 | `Serde` of shapes as (dims, batch) data; round trip both ways |
| C08 | invariant over all shape producing operations in `Debug`; in `Release` the exact count modulo 2^32 (PropsCount.v) and `_refuted` witnesses |
| C09 | bit smear lemma (finite argument on 32 bit numbers through `N.log2`), popcount |
| C10-C13 | invariant over operation histories; interleaving semantics for C11, C12 |
| C14, C15 | heap model with owners and borrowers; invariant over histories; `_refuted` witness for `replace` of a reference |
| C16 | kernel loops against list identity |
| C17-C19 | loop characterisation ("scatter" lemma), then elementwise specification through coordinates |
| C20-C26, C28-C30, C55 | index arithmetic lemma splitting a position in (upper, k, lower), then coordinates |
| C27 | blocked loops over a commutative ring against the textbook sum; block order for the floating point statement |
| C31, C32 | corollaries over the whole API: result is never `UB`; different devices give `Panic`; `_refuted` for `+=` |
| C33, C34 | per operator: `forward_shape` against the shape of the computed result; node function against tensor function; `_refuted` for the deviations |
| C35-C37, C57 | graph model parametric in operators, worklist invariant for every tie order; PropsFailed.v: the state left behind by a pass that panicked, for every later history |
| C38, C39, C51 | derivative of every operator over R (Coq reals), chain rule by induction along the topological order |
| C40-C42 | `_refuted` witnesses computed in the model, and the positive part as theorems; C40: the chain rule of C38 generalised to a graph whose gradients hold anything, so that what repeated passes compute is known exactly. C41: `PropsOutputs` proves what backward on one output of a multi-output operator does compute (the derivative of the sum of ALL its outputs), `PropsBlocked` that a split with an unused, untouched output below the root can never be differentiated. C42: `PropsBlocked` lifts the four broken rules to graphs: no node that depends on such an operator can be differentiated |
| C43-C47 | optimizer state machine, closed forms by induction on the number of updates; norm over R |
| C48 | model values as trees, attributes as the crate syn presents them; `parameters()` against an independent recursive specification of the unskipped fields; `parameters_mut()` lists the places of exactly these; optimizers write there and nowhere else |
| C49 | tensor and parameter to serialized data and back, then `move_to_device`; the result has the values, gradients and statistics of the original |
| C50 | API level definitions; over R the softmax is positive and sums to one |
| C52 | contrib functions for every `num`: closed form element by element, for tensors and for nodes (the nodes through C34/C35: the graph evaluates to what the tensors compute); over R the normalised values have mean 0 and variance v/(v+eps); node `layer_normalization` refuted |
| C53 | mask = samples of a Bernoulli source with probability 1-rate, one per element (per line for `dropout_dim`), kept elements divided by 1-rate; `rate >= 1` all zero; disabled: identity; for tensors and nodes |
| C54 | random source as an oracle argument (any samples); each element gets its own sample, drawn with the stated parameters |
| C56 | registry map |
| C58 | invariant of a graph under creation, evaluation (also a caught panic) and backward: buffers are large enough, gradients have the shapes of the values; per operator, every call of its backward meets the conditions of C31 |
| C59 | composition of C38 for every program built by the node functions (their operators have the invariant of C58, are on one device and well typed) with C43-C46; induction on the number of steps; a concrete training (loss w*w, any eta, any number of steps) is computed |
| C60 | the graph engine once more, with the live guards written down; each step equals the step without guards unless a held reference is in the way (arguments have smaller indices than their operator); induction on the popped order |
| C61 | `Float32.v`: f32 is Flocq's binary32 (libm functions are parameters); `<` is a strict weak order on the numbers that are not NaN and never holds with a NaN; induction over the scan of each line; for argsort the loop over lines with the first line that cannot be sorted |
| C62 | `Rounding.v`: Flocq's correctness theorems for the operations; induction on the length with a bound that allows terms that are approximations themselves, used twice for the blocks of matmul; integers up to 2^24 are representable |
| C63 | the formulas of C17 at IEEE numbers by cases (NaN, infinities, zeros, finite); monotonicity of rounding for sigmoid |
| C64 | the loop as a fold on Flocq's binary64 (C64_logsumexp); special values by cases; accuracy: ln(e^t+z) is 1-Lipschitz in t, so the errors of the steps add up; monotonicity of rounding for the lower bound; a correctly rounded exp/ln shows the contracts are satisfiable |
| C65 | `le_res`: whatever `Debug` returns, `Release` returns; shown for every primitive (CallRel) and lifted through engine, operators, optimizers, models, contrib (RelGraph, RelMore); induction over the calls of an adaptive client; `_converse_refuted` witness |
| C66 | for each function, two allocators that give buffers of the requested length with arbitrary contents: results agree (Fresh*: every kernel overwrites the whole output); graphs are compared after replacing the memory their operators will get (`erase`), which every engine function commutes with; induction over the calls of an adaptive client; `_alloc_refuted` witness |
| C67 | counting invariant over the interleaving semantics of MemPool.v: per size class, blocks in the stack + in use = blocks created; a block is created only when the stack is empty |
| C68 | from the element formulas of C17–C29 and C50: both sides have the same shape and the same element at every coordinate, hence the same `to_vec`; laws of arithmetic are hypotheses, discharged for f32 (Flocq) and the reals |
| C69 | C46_update_parameters for the f32 instance; squares are +inf, or finite and not negative, so are their sums; the factor threshold/sqrt(sum) lies in [0,1] by monotony of rounding; lower bound of the rounded sum of squares by induction, then a real inequality |
| C70 | one step from C46/C69 read off at one element, then induction over the steps |
| C71 | per operator: the specification `sem` of one example is the one of the minibatch at its batch element; then induction over the operators of two programs (`program`, C38/C58) with the same operators; gradients: C38 and the uniqueness of derivatives |
| C72 | the programs `use` are runs of C44/C45 from zero statistics (through C46 and C47); the bounds are inductions over the steps, for Adam a weighted Cauchy-Schwarz inequality |
| C73 | C46_update_parameters applied to two lists of parameters with the same contents; converse (an update that goes through finds its statistics); induction over the steps; C49 for the interruption |
| C74 | C38/C59 (the gradients are derivatives) and uniqueness of the derivative; then C73 for the steps |
| C75 | `prepared` with decay is `prepared` without on the penalized gradients (C46); the derivative of l2/2 w^2; induction over the steps as in C73/C74, now for optimizers with any settings; trainings with any settings exist |
| C76 | one backward adds the partial derivatives (C38) and leaves values and statistics; telescoping sum over the passes; with C71 the sum over the examples is the derivative of the minibatch, so the gradients agree element by element; the update by C73_update |
| C77 | `Derive.v`: a declaration as syn gives it, the implementation as a header and a list of fields; induction over the generic parameters; the arguments are sorted by kind, so they are the declared ones iff the declaration is |
| C78 | `Text.v`: strings of the standard library; decimal numbers are digits only and injective, so the separators can be found; then C07 |

**Statements that were corrected.** C08, C14, C31, C33, C34, C40, C41, C42, C51, C52, C57, C58 were first listed in the form a user would expect; the proofs
showed that form to be false. properties.jsonl now states what holds, with its exact conditions, and says what fails outside of them; the failures are the theorems named
`_refuted`, so nothing of the original claim is left open: every case is proved or refuted.

## 4. Trusted base

**Kernel.** Coq 8.16.1's kernel (`coqc`, and `coqchk` as run by vcheck). No plugin, no `native_compute`; `vm_compute` closes some concrete examples (the kernel's virtual machine is then trusted for these).

**Axioms.** None of this development. `Print Assumptions` for each theorem is listed, theorem by theorem, in `ASSUMPTIONS.md`
(generated by `tools/gen_assumptions.py`). Three cases occur:

1. *Closed under the global context*: all theorems that do not mention real numbers, except the next.
2. `FunctionalExtensionality.functional_extensionality_dep` alone: one theorem.
3. `functional_extensionality_dep`, `Classical_Prop.classic`, `ClassicalDedekindReals.sig_forall_dec`, `ClassicalDedekindReals.sig_not_dec`:
   theorems over the reals (the standard library's construction of R and its theory of derivatives).

All are of the Coq standard library. `coqchk`, which looks at whole library files, additionally lists the fields of the opaque modules
`Coq.Reals.Rdefinitions.RbaseSymbolsImpl` (R, R0, R1, Rplus, Rmult, Ropp, Rlt, Rabst, Rrepr, Rquot1, Rquot2, R0_def, R1_def, Rplus_def, Rmult_def,
Ropp_def, Rlt_def) and `RinvImpl` (Rinv, Rinv_def), and of `Coq.ssr.ssrunder.Under_rel` (Under_rel, Under_relE, Under_rel_from_rel, Over_rel, over_rel,
over_rel_done, under_rel_done): sealed by a module type in the standard library and defined there, hence no axioms for `Print Assumptions`.

**The model against the code.** The correspondence of the Coq definitions with the Rust source is by reading; every definition cites the lines it models.

**Modelled**: all of `prima_undine/src` except what follows, `prima_undine_derive/src/lib.rs`, `prima_undine_contrib/src`.

**Not modelled, or trusted**

* `macros.rs` (`shape![]`), `test_utils.rs`, the `examples`, `#[cfg(test)]` code; `lib.rs`/`mod` re-exports.
* *f32 arithmetic* is any `num`: statements for every `num` hold of IEEE f32 and libm, operation by operation in the order of the code, but say nothing
  about rounding; C61-C64, C69 and C70 are about IEEE binary32 (binary64 inside logsumexp) (Float32.v, with the operations of Flocq; libm is a parameter; one NaN); statements over `Rnum` (derivatives, softmax sums to one, normalised variance, unit norm after clipping) are about exact arithmetic.
  Conversions `u32 as f32` are `nofZ`.
* *Standard library contracts*: `HashMap` (a map), `BinaryHeap` (pops a greatest element, any tie order), `sort_by` (a stable sort for a total preorder: the argument
  `srt` of argsort, with the axioms of the property as hypotheses of the theorem), `Vec`, `slice::copy`, `Arc`/`Mutex` (mutual exclusion, poisoning on panic).
* *Crates*: `rand` (a source of samples, arbitrary here), `serde` (returns what it was given), `syn`/`quote` (the presentation of attributes).
* *Allocation*: a new buffer has the requested size and arbitrary contents; allocation failure is `Panic` through the oracle. Addresses handed out by the backend are new and not null.
* *usize* does not wrap (64 bit target).
* *Aliasing*: the tensor functions are modelled on the values of their operands. `Lifecycle.v` proves (C15) that tensors with different roots do not share memory, and
  `Update` gives arbitrary contents if an operand shares the buffer written.
* *`&mut` borrows* of parameters are places in the model value; two borrows of one place cannot exist in Rust.
* *RefCell*: the guards of the graph's cells are in Borrow.v (C60); Graph.v leaves them out, which C60_no_conflict justifies. A live guard is an entry of a list instead of std's counter. Custom operators are arbitrary but their backward is a sequence of in-place updates of
  argument gradients (or of their own state).
* *Threads*: pool operations under all interleavings (C11, C12); a `Device`'s tables are read only after set-up; tensors and graphs are `!Sync` in use and single threaded here.
* User-written `Model` implementations, user-written kernels registered under the names of the built-in ones (except for C56), `Tensor::handle()` and `Device::call_*_impl`
  called directly by a user (they are `pub` and give raw access).

## 5. What was found

The theorems named `_refuted` are programs, in the model, on which a property fails; each was traced back to the source lines.

1. `Node::elu` computes PReLU (`operators/elu.rs` uses the prelu functions): C34.
2. `neg_bw_impl`, needed by `Neg::backward`, is not registered: backward through unary minus panics: C42.
3. `batch_slice_bw`, `batch_pick_bw` pass the wrong integer arguments: wrong gradients, panics, or (batch_pick) out of bounds writes: C42, C31, C58.
4. `BatchSplit::backward` uses the gradient of the first output for all: C42.
5. Arithmetic between a scalar node and a node of another shape is refused at creation, so node `layer_normalization` is refused: C34, C52.
6. `Sum`/`Logsumexp` along a dimension at or past the depth cannot be differentiated (index panic): C42.
7. Release builds: volumes wrap modulo 2^32 (C08), and so do the sums of extents and batches in concat and batch_concat, which then accept operands and return a far too small shape (C06_release_refuted), and the volume of a shape that was once resized to more than 2^32 elements stays wrong after it is resized down (C02_release_refuted); out of bounds access follows for huge batches (C31); `triangular` with huge k (C28).
8. `+=`, `-=` on tensors of different shapes write out of bounds: C31.
9. `replace` by a referring tensor ends in a double drop (which poisons the pool); `refer` to a tensor without a buffer leaks one later: C14, C13.
10. Gradients of intermediate nodes are kept: a second loss on a shared subgraph counts the first again (exactly how much: C40_leftover_gradients, C40_shared_parameters), and a second pass from the same node panics (C40_touched_root_refused): C40. Multi-output operators: backward on one output differentiates the sum of all of them (C41_derivative_of_all_outputs), and an output nobody uses makes every backward pass through its operator fail (C41_unused_output_panics).
11. An operator whose forward panicked counts as evaluated: a later `forward` on it succeeds at once and leaves its outputs without values, whatever happens in between (`C57_silent_success`, PropsFailed.v): C57.
12. The gradient of `softmax_cross_entropy` is right only for targets that sum to one: C51.
13. Reshape nodes of a wrong size, triangular nodes on huge k are accepted at creation: C33.

14. `Parameter::new` does not compare the shapes of value and gradient (the fields are also `pub`): the backward pass then writes out of bounds: C58.
15. A forward pass refused because its output is being read (`inner_value()` alive) marks the operator as computed; after the reference is dropped the value is never computed: C60_try_again_refuted.
16. Node `softmax_cross_entropy` with one operand a scalar and the other not is refused although the tensor function is not: C34_cross_entropy_mixed_refuted.
17. `relu` and `softplus` multiply by 0 instead of selecting: minus infinity gives NaN: C63_relu, C63_softplus_minus_infinity.
18. max/min over a line that starts with NaN is NaN, over a line with NaN further back it is not; the gradient of a line whose maximum is NaN is lost: C61.
19. `logsumexp` (and so `ln_softmax`, `softmax`, `softmax_cross_entropy`) of a line that starts with two minus infinities is NaN (inf - inf in the accumulator) although masked elements anywhere else are ignored: C64_broken_lines, C64_ln_softmax_broken, C64_order_of_elements_refuted.
20. The gradient of `powi` computes `n - 1` in i32: for i32::MIN it panics in builds with overflow checks and uses the exponent 2^31 - 1 in others: C19_powi_of_min_refuted.
21. Gradient clipping on f32: one NaN gradient switches it off for all parameters (C69_nan_disables_clipping); finite gradients of 2^64 or more make the squared norm infinite, and the step is skipped silently (C69_overflow_stops_sgd); the squared norm stops growing at 2^24 equal terms, so tensors of more than 2^24 elements may keep a norm far above the threshold (C69_norm_stagnates).
22. Adam accepts eps = 0 and then makes NaN of every element without gradient: C70_adam_without_eps.
23. The epoch of an optimizer is not saved with the model and an optimizer cannot be serialized: Adam resumed with a
    new optimizer takes other steps than without interruption: C73_adam_new_optimizer_refuted.

24. A parameter in a field with #[parameter(skip)] is saved and loaded with the model by serde's derives, but `Model::move_to_device` does
    not reach it: it stays a host tensor, and using or saving it again panics (C49_skipped_not_moved, C49_skipped_refuted).

25. The derive macro panics on a struct without lifetime parameter, and writes code that does not compile for a struct with a type parameter after a const one
    or with a default for a generic parameter (C77_compiles, C77_refuted).

## 6. Testing the theorems

`tools/mutate.py` applies the edits of `seeded/mutants*.py` to a scratch copy of the model, rebuilds, replaces every proof that fails by `Admitted` and reports the property theorems that
then depend on an admitted proof. `seeded/LOG.jsonl` is the record.

Rounds 1 to 4 rebuild the whole development for each edit; rounds 5 to 9 (ids r5 to r9) only the files with theorems of the claims the edit should break, so their lists of failed
theorems are not complete. `theorems_tightened` names the theorems that were strengthened or added because of the attempt. Beside the edits, the definitions of the model that no
theorem statement reaches were looked for: the kernel `identity_impl` and the gradient kernels of batch_pick and batch_slice were the only ones, and got C55_identity,
C29_batch_pick_bw_kernel and C29_batch_slice_bw_kernel.
