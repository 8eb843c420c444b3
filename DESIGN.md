# Formal model of spago: design

The model is written in Coq 8.16.1 under `rocq/theories`.

* `*Model.v`: definitions only, each citing the Go file and lines it models and
  saying where it simplifies.
* `*Spec.v`: the small independent vocabulary the theorems are stated in.
* `*Lemmas.v`, `*Proofs*.v`: lemmas.
* `Props*.v`: the property theorems. Each is followed by `Print Assumptions`
  and accompanied by an `Example` with a concrete case that meets its hypotheses.

Theorem names start with the property id. `_partial` marks a theorem that proves
less than the listed statement (the comment says what is missing). `_refuted`
marks a proof that the listed statement is false of the code as modelled; these
are findings about spago and are listed below. `MANIFEST.json` maps properties
to theorems, `ASSUMPTIONS.md` gives `Print Assumptions` for each of them, and
`seeded/LOG.jsonl` records the wrong programs the theorems were tried on.

## Modelling conventions

* **Panics and errors are explicit**: a Go function that can panic or return an
  error is modelled with an `option`/result value. No default value hides them.
* **Element type.** Code that only moves elements (transpose, slice, concat,
  shuffle, traversal, ...) is modelled for an arbitrary type, so it covers
  float32 and float64 bit for bit. Code that computes is modelled over an
  abstract (semi)ring where ring laws are enough, over the real numbers `R` where
  analysis is needed, and over Flocq's IEEE formats where rounding is the point
  (C25, C30 for rounded sums, C50, C54).
* **Integers.** Go `int` is `nat`/`Z` without overflow, except in the random
  generators (32/64/128-bit wrap-around is explicit) and in serialization (the
  truncation to int32 is explicit).
* **Goroutines** become step relations on an explicit state (program counter
  of every goroutine, channels, counters, locks). Theorems quantify over every
  sequence of steps. Memory is sequentially consistent.
* **Slices and pointers** are lists, except where sharing is the point: HeapModel
  (shape and data slices of matrices), MhaModel (the operand buffer of multi-head
  attention), EmbModel (the shared index of embeddings with gradients).
* **Library code** (strconv, sort, reflect, flatbuffers, math) is a parameter or
  modelled by its documented result; each use says so.
* Of the assembly, the kernels of `mat/internal/matfuncs` (C61-C63) and those of
  `f32/asm32` and `f64/asm64` that the matrix code calls (C64) are modelled;
  elsewhere the model has the pure Go counterparts.
* **Gradients** are right when Backward is the adjoint of the derivative of
  Forward along every differentiable curve of operand values (`GradSpec.correct`).
  This needs no partial derivatives and composes: C05 chains it through a graph.

## Per property: what is modelled and how it is proved

| id | model | what is modelled | proof |
|----|-------|------------------|-------|
| C01-C04, C06, C07 | AgModel | `ag.Backward`: the sequential prepare/seed phases and the concurrent phase with micro-steps of `Grad`, `AccGrad`, `executeBackward`, counters and channels | inductive invariant (pending = outstanding sends, gradient + outstanding = solution of the back-propagation equations), a measure for termination, progress by taking the topmost unfinished operator |
| C05 | DiffSpec on top of AgModel and GradModel | programs of differentiable functions, run forward and backward | adjoint identity by induction on the topological order, on every schedule |
| C08 | FwdModel | builders, semaphore, forward goroutines | invariant, progress on the least unfinished operator, measure |
| C09-C13, C16, C17, C48 | GradModel, PoolModel | Forward and Backward of every function of `mat/gradfn` over `R` | per function: element formulas of both passes, then the adjoint identity with Coquelicot derivatives; refutations by concrete operands |
| C14, C41, C42, C47 | OpsModel | composite operators, losses, normalization layers, sequence helpers | algebra over the element formulas |
| C15, C53 | SparseModel | the threshold algorithm on the sorted vector, `SparseMaxLoss` | variational characterisation of the projection; exact result of the clipping; derivative of the loss |
| C18-C20 | DenseModel | structural methods of `Dense`, loops as folds of list updates | induction and index arithmetic; the in-place transposition by orbits of the index permutation |
| C17, C21, C49 | ArithModel, NormModel | arithmetic methods, both product kernels, norms | induction over the loops, semiring laws |
| C22 | HeapModel | which slices every method allocates, shares and writes; histories of calls | invariants over histories; refutations by short histories |
| C23 | MarshalModel | encoder and decoder over a table of optional slots and bytes | round trip, refutation beyond int32 |
| C24-C29 | RandModel, RandFloatModel | PCG source, bounded draws, shuffles, choices | number theory (period of the LCG), counting, bijections, Flocq roundings |
| C30, C31 | CrfModel | Viterbi and the forward recursion | dynamic programming induction against the enumeration of all paths |
| C32, C33, C35, C36 | OptModel | update functions of every optimizer, clippers, decay schedules | closed forms over histories by induction |
| C34 | OptConcModel | `Optimize` and its goroutines | safety invariants, measure; refutations by explicit schedules |
| C37, C51 | WalkModel | the tree of values reflection sees; parameter channels with cancellation | refinement to the list of reachable parameters; step relation |
| C38 | EmbModel | index of embeddings with gradients, every history of calls | invariant over histories |
| C39, C40 | AttModel, MhaModel | attention over `R` with -infinity for the mask, the key/value cache, the operand buffer | refinement to a per-position formula; exact operands of every Concat |
| C43, C52 | RnnModel, RnnBuildModel, SlstmModel | recurrent cells, their drivers and the constructors of nn/birnn | equality with the textbook recurrence by induction over the sequence |
| C44 | ConvModel | 1d and 2d convolutions and their models | window formula, exact panic conditions |
| C45 | FmtModel | the formatter, with `strconv.AppendFloat` a parameter | layout invariants, exact panic condition |
| C46 | ActModel | table of names and functions | case analysis over the table, for every string and map order |
| C50, C54 | FloatModel | element types, slices, conversions, comparisons on IEEE formats | Flocq's rounding theory |
| C55 | LayerModel | linear, highway, squared distance, flatten, spatial gating, gMLP and MLP-mixer layers | element formulas of the composed operators |
| C56 | InitModel | initializers, uniform and normal generators, rounding to float64 and float32 | induction over the filling loops; Flocq error bounds |
| C57 | InitModel | Bernoulli masks in both element types | exact float32 rounding near 1 |
| C58 | LockModel | LockedRand and LockedSource: methods as step programs over the shared generator, goroutines as arbitrary programs, all schedules | mutual exclusion invariant; each method refines its sequential function |
| C59 | NumModel | Softmax, LogSumExp, LogSoftmax and 17 activations with their backward functions, operation by operation in IEEE arithmetic of both widths; package math as a record of functions with the contract go_math (special cases, ranges, error below 2^-50) | interval bounds through correctly rounded operations; overflow shown by lower bounds; a correctly rounded library (NumMath) meets the contract |
| C60 | DumpModel | Dump over bufio.Writer (buffer, sticky error) and a stream given by an arbitrary answer to each Write; DumpToFile with failing Create, Write, Close and a kill after any Write; Load over an arbitrary list of Reads; gob as a self-delimiting codec (Section parameter, an instance is given) | invariant of the buffered writer: received bytes followed by the buffer are what was given; induction on the Reads |
| C61 | AsmModel, AsmCode, AsmCalls | a machine for the vector instructions (registers, flags, memory cells that fault when absent or when a legacy operand is unaligned), polymorphic in the arithmetic of a lane; the 28 kernels, generated line by line from the .s files; the choice by processor features; the plain loops | the kernels are shown to be instances of five shapes (by computation); loop invariants over the unrolled loops for every length and alignment; then instantiated with Flocq's IEEE formats |
| C62 | AsmModel, AsmCode, AsmCalls | the same; an accumulation is described by an inductive relation (each element once, any order and grouping, fused products allowed) | invariant: the lanes of the accumulators are sums of a partition of the elements read so far; the errors by induction on the relation |
| C63 | AsmWords (over AsmModel, AsmCode) | a lane is a word of 32 bits, so that the kernels can take floats apart by their bits; the Go loops around the kernels and their tails | each kernel is run symbolically on one lane; the AVX and SSE code are shown to compute the same word for every input; rounding errors are summed along the code; the polynomial is compared with exp by Taylor's theorem, with ln by the sign-free bound of its derivative's residue on 364 intervals |
| C64 | GemModel, GemCode (translated from the .s files by tools/gem2coq.py), GemCalls (the Go code around them) | the axpy kernels of both types, the matrix-vector and cumulative-sum kernels of float64, and Mul, MulT, CumSum over a memory of cells; a program is what it guarantees of the memory it leaves, for all registers and flags | loop invariants over the code; the spec says sum of products in some order (GemSpec, AsmSpec.dot_of), errors follow as for C62 |
| C65 | the same | the entries of C64 with a NaN among their products | a sum with a NaN term is NaN, by induction on the order of summation; refuted for several columns |
| C66 | SoftModel, over AsmCode, AsmWords | Softmax and Sigmoid as sequences of the kernel calls and Go loops on a memory of cells (words of 32 bits for float32) | the memory part by the kernel theorems of C61-C63; the errors of shift, exponential, sum and quotient are composed over the reals (SoftFloat*) |
| C67 | the same | the same programs on vectors with a NaN | refuted for float32, by computing what the clamp makes of a NaN |
| C68 | OptFloatModel | the OptimizeParams methods of SGD, Adam, AdamW, RAdam, AdaGrad, RMSProp over IEEE numbers; math.Sqrt is correctly rounded, math.Pow a parameter | an invariant of each element: the average of the gradient is at most K times the root of the average of the squares, preserved with all rounding errors (Cauchy-Schwarz); steps below half a unit in the last place of 2^k cannot carry a weight over 2^k |
| C69 | GaussModel, GaussTables | NormFloat64 word by word, tables translated by tools/normal2coq.py; math.Log and math.Exp are parameters | an invariant of the place in the loop (the distance drawn is finite and at most 10.81, or infinite after a zero word); the state with the bad outcome by solving the output function of the generator, reachability from C24 |
| C70 | GaussModel, GaussTables | the same; the distribution of ideal uniform numbers is described by a density | the strips telescope: each contributes the part of the curve between its levels, checked for all 128 entries with lower bounds of exp in integers; the weight of the tail by two convergents of its continued fraction; error bounds of the float32 test |
| C71 | NormFloatModel | forward and backward pass of the normalization layers on lists of floats, operator by operator; every sum and math.Pow(x, -0.5) are parameters | the error of the sum of squares, of the root, of the divisor and of each gradient followed through every rounding; the true slope by differentiation; for LayerNorm the error of the mean, and the root mean square as a function with slope at most 1 of the deviations (Cauchy-Schwarz); zeros and infinities followed to the results |
| C72 | LossFloatModel, LossFloatModel2 | forward and backward pass of the losses on lists of floats, operator by operator; sums are a parameter, exponentials the vector code of the processor; math.Pow under the contracts go_power (ranges and special cases) and power_accurate (error at most y * 2^-50 between 0 and 1) | the errors of the exponentials, sums and logarithms followed to the loss and to each gradient; signs kept by monotone rounding; zeros and infinities followed to the results |
| C73 | RnnFloatModel | forward pass of the recurrent networks on lists of floats, operator by operator; products of rows and vectors are a parameter, exponentials the vector code of the processor; math.Tanh under the contract tanh_accurate (error at most 2^-50) | induction over the sequence with the range of the state as the invariant (1 + u and 2^24 + 1 round back); the errors of the products, the sigmoid and the tangent followed to each field of a step; NaN followed through every product |
| C74 | AttFloatModel | ScaledDotProductAttention on lists of floats with the real mask of zeros and -Inf; products of keys and queries and the sums in Softmax are parameters, exponentials the vector code of the processor, the product with the values the loop of the code | Softmax with elements -Inf: their exponentials are +0 in the vector code and in package math; the error of a score as a factor e^(2 delta) of a share; the loop over hidden rows adds zeros to a sum that is never -0, so it keeps every bit |
| C75 | ClipFloatModel | both clippers on lists of floats, all gradients of one type and none missing; math.Pow is a parameter with a contract for squares and square roots, sums are parameters | the comparison at 1 and the three roundings of the factor as relative errors (the 1e-7 in the divisor absorbs the underflow of squares); sums of squares by the error of any order of additions; the norm of the result by the triangle inequality |
| C76 | LambFloatModel | OptimizeParams of LAMB over IEEE numbers, with the matrix operations of OptFloatModel; the sum of the squares is a parameter (any order), math.Sqrt is correctly rounded | the invariant of the moments of C68; the two norms by the error of sums of squares in any order, with the smallest positive sum for directions whose squares underflow; trust ratio, rate, conversion and product as relative errors plus the smallest numbers |
| C77 | ParamModel | matrices of two precisions with shape slices by reference, data, pointers to gradients and flags; programs that hold variables, parameters and buffers; histories of calls | invariant: only the parameter leads to its matrix, and only its matrix to its gradient; preserved by every call that does not hand them out |

## Findings

Proved false of the code as modelled. Each theorem contains the concrete case.

| theorem | finding |
|---------|---------|
| C01_unguarded_refuted, C09_parameters_refuted | ELU, CELU, LeakyReLU, SoftShrink, Threshold, SwishB and the like list their parameters as operands but never hand them a gradient: if a parameter is an operator that requires gradients, `Backward` hangs (C09_undersending_hangs) |
| C07_usable_after_error_refuted | after the missing-gradient error the roots stay pending: the next `Backward` on the graph hangs |
| C09_copy_refuted, C09_scalar_max_refuted | Copy and ScalarMax do not hand one gradient to each operand |
| C10_gelu_refuted | GELU's derivative uses constants rounded to a few digits |
| C12_rotate_refuted | RotateR by 0 and by the length panics |
| C15_refuted, C46_refuted | SparseMax cuts values at the largest entry and panics if all entries are negative |
| C16_*_refuted | ReduceSum, ReduceMean, Max, Min, Concat, AppendRows hand gradients of another shape for some operand shapes |
| C17_scalar_max_refuted | ScalarMax starts at 0 and returns the first operand if none is positive |
| C17_max_pooling_refuted, _tall, _wide | MaxPooling starts at the smallest positive float64 and takes the number of rows for the number of columns |
| C19_range_refuted, C20_split_refuted | Range and SplitV read spare capacity of the slice instead of panicking |
| C22_clone_refuted, C22_softmax_refuted, C22_backing_refuted | shape slices are shared: reshaping in place changes clones, Softmax of a row turns the operand into a column; NewMatrix keeps the caller's slice |
| C23_refuted | dimensions are cut to int32 |
| C28_zero_refuted, C28_exact_fit_refuted | unique random integers never include 0 and never return when all values are asked for |
| C29_short_total_refuted | WeightedChoice returns index 0 when the weights sum to less than the number drawn |
| C31_short_target_refuted | the CRF loss accepts a target shorter than the input and may be negative |
| C34_update_running_refuted, _error_lost_, _panic_ | Optimize returns nil while updates run, loses errors, sends on a closed channel |
| C35_*_refuted | clippers panic on a parameter without gradient; a norm just below the limit is scaled |
| C36_*_refuted | hyperbolic decay falls below its final value; exponential decay divides by zero one step late |
| C37_*_refuted | traversal skips what follows a nil or foreign element; the strict traversal and Apply mishandle models with their own TraverseParams |
| C38_*_refuted | counts stale after the optimizer clears gradients; decoded models panic at the first gradient |
| C39_incremental_refuted | the causal mask ignores cached inputs for pieces longer than one |
| C40_acyclic_refuted | multi-head attention builds a cyclic graph: its first Concat is its own operand |
| C45_refuted | a width longer than twice an element's text makes the formatter panic |
| C47_split_vec_refuted | SplitVec of a row vector panics |
| C49_norm_refuted | Norm with an odd power adds signed powers |
| C51_parameters_prefix_refuted | a cancelled Parameters stream may skip one parameter and deliver a later one |
| C52_sizes_refuted, C52_candidate_refuted | S-LSTM panics for differing sizes; one matrix takes no part |
| C54_refuted, C54_nan_refuted | Equal is not symmetric across element types; InDelta accepts NaN |
| C55_highway_params_refuted | nn/highway builds its activation without parameters: ELU, CELU, SELU, ... panic on every input |
| C55_gmlp_length_refuted | gMLP pads to SeqLen and does not cut back: a shorter sequence gets SeqLen outputs |
| C55_gmlp_odd_refuted | gMLP with an odd Dim*FFMult panics on every non-empty call (the gate's half is one longer than its normalization) |
| C55_mixer_refuted | MixerBlock documents Channels as the maximum length, but any shorter sequence panics |
| C57_float32_refuted | bernulli.Distribution[float32]: a draw within 2^-25 of 1 rounds to 1 and the mask entry is 2 |
| C58_progress_refuted | LockedRand does not defer the unlock: after a recovered panic (Intn(0), ...) every later call blocks for ever |
| C59_swish_refuted, C59_swishb_refuted | the backward function of Swish (SwishB) computes e^x(e^x+1+x)/(e^x+1)^2 with both parts overflowing: NaN for every x from 358 on (beta x for SwishB) |
| C59_mish_refuted | the backward function of Mish gives 0 for x from 180 to 230 and NaN from 240 on, where the derivative is 1 |
| C59_gelu_refuted | the backward function of GELU in float64 is infinity times zero, NaN, from 2^350 on |
| C59_softplus_refuted | SoftPlus with a threshold above 710/beta: infinite value and NaN derivative for inputs between |
| C59_log_softmax_refuted | LogSoftmax is the logarithm of the softmax: entries 746 below the largest become minus infinity |
| C59_log_softmax_gradient_refuted | its float32 gradient is infinite at [0; -100], where its value is finite, because 1/p overflows |
| C60_close_refuted | `DumpToFile` returns nil when Close reports that the data are not saved: the deferred function assigns to a local variable after the result is set (the same in `LoadFromFile`, without effect there) |
| C60_replaced_refuted | `DumpToFile` truncates the earlier file before it writes: a full disk or a kill loses both the earlier model and the new one |
| C60_sequence_refuted | two values dumped to one stream cannot be loaded by two `Load`s: the first one's bufio.Reader takes and drops the beginning of the second value |
| C62_without_sse3_refuted | `Sum` and `DotProd` use HADDPS (SSE3) on processors without AVX and do not ask whether it exists: an illegal instruction on the first amd64 processors |
| C62_reproducible_refuted | the value of `Sum` depends on the processor, and without AVX on the address of the slice: the same 20 numbers give two results on one machine |
| C63_exp_saturates_refuted | on amd64, `Exp` of a float32 matrix gives 2.4e38 for NaN, for +Inf and from 88.38 on, in all elements that lie in whole vectors: NaNs vanish from `Exp`, `Sigmoid` and `Softmax` |
| C63_exp_position_refuted | so the value depends on the position: of nine elements 100, `Exp` maps the first eight to 2.4e38 and the last to +Inf |
| C63_log_zero_refuted | `Log` of a float32 zero is NaN, not -Inf, in a matrix of exactly one vector (4 or 8 elements), and in the part of the last whole vectors that the repair loop `x[:max+1]` does not reach |
| C63_log_special_refuted | `Log` of a float32 NaN is -87.3, of +Inf 88.7, and of every subnormal number -87.3, in whole vectors |
| C65_refuted | `Mul` with two or more columns skips the zeros of the left matrix (`MatrixMul`, `if v == 0 { continue }`): 0 x NaN and 0 x Inf vanish, (0) x (NaN, 1) = (0, 0); with one column the same product is NaN. The same in the code without assembly |
| C67_sigmoid_nan_refuted, C67_softmax_nan_refuted, C67_softmax_nan_first_refuted | float32 on amd64: the exponential of a NaN in a whole vector of the kernel is about 2.4e38, because the clamp at 88.38 replaces it. Sigmoid of that NaN is a number below 2^-127; Softmax gives the NaN at least 1/2 and everything else at most 2^-126 (`max` skips NaNs), or all zeros if the NaN comes first |
| C68_adam_frozen_refuted, C68_rmsprop_frozen_refuted, C68_adagrad_frozen_refuted | one finite gradient whose square is out of range (2^64 in float32) makes the average of the squares infinite; from then on every step of that element is zero, whatever its gradients |
| C69_finite_refuted, C69_next_refuted | NormFloat64 does not exclude a Float64 of 0 in the tail: two of them in a row give -Inf; a state of the generator with that outcome is exhibited and is reached from every seed. Normal.Next with deviation 0 then returns NaN |
| C70_quick_refuted | an attempt is accepted without a test for 4176599702 of 2^32 words, 97.24 %, not "better than 99% of the time" as normal.go:43 says |
| C71_small_gradient_refuted | FixNorm, ScaleNorm and RMSNorm have no gradient for a vector of zeros, or one with elements below 2^-76 (2^-538 in float64): the gradient of the root is Pow(0, -.5) = +Inf, and every gradient comes out as NaN or Inf; the 1e-10 is added after the root |
| C71_constant_gradient_refuted | LayerNormSimple and AdaNorm return NaN or Inf gradients for a vector of zeros and for every vector with one element |
| C71_large_refuted | FixNorm and RMSNorm return only zeros if one element is 2^64 (2^512) or more: its square is +Inf |
| C71_constant_refuted | LayerNormSimple of the vector 0.1, 0.1, 0.1 in float32 is -0.98, -0.98, -0.98 instead of zeros: the rounded mean is not 0.1, and the deviation of one unit in the last place is far above 1e-10 |
| C72_focal_gradient_refuted | FocalLoss with a parameter below 1 returns NaN for every gradient as soon as the loss is 0 (scores 2^24 and 0 in float32): the backward pass of Pow takes 0^(gamma-1) = +Inf, and multiplies it by the loss 0; proved for every parameter from 0 to below 1 in C72_focal_gradient_nan |
| C72_lost_refuted | CrossEntropy of two scores of 2^24 (2^53) is 0 instead of ln 2: LogSumExp adds the maximum back before the class is subtracted, so the logarithm is absorbed |
| C72_nll_refuted | NLL of the softmax of the scores 0 and -1000 with the target (1, 0) is NaN instead of 0: 0 times log 0; CrossEntropy of the same scores is a number |
| C72_mse_zero_refuted | MSE of two different vectors is 0 when the difference is below 2^-75 (2^-538): the square vanishes |
| C72_nll_gradient_refuted | the gradient of NLL at a probability that is positive but subnormal (2^-140 in float32, 2^-1060 in float64) is NaN although the target there is 0: its inverse overflows and is multiplied by 0; at a probability of 0 the gradient is that of 1e-8 (C72_nll_gradient_partial) |
| C73_overflow_refuted | a simple recurrent network with the finite weights 2^127 and -2^127 (2^1023) and the inputs 2 and 2 returns NaN instead of tanh 0: the products overflow to infinities of both signs (without fused multiply-add) |
| C73_cell_stuck_refuted | the cell of an LSTM with open gates that should grow by almost 1 at each step stays at 2^24 (2^53): the sum rounds back |
| C74_causal_refuted | the causal mask gives later keys the weight 0, but 0 times an infinite or NaN value is NaN: such a value at a later position makes the outputs of all earlier positions NaN in its column (for all inputs: C74_nonfinite_leaks) |
| C75_direction_refuted | the Euclidean norm is computed from the squares in the type of the gradient: an element of 2^65 (float32; 2^512 for float64) overflows it, the factor becomes 0 and every finite gradient of the model becomes zero, every infinite one NaN (for all inputs: C75_overflow_erases); a single NaN on the other hand switches clipping off (C75_nan_unclipped) |
| C76_overflow_refuted | LAMB computes the norm of the weights from their squares in the type of the weights: a weight of 2^64 in float32 makes the norm, the trust ratio and the step infinite, and one update turns every weight of the parameter, also the small ones, into an infinity |
| C77_dims_refuted | a parameter shares the shape slice of the matrix it was made from: reshaping that matrix in place changes the dimensions of the parameter |
| C77_gradient_dims_refuted | AccGrad takes the first gradient whatever its dimensions: a parameter can have a gradient of other dimensions, and the next well-formed one panics |
| C77_precision_refuted | AccGrad refuses a gradient of the other precision as the first one (a type assertion panics) and converts it as a later one |
| C77_replaced_requires_refuted | ReplaceValue takes over the flag of the given matrix: a parameter whose value is replaced by a new matrix no longer requires gradients |
| C77_replaced_owned_refuted | ReplaceValue does not clone as NewParam does: parameters given the same matrix are updated together, and writes to the matrix change the parameter |
| C77_grad_nil_refuted | Grad of a matrix without gradients returns an interface that holds a nil pointer, so that comparing it with nil gives false, also after ZeroGrad, which is documented to set it to nil |

## Trusted base

* Coq's kernel (8.16.1) and `coqc`.
* The axioms `Print Assumptions` lists, per theorem, in `ASSUMPTIONS.md`. They
  are all from the standard library: `ClassicalDedekindReals.sig_forall_dec`,
  `ClassicalDedekindReals.sig_not_dec`,
  `FunctionalExtensionality.functional_extensionality_dep` (the construction of
  the real numbers) and `Classical_Prop.classic` (used by Coquelicot and Flocq).
  No axiom is declared in this development.
* The reading of the Go code that the citations document, and the models of
  library code: math.Pow in floating point (a parameter, under the contracts
  go_power and power_accurate in C72 and go_squares in C75), strconv.AppendFloat (parameter), sort (by its result), reflect
  (as a tree of values), flatbuffers (table of slots), math functions (the real
  functions), maps (any iteration order), channels, mutexes and atomics
  (sequentially consistent).

## Not modelled

* IEEE rounding, overflow and NaN outside C25, C30, C50, C54, C56, C57, C59 and
  C61-C76.
* The assembly kernels of `mat/internal/f32` and `mat/internal/f64` that the
  matrix code does not call (those it calls are in C64); of all kernels,
  addresses that wrap around 2^64 and element addresses that are not multiples
  of the element size. That AsmCode.v and GemCode.v are the .s files is
  trusted (line-by-line translations, by tools/asm2coq.py and
  tools/gem2coq.py).
* ExpFloat64, Zipf; what `gob` writes for a value (C60 takes it
  as a self-delimiting code); data lost by the operating system after a
  successful Close; `embedding` decoding of the shared store.
* Go's garbage collector and scheduler fairness (the termination theorems say
  that no infinite execution exists, so no fairness is needed).
* `log.Fatal` ends the process: modelled as an error outcome.
