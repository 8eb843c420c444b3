{"id": "C01", "title": "Backward always returns", "statement": "For a graph built through the ag operators whose functions hand one gradient to every gradient-requiring operand they list, ag.Backward(xs...) returns: no schedule of the goroutines it starts deadlocks, loops, closes a channel twice or closes a nil channel.", "quantifier": "every acyclic graph, every list of roots (duplicates and roots that feed other roots included), every pre-existing gradient, every interleaving of the goroutines", "why_tests_cant": "the number of interleavings is exponential in the graph size and a test run samples one of them; a lost wake-up shows up on rare schedules only", "anchors": ["ag/backward.go:Backward", "ag/operator.go:prepareBackwardPass", "ag/operator.go:processBackwardPass", "ag/operator.go:executeBackward", "ag/operator.go:AccGrad", "ag/operator.go:Grad"]}
{"id": "C02", "title": "Backward accumulates exactly the sum of the incoming contributions, on every schedule", "statement": "After ag.Backward(xs...) returns nil, every reached tensor's Grad() is its gradient before the call, plus 1 if it is a scalar root that had none, plus the contribution of every use of it by a reached operator, each computed from that operator's own final gradient; the result does not depend on the schedule.", "quantifier": "every acyclic graph, root list, initial gradients, schedule", "why_tests_cant": "a race that drops or doubles one contribution needs a particular interleaving; tests compare one run on small graphs", "anchors": ["ag/backward.go:Backward", "ag/operator.go:AccGrad", "mat/dense_grad.go:AccGrad"]}
{"id": "C03", "title": "Each operator's backward function runs exactly once, with its complete gradient", "statement": "During one ag.Backward call the Backward method of the function of every reached operator that requires gradients is called exactly once, and the gradient it is given already contains every contribution the operator will receive; no other operator's Backward is called.", "quantifier": "every acyclic graph, root list, schedule", "why_tests_cant": "a premature or repeated call happens only under particular interleavings", "anchors": ["ag/operator.go:executeBackward", "ag/operator.go:processBackwardPass", "ag/operator.go:Grad"]}
{"id": "C04", "title": "Backward leaves the graph reusable", "statement": "When ag.Backward returns nil every operator of the graph is idle with no pending gradients, so any sequence of AccGrad, ZeroGrad and Backward calls on the same graph behaves as if each Backward ran on a fresh graph holding the same gradients.", "quantifier": "every graph and every history of calls", "why_tests_cant": "residual counters only matter to later calls, over unbounded histories", "anchors": ["ag/operator.go:executeBackward", "ag/operator.go:setBackwardIdle", "ag/operator.go:ZeroGrad"]}
{"id": "C05", "title": "Backward computes the derivative", "statement": "For a graph of differentiable operators and a scalar root, the gradient left on each leaf by ag.Backward is the gradient of the root's value with respect to that leaf: along any differentiable curve of leaf values the derivative of the root is the inner product of the leaf gradients with the curve's velocity.", "quantifier": "every acyclic graph over the differentiable operators, every input point in their domains, every direction", "why_tests_cant": "numerical gradient checks sample points and graphs, up to a tolerance", "anchors": ["ag/backward.go:Backward", "mat/gradfn"]}
{"id": "C06", "title": "Gradients stop where they should", "statement": "A tensor that does not require gradients, or that is only reachable through ag.StopGrad or an nn.Buffer, is left unchanged by ag.Backward, and so is every tensor not reachable from the roots.", "quantifier": "every graph, root list and schedule", "why_tests_cant": "the frame condition ranges over all the other nodes of all graphs", "anchors": ["ag/gradientblocker.go:StopGrad", "nn/buffer.go:Buf", "ag/operator.go:RequiresGrad"]}
{"id": "C07", "title": "Missing output gradient is reported and harmless", "statement": "ag.Backward returns an error exactly when some operator root has neither a gradient nor a single element, and then no backward function has run and the roots and their graph can still be used (Grad, ZeroGrad, a later Backward).", "quantifier": "every graph, root list and initial gradients", "why_tests_cant": "the state left behind by the error path only shows in later calls, for roots in any position of the list", "anchors": ["ag/operator.go:assignOutputGradient", "ag/backward.go:Backward", "ag/operator.go:Grad"]}
{"id": "C08", "title": "Asynchronous forward execution is deterministic and deadlock-free", "statement": "Building a graph with any mix of synchronous and asynchronous operators gives every operator the value that purely sequential evaluation gives it, and never deadlocks, whatever the concurrency limit (at least 1) and however many goroutines build the graph.", "quantifier": "every graph, assignment of async flags, number of builders, concurrency limit and schedule", "why_tests_cant": "deadlocks through the semaphore need specific schedules and CPU counts", "anchors": ["ag/operator.go:Run", "ag/operator.go:Value", "ag/operator.go:forwardGuard", "nn/birnn/birnn.go:Forward"]}
{"id": "C09", "title": "Every function hands each listed operand exactly one gradient", "statement": "For every differentiable function, Backward calls AccGrad exactly once for each occurrence in Operands() of an operand that requires gradients.", "quantifier": "every function of mat/gradfn, every operand list, every subset of operands requiring gradients", "why_tests_cant": "tests give constants as hyper-parameters, so an operand that never receives its gradient, which makes ag.Backward hang, is not noticed", "anchors": ["mat/gradfn", "ag/operator.go:prepareBackwardPass"]}
{"id": "C10", "title": "Element-wise functions: Backward multiplies by the true derivative", "statement": "For each element-wise function (Tan, Tanh, Sigmoid, HardSigmoid, HardTanh, Softsign, ReLU, CELU, GELU, ELU, SELU, Swish, SwishB, SiLU, Mish, LeakyReLU, SoftPlus, SoftShrink, Threshold, Exp, Log, Neg, Reciprocal, Abs, Square, Sqrt, Cube, Sin, Cos, Pow) the operand's gradient is gy times the derivative of the forward function at every point where it is differentiable.", "quantifier": "every real input point and parameter values in the domain", "why_tests_cant": "a wrong branch or boundary constant is invisible at the sampled points", "anchors": ["mat/gradfn/misc.go", "mat/gradfn/unaryelementwise.go"]}
{"id": "C11", "title": "Products: Backward is the adjoint of the product", "statement": "For Mul, MulT, Dot, Affine, Prod, ProdScalar, Div, DivScalar, Add, Sub and the scalar variants, the gradients handed to the operands are the adjoint of the derivative of Forward.", "quantifier": "every shape, every operand values, every output gradient", "why_tests_cant": "shapes are unbounded; transposition mistakes are invisible on symmetric or square samples", "anchors": ["mat/gradfn/mul.go", "mat/gradfn/mult.go", "mat/gradfn/affine.go", "mat/gradfn/dot.go", "mat/gradfn/div.go"]}
{"id": "C12", "title": "Structural operators: Backward routes each gradient element to the element it came from", "statement": "For Concat, Stack, AppendRows, Slice, RowView, ColView, At, Reshape, Flatten, T, RotateR, Copy the operand gradient is the adjoint of the (linear) forward rearrangement.", "quantifier": "every shape and position", "why_tests_cant": "index arithmetic over unbounded shapes", "anchors": ["mat/gradfn/concat.go", "mat/gradfn/stack.go", "mat/gradfn/appendrows.go", "mat/gradfn/slice.go", "mat/gradfn/rowview.go", "mat/gradfn/colview.go", "mat/gradfn/rotater.go", "mat/gradfn/reshape.go", "mat/gradfn/transpose.go"]}
{"id": "C13", "title": "Softmax is a probability distribution with the right gradient", "statement": "Softmax(x) of a non-empty vector has positive elements summing to 1, is invariant under adding a constant, preserves order, equals exp(x_i)/sum exp(x_j), and its Backward is the adjoint of its Jacobian.", "quantifier": "every non-empty real vector", "why_tests_cant": "infinitely many inputs; the max-shift must not change the result for any of them", "anchors": ["mat/dense.go:Softmax", "mat/gradfn/softmax.go"]}
{"id": "C14", "title": "LogSumExp and LogSoftmax", "statement": "ag.LogSumExp of scalars or of one vector equals log(sum exp x_i), is at least the maximum and at most the maximum plus log n; ag.LogSoftmax(x) is the logarithm of Softmax(x).", "quantifier": "every non-empty list of reals", "why_tests_cant": "the shift by a running maximum must cancel for every input", "anchors": ["ag/operators.go:LogSumExp", "ag/operators.go:LogSoftmax"]}
{"id": "C15", "title": "SparseMax is the projection onto the simplex", "statement": "SparseMax(x) is the point of the probability simplex closest to x.", "quantifier": "every non-empty real vector", "why_tests_cant": "a projection claim compares with every point of the simplex; clipping errors only show for some inputs", "anchors": ["mat/gradfn/sparsemax.go", "mat/gradfn/sparsemax_loss.go"]}
{"id": "C16", "title": "A gradient has the shape of its value", "statement": "The gradient handed to an operand by a backward function has that operand's shape, so that accumulating several contributions never fails.", "quantifier": "every function, every operand shape including row vectors and matrices", "why_tests_cant": "tests use column vectors; a wrong shape is adopted silently by the first accumulation", "anchors": ["mat/gradfn/reducesum.go", "mat/gradfn/reducemean.go", "mat/gradfn/max.go", "mat/gradfn/min.go", "mat/gradfn/concat.go", "mat/gradfn/appendrows.go", "mat/dense_grad.go:AccGrad"]}
{"id": "C17", "title": "Maximum-like operators return the maximum", "statement": "ScalarMax returns the largest of its operands, ReduceMax and Max of a tensor return an element no smaller than all others, ArgMax its first position, and MaxPooling the maximum of every window.", "quantifier": "every non-empty input, in particular all-negative ones", "why_tests_cant": "initial accumulator values are wrong only on particular sign patterns", "anchors": ["mat/gradfn/scalarmax.go", "mat/gradfn/reducemax.go", "mat/gradfn/maxpooling.go", "mat/dense.go:Max", "mat/dense.go:ArgMax"]}
{"id": "C18", "title": "Transpose", "statement": "T() of an r\u00d7c matrix is the c\u00d7r matrix with entry (j,i) equal to entry (i,j); transposing in place gives the same matrix as T(); transposing twice gives the original.", "quantifier": "every shape (including empty and vectors) and element type", "why_tests_cant": "the in-place algorithm follows permutation cycles whose structure depends on the shape", "anchors": ["mat/dense.go:T", "mat/dense.go:TransposeInPlace"]}
{"id": "C19", "title": "Sub-matrices and element access", "statement": "At/SetAt, Slice, Range, ExtractRow, ExtractColumn, View return exactly the addressed elements, panic exactly when an index is out of range, and SetAt changes only the addressed element.", "quantifier": "every shape and every index, in range or not", "why_tests_cant": "off-by-one errors at unbounded shapes", "anchors": ["mat/dense.go:Slice", "mat/dense.go:at", "mat/dense.go:set", "mat/dense.go:Range", "mat/dense.go:ExtractRow", "mat/dense.go:ExtractColumn"]}
{"id": "C20", "title": "Reshaping, resizing, joining and splitting", "statement": "Reshape and Flatten keep the elements in order; SplitV undoes ConcatV; the rows of Stack are its operands; AppendRows keeps the old rows and appends the new; PadRows/PadColumns/ResizeVector keep the old elements in place and fill with zeros.", "quantifier": "every shape and list of operands", "why_tests_cant": "round trips over unbounded lists and shapes", "anchors": ["mat/dense.go:Reshape", "mat/dense.go:SplitV", "mat/dense_new.go:ConcatV", "mat/dense_new.go:Stack", "mat/dense.go:AppendRows", "mat/dense.go:PadRows", "mat/dense.go:PadColumns", "mat/dense.go:ResizeVector"]}
{"id": "C21", "title": "Matrix product", "statement": "Mul computes the matrix product, MulT the product with the transpose, on both element types and all code paths (matrix-matrix, matrix-vector); the skipping of zero coefficients does not change the result; products that do not fit panic.", "quantifier": "every shape and every contents", "why_tests_cant": "several specialised loops whose agreement must hold for every shape", "anchors": ["mat/dense.go:Mul", "mat/dense.go:MulT", "mat/internal/f32/gonum.go:MatrixMul", "mat/internal/f64/gonum.go:MatrixMul", "mat/internal/f64/asm64/ge_noasm.go:GemvN", "mat/internal/matfuncs/dotprod_purego.go"]}
{"id": "C22", "title": "A new matrix is independent of the one it was computed from", "statement": "A matrix returned by a method that documents a new matrix (Clone, Add, Apply, ZerosLike, ...) does not change, in data or shape, when an in-place method is later called on its source, and conversely; functions documented to be pure (Softmax) leave their receiver unchanged.", "quantifier": "every history of operations on any number of matrices", "why_tests_cant": "aliasing shows only in later operations, in combinations no test enumerates", "anchors": ["mat/dense.go:Clone", "mat/dense.go:ReshapeInPlace", "mat/dense.go:TransposeInPlace", "mat/dense.go:Softmax", "mat/dense_new.go:makeDense"]}
{"id": "C23", "title": "Matrix serialization round trip", "statement": "Unmarshalling a marshalled matrix gives a matrix of the same element type, shape, data and requires-grad flag; a header of another element type is rejected.", "quantifier": "every matrix", "why_tests_cant": "all shapes and contents, including field values equal to the encoding's defaults and dimensions beyond 32 bits", "anchors": ["mat/dense_marshaling.go", "mat/fbs/dense/DenseFloat32.go", "mat/fbs/dense/DenseFloat64.go"]}
{"id": "C24", "title": "The random source has full period 2^128", "statement": "The generator's state does not repeat before 2^128 draws, from any seed, and its 128-bit arithmetic on 64-bit words is exact; saving and restoring the state reproduces the same sequence.", "quantifier": "every seed, every number of draws", "why_tests_cant": "2^128 draws cannot be run", "anchors": ["mat/internal/rand/rng.go:Uint64", "mat/internal/rand/rng.go:multiply", "mat/internal/rand/rng.go:MarshalBinary"]}
{"id": "C25", "title": "Bounded random integers are in range and unbiased", "statement": "Uint64n, Int63n, Int31n, Intn return values in [0,n), panic for n<=0, and every value has exactly the same number of accepted source words; Float64 and Float32 are in [0,1).", "quantifier": "every n and every source word sequence", "why_tests_cant": "bias of one part in 2^64 cannot be measured", "anchors": ["mat/internal/rand/rand.go:Uint64n", "mat/internal/rand/rand.go:Int63n", "mat/internal/rand/rand.go:Int31n", "mat/internal/rand/rand.go:Intn", "mat/internal/rand/rand.go:Float64", "mat/internal/rand/rand.go:Float32"]}
{"id": "C26", "title": "Shuffle and Perm give every permutation exactly once", "statement": "Perm(n), Shuffle and ShuffleInPlace produce a permutation of their input, and the choices made are in bijection with the permutations, so uniform choices give uniform permutations.", "quantifier": "every n and every sequence of choices", "why_tests_cant": "n! permutations", "anchors": ["mat/internal/rand/rand.go:Perm", "mat/internal/rand/rand.go:Shuffle", "mat/rand/misc.go:ShuffleInPlace"]}
{"id": "C27", "title": "Seeding makes the generator reproducible", "statement": "After Seed(s) the outputs of any later sequence of calls (Read included) depend only on s, not on the calls made before; Read returns the same bytes however it is split into calls.", "quantifier": "every history before and after seeding, every split of reads", "why_tests_cant": "buffered leftovers matter for particular histories only", "anchors": ["mat/internal/rand/rand.go:Seed", "mat/internal/rand/rand.go:Read", "mat/rand/rand.go:LockedRand"]}
{"id": "C28", "title": "Unique random integers", "statement": "GetUniqueRandomInt(n, max, valid) returns n distinct valid integers of [0,max), every such value being possible, and terminates whenever enough of them exist (with probability one over the source).", "quantifier": "every n, max, filter and source", "why_tests_cant": "a value that can never be drawn, or non-termination on an exact fit, needs the right parameters", "anchors": ["mat/rand/misc.go:GetUniqueRandomInt", "mat/rand/misc.go:GetUniqueRandomIndices"]}
{"id": "C29", "title": "Weighted choice follows the distribution", "statement": "WeightedChoice(dist, rnd) returns index i exactly for rnd in an interval of length dist[i].", "quantifier": "every distribution and every number in [0,1)", "why_tests_cant": "interval boundaries over the reals", "anchors": ["mat/rand/misc.go:WeightedChoice"]}
{"id": "C30", "title": "CRF decoding returns a best path", "statement": "crf.Model.Decode returns a label sequence whose score (start, emission, transition and end scores) is at least that of every other sequence of the same length.", "quantifier": "every number of labels, sequence length and scores", "why_tests_cant": "exponentially many sequences", "anchors": ["nn/crf/viterbi.go", "nn/crf/crf.go:Decode"]}
{"id": "C31", "title": "CRF loss is the negative log-likelihood", "statement": "crf.Model.NegativeLogLoss equals log of the sum over all label sequences of exp(score) minus the score of the target sequence, and is never negative.", "quantifier": "every number of labels, sequence length, scores and target", "why_tests_cant": "the sum has exponentially many terms", "anchors": ["nn/crf/crf.go:totalScore", "nn/crf/crf.go:goldScore", "nn/crf/crf.go:NegativeLogLoss"]}
{"id": "C32", "title": "SGD, with and without momentum", "statement": "Over any history of gradients the parameters after SGD updates equal the closed form: plain SGD subtracts lr times the sum of the gradients; momentum subtracts the exponentially weighted sum; Nesterov its look-ahead form.", "quantifier": "every history of gradients", "why_tests_cant": "unbounded histories", "anchors": ["optimizers/sgd/sgd.go"]}
{"id": "C33", "title": "Adaptive optimizers", "statement": "Adam, AdamW, RAdam, AdaGrad, RMSProp and LAMB keep the documented moving averages over any history of gradients, never divide by zero, and move each parameter by a bounded step against the sign of its averaged gradient.", "quantifier": "every history of gradients", "why_tests_cant": "unbounded histories", "anchors": ["optimizers/adam/adam.go", "optimizers/radam/radam.go", "optimizers/adagrad/adagrad.go", "optimizers/rmsprop/rmsprop.go", "optimizers/lamb/lamb.go"]}
{"id": "C34", "title": "Optimize updates every parameter once before it returns", "statement": "When Optimizer.Optimize returns nil every parameter that had a gradient has been updated exactly once, no update is still running, every strategy error is reported, and it never panics.", "quantifier": "every parameter list, strategy outcome and schedule", "why_tests_cant": "the missing synchronisation only shows on schedules where a worker is late", "anchors": ["optimizers/optimizer.go:Optimize"]}
{"id": "C35", "title": "Gradient clipping bounds", "statement": "After norm clipping the p-norm of all gradients together is at most the maximum norm, and unchanged if it already was; directions are preserved; after value clipping every element lies within the bound; parameters without a gradient are left alone.", "quantifier": "every set of gradients and every bound", "why_tests_cant": "real-valued inputs, empty and nil gradients", "anchors": ["optimizers/gradclipper"]}
{"id": "C36", "title": "Learning-rate decay", "statement": "Repeated Decay calls give a non-increasing sequence that starts at the initial rate, never goes below the final rate, and reaches the final rate at the configured step (exponential).", "quantifier": "every configuration and every time step", "why_tests_cant": "all time steps, including those past the end of the schedule", "anchors": ["optimizers/decay/exponential", "optimizers/decay/hyperbolic"]}
{"id": "C37", "title": "Every parameter of a model is visited exactly once", "statement": "nn.ForEachParam visits every parameter stored in exported fields of a model, its slices, maps and sub-models, each occurrence once, in field order; ForEachParamStrict only those outside sub-models; ZeroGrad clears exactly those.", "quantifier": "every model structure", "why_tests_cant": "models are arbitrary nested structures", "anchors": ["nn/traversal.go", "nn/model.go:ForEachParam", "nn/model.go:ZeroGrad"]}
{"id": "C38", "title": "Embedding gradient bookkeeping", "statement": "In an embedding.Model the parameters traversed for optimization are exactly the embeddings that have received a gradient since they were last cleared; CountEmbedWithGrad is their number; ZeroGrad clears all of them.", "quantifier": "every history of accumulations and clearings through embeddings, the model and the optimizer", "why_tests_cant": "unbounded histories", "anchors": ["nn/embedding/model.go", "nn/embedding/embedding.go"]}
{"id": "C39", "title": "Causal self-attention is causal, and incremental decoding equals full decoding", "statement": "With a causal mask the output at position i depends only on inputs 0..i, and feeding the sequence piece by piece through the returned cache gives the same outputs as feeding it at once.", "quantifier": "every sequence, every way of cutting it in pieces, all weights", "why_tests_cant": "all cuts of all sequences", "anchors": ["nn/attention/attention.go:ScaledDotProductAttention", "nn/attention/selfattention/model.go:Forward"]}
{"id": "C40", "title": "Multi-head attention builds an acyclic graph", "statement": "multiheadattention.Model.Forward concatenates the heads' outputs position by position and the graph it returns can be differentiated: no operator is its own operand.", "quantifier": "every number of heads and sequence length", "why_tests_cant": "the corruption happens after the values have been computed, so forward tests pass", "anchors": ["nn/attention/multiheadattention/model.go:project", "mat/gradfn/concat.go:NewConcat"]}
{"id": "C41", "title": "Losses", "statement": "MSE, MAE, CrossEntropy, WeightedCrossEntropy, FocalLoss, NLL, SPG, Perplexity and the quantization losses are non-negative where documented, zero exactly at a perfect prediction, and cross entropy equals minus log of the softmax probability of the target.", "quantifier": "every prediction and target", "why_tests_cant": "real-valued inputs", "anchors": ["losses/losses.go"]}
{"id": "C42", "title": "Normalization layers", "statement": "LayerNorm output (before gain and bias) has zero mean and mean square at most 1 (exactly var/(var+eps)); RMSNorm, FixNorm and ScaleNorm outputs have norm below the documented one; invariances under shift or scale hold; batch norm's running statistics are the documented exponential averages.", "quantifier": "every input vector and every history of batches", "why_tests_cant": "real-valued inputs, unbounded histories", "anchors": ["nn/normalization"]}
{"id": "C43", "title": "Recurrent networks are causal and bidirectional ones aligned", "statement": "The i-th output of SRN, GRU and LSTM is a function of the first i inputs; feeding a sequence in two parts through the state equals feeding it at once; BiRNN pairs, at every position, the forward output with the backward output of the same position. The networks made by NewBiLSTM, NewBiGRU and NewBiBiLSTM, trained in any way, take every sequence of vectors of the size they were made for, and the two of NewBiBiLSTM fit on each other.", "quantifier": "every sequence", "why_tests_cant": "all lengths and all cuts", "anchors": ["nn/recurrent", "nn/birnn/birnn.go", "nn/birnn/builders.go"]}
{"id": "C44", "title": "Convolution", "statement": "Conv1D and Conv2D compute, at every output position, the inner product of the kernel with the window at that position, and panic exactly when the stride does not fit.", "quantifier": "every shape, stride and contents", "why_tests_cant": "index arithmetic over unbounded shapes", "anchors": ["nn/convolution/convolution.go", "nn/convolution/conv1x1/model.go"]}
{"id": "C45", "title": "Formatting a matrix", "statement": "Formatting with any verb, width and precision never panics and prints every element in row order.", "quantifier": "every matrix and format", "why_tests_cant": "width and element-size combinations", "anchors": ["mat/dense_formatting.go"]}
{"id": "C46", "title": "Activation names round trip", "statement": "ParseActivation maps the name of every activation, and its lower-case form, back to that activation, rejects every other string, and every activation can be run.", "quantifier": "every string", "why_tests_cant": "strings are infinite; a duplicate name is order dependent", "anchors": ["nn/activation/types.go", "nn/activation/activation.go"]}
{"id": "C47", "title": "Sequence helpers", "statement": "ag.SplitVec's chunks concatenate to the vector, SeparateMatrix/SeparateVec give every element in order, Pad keeps the prefix and has the requested length, Sum/Mean/Maximum/Minimum are the left folds, ModuleList.Forward composes its modules in order.", "quantifier": "every list and size", "why_tests_cant": "unbounded lists", "anchors": ["ag/operators.go", "nn/model.go:ModuleList"]}
{"id": "C48", "title": "Dropout and gradient masks", "statement": "Dropout(x,p) returns x scaled by 1/(1-p) or zero at each element, with the mask applied identically in Backward; p=0 is the identity.", "quantifier": "every mask, input and probability", "why_tests_cant": "random masks", "anchors": ["mat/gradfn/dropout.go", "ag/operators.go:Dropout"]}
{"id": "C49", "title": "Reductions and comparisons", "statement": "Sum, Max, Min, ArgMax, CumSum, Norm, Pow, Prod-style in-place and out-of-place pairs agree element by element; ClipInPlace puts every element in the interval and panics exactly when max<min; DoNonZero visits exactly the non-zero elements in order.", "quantifier": "every matrix", "why_tests_cant": "unbounded shapes", "anchors": ["mat/dense.go"]}
{"id": "C50", "title": "Conversions between element types", "statement": "Converting a slice or matrix between element types applies the scalar conversion to each element in order; converting to the same type is the identity; float32 to float64 and back is the identity.", "quantifier": "every slice", "why_tests_cant": "unbounded slices, all values", "anchors": ["mat/float/floatslice.go", "mat/float/float.go"]}
{"id": "C51", "title": "Parameter streams", "statement": "A stream of the parameters of a model delivers to its receiver the model's parameters in traversal order, each once, and then closes the channel; what has been received at any moment is a prefix of that list; once the context is cancelled the producing goroutine can end without anybody receiving, so that no goroutine is left behind.", "quantifier": "every model, every interleaving of producer, receiver and cancellation, at any point", "why_tests_cant": "the outcome depends on the schedule and on the moment of cancellation", "anchors": ["nn/model.go:Parameters", "nn/model.go:StreamParams"]}
{"id": "C52", "title": "S-LSTM computes its sentence-state equations", "statement": "For every configuration and every non-empty sequence of input vectors of the declared size, the S-LSTM's Forward returns one vector of the declared output size per input: the result of Steps-1 rounds of the sentence-state equations from the initial states, in which every word reads its two neighbours (the borders read the start and end vectors), its own input and the sentence state, and every parameter of the model takes part.", "quantifier": "every configuration, every parameter value, every sequence length and every number of steps", "why_tests_cant": "unbounded sequence lengths and numbers of rounds; real-valued inputs", "anchors": ["nn/gnn/slstm/slstm.go:Forward", "nn/gnn/slstm/slstm.go:computeUx", "nn/gnn/slstm/slstm.go:processNode", "nn/gnn/slstm/slstm.go:updateSentenceState"]}
{"id": "C53", "title": "SparseMaxLoss is the sparsemax loss and its gradient is exact", "statement": "For every non-empty matrix x, entry i of SparseMaxLoss(x) is x_i - 1/2 - max over the probability simplex of (<q,x> - |q|^2/2), is never positive, and the gradient handed to x is the derivative at every x, including the points where SparseMax itself is not differentiable.", "quantifier": "every non-empty real matrix, every upstream gradient", "why_tests_cant": "a maximum over every point of the simplex; differentiability at every point of the real space", "anchors": ["mat/gradfn/sparsemax_loss.go", "mat/gradfn/sparsemax.go:sparseMaxCommon"]}
{"id": "C54", "title": "Comparing matrices", "statement": "Equal holds exactly when two matrices have the same shape and the same numbers as elements, whichever is asked; InDelta holds exactly when the shapes agree and every two elements at the same position are within delta.", "quantifier": "every two matrices of either element type, including not-a-number and infinite elements", "why_tests_cant": "all values of two floating-point types, shapes of any size", "anchors": ["mat/matrix.go:Equal", "mat/matrix.go:InDelta", "mat/float/floatslice.go:Equals", "mat/float/floatslice.go:InDelta"]}
{"id": "C55", "title": "Feed-forward layers compute their formulas", "statement": "A linear layer gives W x + b for each input; highway a mixture of its activated layer and its input that lies between the two; SqrDist the squared length of B x; Flatten one column with all elements of the inputs in order; max pooling each input by itself; the spatial gating unit, gMLP and the MLP-mixer block their published formulas. They give one output per input for every sequence up to the configured length and work with every activation and every size the constructors accept.", "quantifier": "every parameter values, every sequence of inputs of the configured size, every length up to the configured one, every activation", "why_tests_cant": "all parameters, inputs, sizes and sequence lengths", "anchors": ["nn/linear/linear.go:Forward", "nn/highway/highway.go:Forward", "nn/sqrdist/sqrdist.go:Forward", "nn/flatten/flatten.go:Forward", "nn/pooling/pooling.go:Forward", "nn/sgu/model.go:Forward", "nn/gmlp/model.go:Forward", "nn/mlpmixer/mixerblock.go:Forward"]}
{"id": "C56", "title": "Initializers draw one number per entry and stay within their bounds", "statement": "Every initializer keeps the shape and replaces every entry. Uniform takes one draw per entry, row after row, and gives no number below the lower bound; XavierUniform stays within gain*sqrt(6/(rows+cols)) up to rounding; XavierNormal scales successive normal draws by gain*sqrt(2/(rows+cols)); Achlioptas gives -sqrt 3, 0 or sqrt 3 with probabilities 1/6, 2/3 and 1/6 up to the granularity of the generator.", "quantifier": "every shape, every gain and bounds, every state of the generator, both element types", "why_tests_cant": "all shapes and all 2^53 values of each draw, with IEEE rounding of each operation", "anchors": ["initializers/initializers.go:Uniform", "initializers/initializers.go:XavierUniform", "initializers/initializers.go:XavierNormal", "initializers/initializers.go:Achlioptas", "mat/rand/uniform/uniform.go:Next", "mat/rand/normal/normal.go:Next"]}
{"id": "C57", "title": "Bernoulli masks are zeros and ones", "statement": "bernulli.Distribution gives a matrix of the asked shape whose entries are 0 where the draw is below the probability and 1 elsewhere, for both element types.", "quantifier": "every shape, every probability, every state of the generator, both element types", "why_tests_cant": "all 2^53 values of each draw: the deviating ones have probability 2^-25", "anchors": ["mat/rand/bernulli/bernulli.go:Distribution"]}
{"id": "C58", "title": "Generators used by several goroutines", "statement": "Calls on a LockedRand by any number of goroutines have the answers of some sequence of the same calls made one after the other, in an order that respects each goroutine's; numbers drawn concurrently, from it or by the top-level functions, share out the sequence of the generator with none lost and none given twice; and a call never blocks for ever.", "quantifier": "every number of goroutines, every program they run, every schedule, every state of the generator", "why_tests_cant": "all interleavings of the steps of the methods", "anchors": ["mat/rand/lockedrand.go", "mat/internal/rand/rand.go:LockedSource", "mat/internal/rand/rand.go:Intn"]}
{"id": "C59", "title": "Finite values stay finite", "statement": "Softmax, LogSumExp, LogSoftmax and the activation operators, applied in float32 or float64 to finite values, give finite values (softmax and sigmoid between 0 and 1, whatever the size of the inputs), and their backward functions, given finite gradients, give no NaN.", "quantifier": "every finite float32 or float64 input of any magnitude, every length, every usual parameter of the activation, every mathematical library with the documented special cases and an error below 2^-50", "why_tests_cant": "all 2^32 or 2^64 values of each element and vectors of every length; overflow appears only in intermediate results", "anchors": ["mat/dense.go:Softmax", "mat/dense.go:Sigmoid", "ag/operators.go:LogSumExp", "ag/operators.go:LogSoftmax", "mat/gradfn/misc.go", "mat/gradfn/swish.go", "mat/gradfn/softplus.go", "mat/gradfn/log.go", "mat/gradfn/softmax.go", "mat/gradfn/sigmoid.go"]}
{"id": "C60", "title": "Saved models load as they were saved", "statement": "If Dump returns nil, the stream has received exactly the encoding of the value, whatever the buffering and however its Writes are divided; if a Write fails or the process is killed, the stream holds a prefix of it. If DumpToFile returns nil, LoadFromFile gives the saved value, however the Reads divide the file; a file left by an interrupted call is rejected or loads as the value being saved, the earlier file is not lost, and values dumped one after the other to a stream load one after the other.", "quantifier": "every value with a self-delimiting encoding, every sequence of answers of the stream or operating system (short writes, errors, a failing Close), every kill point between system calls, every division of the content by Reads", "why_tests_cant": "failures of the disk and kills at every system call, and every division of every file, cannot be enumerated", "anchors": ["nn/gob.go:Dump", "nn/gob.go:DumpToFile", "nn/gob.go:Load", "nn/gob.go:LoadFromFile"]}
{"id": "C61", "title": "Vector instructions give the results of the plain loops, on every processor", "statement": "On amd64 the element-wise operations of matrices (sum, difference, division, sum and product with a constant, in float32 and float64) give bit for bit the values of the plain Go loops, whichever kernel the features of the processor select, for slices of every length at every address, also when the result overwrites an operand; they never fault, touch no memory outside the result, and use no instruction that the processor lacks.", "quantifier": "every processor (combination of features), length, address of the slices, operands (NaN and infinities included) and content of the rest of memory and of the registers", "why_tests_cant": "tests run on one processor, and the kernels branch on length modulo 14, 8, 4 and 1 vectors and on the alignment of the addresses", "anchors": ["mat/internal/matfuncs/add_amd64.s", "mat/internal/matfuncs/sub_amd64.s", "mat/internal/matfuncs/div_amd64.s", "mat/internal/matfuncs/addconst_amd64.s", "mat/internal/matfuncs/mulconst_amd64.s", "mat/internal/matfuncs/add_amd64.go:Add32", "mat/internal/matfuncs/add_purego.go:add"]}
{"id": "C62", "title": "Sums and dot products use every element exactly once", "statement": "Sum and the dot products behind matrix-vector products add every element (every product) exactly once, in some order and grouping, whichever kernel the processor selects and wherever the slices lie; in exact arithmetic they are the sum and the dot product, and in floating point a finite result of n terms is within (1+u)^(n-1)-1 of the exact sum relative to the sum of absolute values (for dot products (1+u)^n-1, plus underflow), so that any two of the implementations are within twice that.", "quantifier": "every processor, length, address and content of the slices, in float32 and float64", "why_tests_cant": "the order of the additions depends on processor, length and address; a dropped or doubled element can occur for one residue of the length only", "anchors": ["mat/internal/matfuncs/sum_amd64.s", "mat/internal/matfuncs/dotprod_amd64.s", "mat/internal/matfuncs/sum_amd64.go:Sum32", "mat/internal/matfuncs/dotprod_amd64.go:DotProd32", "mat/internal/matfuncs/sum_purego.go:sum", "mat/internal/matfuncs/dotprod_purego.go:dotProd"]}
{"id": "C63", "title": "Exponential and logarithm of float32 matrices on amd64 are accurate at every position", "statement": "On amd64, Exp and Log of float32 data give, at every position of slices of every length and on every processor, the exponential and logarithm of the element up to a stated relative error, with the usual special values: NaN for NaN, +Inf for +Inf and on overflow, -Inf for the logarithm of zero; the result for an element does not depend on its position or on the length of the slice, and no memory outside the result is touched.", "quantifier": "every processor, length, address, position, and every bit pattern of the elements (NaN, infinities, zeros and subnormal numbers included)", "why_tests_cant": "the error of the polynomial kernels must be bounded for all 2^32 bit patterns, and where the vectors end depends on processor and length", "anchors": ["mat/internal/matfuncs/exp_amd64.s", "mat/internal/matfuncs/log_amd64.s", "mat/internal/matfuncs/exp_amd64.go:Exp32", "mat/internal/matfuncs/log_amd64.go:Log32", "mat/internal/matfuncs/exp.go:exp", "mat/dense.go:Exp", "mat/dense.go:Log"]}
{"id": "C64", "title": "Matrix products on amd64 compute each entry from its row and its column", "statement": "On amd64, Mul, MulT (transposed matrix times vector) and CumSum of float32 and float64 matrices of every size leave, in every entry of the result, a sum of exactly the products of its row and column (of the elements up to it), each added once, whichever kernel the processor selects and wherever the slices lie; they neither fault nor read or write outside their slices nor change their operands; a finite entry is within (1+u)^n-1 of the exact sum relative to the sum of absolute values, plus underflow, and it is finite unless that sum comes close to the largest finite value; with several columns the result is that of the Go code without assembly, bit for bit.", "quantifier": "every processor, size, address, content of the operands, registers and flags", "why_tests_cant": "the kernels treat alignment, blocks of four, two and one row, and rests of every length in different code, so each combination of sizes and addresses takes its own path", "anchors": ["mat/dense.go:Mul", "mat/dense.go:MulT", "mat/dense.go:CumSum", "mat/internal/f32/gonum.go:MatrixMul", "mat/internal/f64/gonum.go:MatrixMul", "mat/internal/f32/asm32/axpyunitary_amd64.s", "mat/internal/f64/asm64/axpyunitary_amd64.s", "mat/internal/f32/asm32/axpyunitaryto_amd64.s", "mat/internal/f64/asm64/axpyunitaryto_amd64.s", "mat/internal/f64/asm64/gemvN_amd64.s", "mat/internal/f64/asm64/cumsum_amd64.s"]}
{"id": "C65", "title": "A NaN in the operands reaches the matrix product", "statement": "Every entry of a product that has a NaN among the products of its row and column (a NaN in the row or the column, or zero times infinity) is NaN, for products with any number of columns, so that a training run that produces NaNs cannot go on unnoticed.", "quantifier": "every processor, size, position of the NaN and content of the operands", "why_tests_cant": "where the NaN stands and what it meets decide: it must hold for all contents", "anchors": ["mat/dense.go:Mul", "mat/dense.go:MulT", "mat/internal/f32/gonum.go:MatrixMul", "mat/internal/f64/gonum.go:MatrixMul"]}
{"id": "C66", "title": "Softmax and Sigmoid on amd64 give probabilities, close to the exact ones", "statement": "On amd64, Softmax of any vector of finite numbers (up to 2^30 float32 or 2^59 float64 elements) neither panics nor touches memory outside its operand and result, and gives numbers from 0 to 1, not all of them 0; with up to 2^21 (2^50) elements each is within a relative error of 2^-15 + 2nu (2^-40 + 2nu, u the rounding unit) and an absolute one of 2^-124 (2^-1020) of e^x / sum of e^xj, the outputs add up to 1 with that error, and an input that is larger by 2^-15 (2^-40) gets an output that is not smaller. Sigmoid gives numbers from 0 to 1 within 2^-20 (2^-48) relatively and 2^-125 (2^-1020) absolutely of 1 / (1 + e^-x).", "quantifier": "every processor, length, address and finite content of the vector", "why_tests_cant": "the exponential comes from a vector kernel for whole vectors and from a scalar function for the rest, the sum is taken in an order that depends on length, address and processor, and differences may overflow; it must hold for all contents", "anchors": ["mat/dense.go:Softmax", "mat/dense.go:Sigmoid", "mat/dense.go:SubScalar", "mat/dense.go:ProdScalarInPlace", "mat/internal/matfuncs/exp_amd64.go:Exp32", "mat/internal/matfuncs/exp_amd64.s", "mat/internal/matfuncs/sum_amd64.s"]}
{"id": "C67", "title": "A NaN given to Softmax or Sigmoid is visible in the result", "statement": "If an element of the vector is NaN, Sigmoid gives NaN for it and Softmax gives at least one NaN, so that a model whose scores are NaN does not return plausible probabilities.", "quantifier": "every processor, length, position of the NaN and content of the other elements", "why_tests_cant": "the result depends on the position of the NaN relative to the blocks of the kernel", "anchors": ["mat/dense.go:Softmax", "mat/dense.go:Sigmoid", "mat/dense.go:max", "mat/internal/matfuncs/exp_amd64.go:Exp32"]}
{"id": "C68", "title": "Training with finite gradients keeps the weights finite, bounded and able to move, in floating point", "statement": "In float32 and float64 with every rounding: for every sequence of gradients whose squares are in range (up to 2^62 in float32, 2^510 in float64; for AdaGrad 2^48, 2^480) every update by Adam, AdamW, RAdam, RMSProp, AdaGrad and SGD (plain, momentum, Nesterov) succeeds, no weight ever becomes infinite or NaN, weights that start within B stay within 2B for ever (B being a few times the largest step over the rounding unit), and one update moves a weight by at most the rate times a constant that depends on the decay factors only (times the size of the gradients for SGD). A larger but finite gradient may disturb one update, but the weight can still be trained afterwards.", "quantifier": "every shape, initial weight, history of gradients of any length, rate at each step and admissible setting", "why_tests_cant": "histories are unbounded; overflow, underflow and cancellation show only at particular magnitudes", "anchors": ["optimizers/adam/adam.go:OptimizeParams", "optimizers/radam/radam.go:OptimizeParams", "optimizers/rmsprop/rmsprop.go:OptimizeParams", "optimizers/adagrad/adagrad.go:OptimizeParams", "optimizers/sgd/sgd.go:OptimizeParams"]}
{"id": "C69", "title": "Drawing a normally distributed number always ends, never panics and returns a finite number of moderate size", "statement": "A call for a normally distributed number ends from every state of the generator, never panics, takes at least one word from the source and does not depend on what the source would deliver afterwards. What it returns is finite and at most 14.25 in absolute value, and a number with mean and standard deviation is that number times the deviation plus the mean up to rounding, unless two consecutive words of the source have 53 zero bits each, in which case the result can be infinite.", "quantifier": "every state of the generator, every sequence of 64-bit words, every mean and standard deviation up to 2^960", "why_tests_cant": "the loop has no bound, and the words that make the result infinite occur with probability about 2^-113", "anchors": ["mat/internal/rand/normal.go:NormFloat64", "mat/rand/lockedrand.go:NormFloat64", "mat/rand/normal/normal.go:Next"]}
{"id": "C70", "title": "Normally distributed numbers follow the bell curve", "statement": "The method draws a point under the bell curve: the density of what one attempt returns is proportional to exp(-x^2/2) within 2^-12 up to the beginning of the tail at 3.4426, the tail is entered with the weight it has under the same curve within 2^-12, and within the tail the density is exactly proportional. The program, in float32 and float64, decides each attempt as exact arithmetic would, except within 2^-21 of the curve and relatively 2^-40 in the tail, and returns the chosen place correctly rounded (within 2^-40 in the tail).", "quantifier": "every place x, every 64-bit word, all 128 strips of the tables", "why_tests_cant": "a wrong table entry or a wrong index shifts the density by an amount that only a very large sample could show; rounding must be right for every word", "anchors": ["mat/internal/rand/normal.go:NormFloat64", "mat/internal/rand/normal.go:kn", "mat/internal/rand/normal.go:wn", "mat/internal/rand/normal.go:fn"]}
{"id": "C71", "title": "Normalization layers scale every vector to its size, and return its gradient, in floating point", "statement": "FixNorm, ScaleNorm and RMSNorm, in float32 and float64 and in whatever order the elements are added, return each element divided by the length (root mean square) of the vector plus 1e-10, times the gain, plus the bias, up to a relative error proportional to the number of elements; their backward pass returns the slopes of that function up to such an error, and every gradient is a number. LayerNorm and LayerNormSimple return each deviation from the mean divided by the root of the variance (plus eps, or plus 1e-10 after the root), times the gain, plus the bias, and AdaNorm scale q (1 - q / 10) of that, up to an error proportional to the number of elements and to the largest element over the divisor. LayerNormSimple returns 0 for a vector of equal elements.", "quantifier": "every vector, gain, bias and gradient of the results, every order of the additions", "why_tests_cant": "squares overflow or vanish, and a rounded mean differs from the element, only for some values; the order of the additions depends on the processor and the address of the data", "anchors": ["nn/normalization/fixnorm/fixnorm.go:Forward", "nn/normalization/scalenorm/scalenorm.go:Forward", "nn/normalization/rmsnorm/rmsnorm.go:Forward", "nn/normalization/layernorm/layernorm.go:Forward", "nn/normalization/layernormsimple/layernormsimple.go:Forward", "nn/normalization/adanorm/adanorm.go:Forward", "mat/gradfn/sqrt.go:Backward", "mat/gradfn/divscalar.go:Backward"]}
{"id": "C72", "title": "Losses are accurate numbers, and so are their gradients, in floating point", "statement": "For finite scores CrossEntropy is never NaN and never negative and is within the error of the softmax plus 8 roundings of the largest score of the exact loss; its backward pass never panics and returns the incoming gradient times the probability (minus one for the class), up to such an error. WeightedCrossEntropy and FocalLoss lie between 0 and the cross entropy, Perplexity is at least 1, and their gradients are numbers. MAE and MSE are 0 for equal vectors only. The gradients of MAE are exact, those of MSE and NLL accurate.", "quantifier": "every vector of finite scores, every class, weight, parameter and incoming gradient, every order of the additions and of the gradients, every processor", "why_tests_cant": "probabilities vanish and logarithms are taken of 0 only for some scores; the order of the additions depends on the processor and the address of the data", "anchors": ["losses/losses.go:CrossEntropy", "losses/losses.go:WeightedCrossEntropy", "losses/losses.go:FocalLoss", "losses/losses.go:Perplexity", "losses/losses.go:NLL", "losses/losses.go:MAE", "losses/losses.go:MSE", "ag/operators.go:LogSumExp", "mat/gradfn/log.go:Backward", "mat/gradfn/pow.go:Backward"]}
{"id": "C73", "title": "Recurrent networks stay in range and follow their equations in floating point", "statement": "With finite parameters whose rows cannot overflow, Forward of the simple recurrent network, the GRU and the LSTM returns for every sequence, however long, only finite outputs between -1 and 1 (LSTM with refined gates: at most the largest input, a power of two), gates between 0 and 1, and no LSTM cell beyond 2^24 in float32 (2^53 in float64). Every state follows from the one before by the documented equations, up to a stated number of roundings. A single NaN in a state makes every output of every later step NaN.", "quantifier": "every sequence of inputs of any length, every number of inputs and outputs, all parameters within the bound, every order of the additions in the matrix products with or without fused multiply-add, both precisions, every processor", "why_tests_cant": "errors could build up over arbitrarily long sequences; rounding up could push a state beyond its range after any number of steps; the order of the additions depends on the processor", "anchors": ["nn/recurrent/srn/srn.go:Forward", "nn/recurrent/srn/srn.go:Next", "nn/recurrent/gru/gru.go:Forward", "nn/recurrent/gru/gru.go:Next", "nn/recurrent/lstm/lstm.go:Forward", "nn/recurrent/lstm/lstm.go:Next", "mat/gradfn/affine.go:Forward", "mat/gradfn/reversesubscalar.go:Forward", "mat/dense.go:Sigmoid", "mat/dense.go:Mul"]}
{"id": "C74", "title": "Attention in floating point: weights, accuracy, and what the causal mask hides", "statement": "With finite queries, keys and values whose scores cannot overflow, ScaledDotProductAttention returns weights between 0 and 1 that add up to 1 up to rounding, each within a stated error of the exact softmax of the exact scores over the keys the query may see, and outputs that are finite, at most the largest value up to rounding, and within a stated error of the exactly weighted values; both errors are stated for scores whose rounding error is at most 1/8. With the causal mask the weights of later keys are exactly 0, and the weights and the output of a query do not change by a single bit whatever the later keys and values and the other queries are. A later value that is infinite or NaN, however, makes the outputs of all earlier queries NaN.", "quantifier": "every number of queries and keys, every size of the vectors, all finite inputs within the bound, every order of the additions in the products and sums, with or without fused multiply-add, both precisions, every processor", "why_tests_cant": "the errors depend on all inputs and on the order of the additions, which depends on the processor; that no later input has any influence is a statement about all pairs of inputs", "anchors": ["nn/attention/attention.go:ScaledDotProductAttention", "nn/attention/attention.go:makeCausalMask", "mat/dense.go:Softmax", "mat/dense.go:MulT", "mat/dense.go:Mul", "mat/dense.go:ProdScalar"]}
{"id": "C75", "title": "Gradient clipping in floating point", "statement": "ValueClipper puts every element between minus and plus the bound rounded to the type of the gradient, keeps elements within bit for bit and leaves NaN. NormClipper with the infinity norm or the Euclidean norm multiplies every element of every gradient by min(1, MaxNorm/(norm+1e-7)), with the exact norm of all gradients together, up to a stated number of units of rounding, so that the norm of the result is at most MaxNorm up to that. A NaN never disappears; with the Euclidean norm it switches clipping off for all gradients. An infinite element, or a finite one whose square exceeds the range of the type, makes every finite gradient zero and every infinite one NaN.", "quantifier": "all gradients, any number and size, all bounds, every order of the additions, both precisions", "why_tests_cant": "the errors depend on every element and on the order of the additions, which depends on the processor; overflow only shows for some sizes", "anchors": ["optimizers/gradclipper/clipper.go:ValueClipper", "optimizers/gradclipper/clipper.go:NormClipper", "mat/dense.go:ClipInPlace", "mat/dense.go:Abs", "mat/dense.go:Pow", "mat/dense.go:Max", "mat/dense.go:ProdScalarInPlace"]}
{"id": "C76", "title": "LAMB in floating point", "statement": "In float32 and in float64, whatever the gradients as long as their squares are in range, every LAMB update succeeds. While the weights are at most 2^30 (2^400) and not all so small that their squares vanish, no weight moves by more than 1.5 times the rate times the length of the parameter, and the parameter moves by the rate times its length along the direction of Adam plus lambda times the weights, each element accurate to a stated number of units of rounding. A weight whose square exceeds the range of the type makes the next update turn finite weights into infinities. A parameter that carries the state of another optimizer is reported as an error.", "quantifier": "all histories of gradients, all numbers of updates, all settings in stated ranges, all shapes up to a stated size, every order of the additions, both precisions", "why_tests_cant": "the rounding errors depend on the whole history and on the order of the additions, which depends on the processor", "anchors": ["optimizers/lamb/lamb.go:calculateParamUpdate", "optimizers/lamb/lamb.go:norm", "optimizers/lamb/lamb.go:OptimizeParams"]}
{"id": "C77", "title": "Parameters own their values, gradients add up, buffers take none", "statement": "NewParam of any matrix gives a parameter with its dimensions, precision and elements that requires gradients and has neither gradients nor optimizer state; until a call is made on the parameter itself, nothing the program does to the original or to anything else changes its value, its gradient, its flag or its state. Its gradient is at any time the sum of the gradients given to it since it was last zeroed, each as it was when it was given and in the precision of the parameter, and a gradient of other dimensions is refused. A matrix and its gradient keep one precision. Its elements, its flag and its optimizer state are those last given to it. Grad gives the gradient itself, which goes on accumulating until it is zeroed; ZeroGrad changes no elements. ReplaceValue clears the optimizer state and leaves the parameter with a value of its own that requires gradients as before. A buffer takes no gradients.", "quantifier": "all histories of calls on matrices, parameters and buffers, before and after, all shapes and elements", "why_tests_cant": "aliasing shows only after particular sequences of calls on other objects", "anchors": ["nn/param.go:NewParam", "nn/param.go:WithGrad", "nn/param.go:ReplaceValue", "nn/buffer.go:Buf", "ag/gradientblocker.go:StopGrad", "mat/dense_grad.go:AccGrad", "mat/dense_grad.go:ZeroGrad", "mat/dense.go:Clone"]}
