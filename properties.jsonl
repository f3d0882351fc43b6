{"id": "C01", "title": "Qubit supports form a join semilattice", "statement": "Creating a QubitSupport accepts exactly tuples whose entries are all non-negative integers, or the single marker \"global\"; adding two supports yields exactly the union of the qubits they name, each once, whatever the order of the operands or the grouping of a longer sum; adding a support to itself or to the empty support changes nothing; adding a global support to a local one yields all qubits 0..max; two supports are disjoint exactly when neither is global and they share no qubit. Exceptions (each proved with a witness): with a global operand the grouping matters: (global + {2}) + {5} omits qubits 3 and 4.", "quantifier": "all tuples of integers, all pairs and triples of supports, and all iteration orders of Python sets", "why_tests_cant": "Unit tests compare a few small tuples, and on small ints Python's set order happens to be sorted; the law is over all tuples and all set iteration orders.", "anchors": ["qadence/qubit_support.py:QubitSupport.__new__", "qadence/qubit_support.py:QubitSupport.__add__", "qadence/qubit_support.py:QubitSupport.is_disjoint"]}
{"id": "C02", "title": "Composite blocks report exactly the qubits of their leaves, and kron never overlaps", "statement": "For any nesting of chain, kron, add and scale, block.qubit_support contains exactly the qubits of the leaf gates (each once), n_qubits is one more than the largest of them; kron(...) succeeds exactly when it is given at least one block, and the blocks' supports are pairwise disjoint and not global. Exceptions (each proved with a witness): n_qubits is wrong for some leaf gates (T, TDagger, U, CPHASE and other controlled rotations, Toffoli, matrix blocks), which report their number of qubits, or 1.", "quantifier": "all finite trees of blocks, all lists of blocks given to kron", "why_tests_cant": "The set of trees is infinite; tests fix a handful of shapes.", "anchors": ["qadence/blocks/composite.py:CompositeBlock.qubit_support", "qadence/blocks/composite.py:CompositeBlock.n_qubits", "qadence/blocks/composite.py:KronBlock.__init__", "qadence/blocks/utils.py:kron"]}
{"id": "C03", "title": "block_to_tensor computes the textbook operator", "statement": "For a block built from the standard gates, block_to_tensor(block) is the matrix whose entry (i,j) is determined by the textbook rule: a gate acts on its own qubits as its defining matrix and leaves the bits of every other qubit untouched, chain multiplies in order of application, kron multiplies, add sums, scale multiplies by the scalar. Qubit 0 is the most significant bit. Exceptions (each proved with a witness): Projector with ket different from bra, N in state 0, TDagger, and matrix blocks on unordered or non-consecutive qubits give another matrix.", "quantifier": "all trees of blocks over any number of qubits, all parameter values, all matrix entries", "why_tests_cant": "Tests compare against pyqtorch on a few qubits; index arithmetic in the identity filling is wrong or right for every arrangement of support, which sampling does not settle.", "anchors": ["qadence/blocks/block_to_tensor.py:_block_to_tensor_embedded", "qadence/blocks/block_to_tensor.py:_fill_identities", "qadence/blocks/block_to_tensor.py:block_to_tensor"]}
{"id": "C04", "title": "dagger() is the adjoint", "statement": "For every block, the operator of block.dagger() is the conjugate transpose of the operator of block, and taking dagger twice gives back a block with the same operator. Exceptions (each proved with a witness): U with different outer angles, non-Hermitian matrix blocks and generators, and projectors |k><b| with k different from b.", "quantifier": "all trees of blocks, all parameter values", "why_tests_cant": "dagger recurses over trees and negates symbolic parameters; tests check single gates at a few angles.", "anchors": ["qadence/blocks/abstract.py:AbstractBlock.dagger", "qadence/blocks/composite.py:CompositeBlock.dagger", "qadence/blocks/primitive.py:ParametricBlock.dagger", "qadence/blocks/primitive.py:ScaleBlock.dagger", "qadence/operations/primitive.py:S.dagger", "qadence/operations/primitive.py:T.dagger"]}
{"id": "C05", "title": "Python operators on blocks mean the algebraic operations", "statement": "a + b, a - b, a * b (a first), a @ b (disjoint supports), c * a, a / c, -a, a ** k and the in-place versions build blocks whose operators are the sum, difference, composition, tensor product, scalar multiple, quotient, negation and k-th power of the operators of the operands. Exceptions (each proved with a witness): Zero() ** 0 is the zero operator.", "quantifier": "all blocks a and b, all scalars c, all exponents k", "why_tests_cant": "In-place forms unroll nested composites and the scalar collapses nested scalings; the laws must hold for every shape of operand.", "anchors": ["qadence/blocks/abstract.py:AbstractBlock.__mul__", "qadence/blocks/abstract.py:AbstractBlock.__imul__", "qadence/blocks/abstract.py:AbstractBlock.__iadd__", "qadence/blocks/abstract.py:AbstractBlock.__isub__", "qadence/blocks/abstract.py:AbstractBlock.__pow__", "qadence/blocks/primitive.py:ScaleBlock.__pow__"]}
{"id": "C06", "title": "flatten keeps the operator and removes nesting", "statement": "transpile.flatten(block) has the same operator, the same leaf gates in the same order, and no chain directly inside a chain (or kron in kron, add in add) for the requested types.", "quantifier": "all trees of blocks, all sets of types to flatten", "why_tests_cant": "Nesting depth is unbounded.", "anchors": ["qadence/transpile/flatten.py:_flat_blocks", "qadence/transpile/flatten.py:flatten"]}
{"id": "C07", "title": "scale_primitive_blocks_only keeps the operator and pushes scalars to the leaves", "statement": "scale_primitive_blocks_only(block) has the same operator as block and contains scale factors only around primitive gates. Exceptions (each proved with a witness): an empty chain swallows the factor.", "quantifier": "all trees of blocks with arbitrarily nested scalings, all scalars", "why_tests_cant": "Scalars must be distributed over sums but applied once in products at every depth.", "anchors": ["qadence/transpile/block.py:scale_primitive_blocks_only", "qadence/transpile/block.py:scale_only_first_block"]}
{"id": "C08", "title": "Endianness inversion is an involution that reverses qubits everywhere consistently", "statement": "invert_endianness on blocks renames qubit i to n-1-i and applied twice returns the original; on state vectors and counters it permutes indices by bit reversal and applied twice is the identity; running the inverted block on the inverted state gives the inverted result. Exceptions (each proved with a witness): a HamEvo keeps acting on the original qubits, because its generator is not renamed.", "quantifier": "all blocks, all n, all state vectors and all counters", "why_tests_cant": "Bit reversal for all widths is an inductive fact; tests use 2-4 qubits.", "anchors": ["qadence/transpile/invert.py:invert_endianness", "qadence/transpile/invert.py:reassign"]}
{"id": "C09", "title": "chain_single_qubit_ops keeps the operator", "statement": "Rewriting a chain of krons of one-qubit gates into a kron of chains does not change the operator. Exceptions (each proved with a witness): when the same kron object occurs twice in the chain the operator changes.", "quantifier": "all chains of krons of one-qubit gates, in any order of gates inside each kron", "why_tests_cant": "The rewrite pairs gates by position, so it depends on the order of gates inside every layer.", "anchors": ["qadence/transpile/block.py:chain_single_qubit_ops", "qadence/transpile/block.py:is_chain_of_primitivekrons"]}
{"id": "C10", "title": "fill_identities and validate do not change the operator", "statement": "Padding a block with identities on unused qubits, or re-validating nested blocks, keeps the operator and yields a block acting on every requested qubit. Exceptions (each proved with a witness): fill_identities raises on krons whose parts have gaps, such as kron(CNOT(0,2), X(1)); validate changes blocks with a HamEvo.", "quantifier": "all trees of blocks, all ranges of qubits", "why_tests_cant": "The padding recursion depends on the supports at every level of the tree.", "anchors": ["qadence/transpile/block.py:fill_identities", "qadence/transpile/block.py:validate"]}
{"id": "C11", "title": "set_trainable touches exactly the requested blocks and parameters", "statement": "set_trainable(blocks, value) sets the flag of every parameter of the given blocks and changes nothing else about the block: not the structure, not the values. Exceptions (each proved with a witness): parameters of a block inside a plain ControlBlock are not reached.", "quantifier": "all trees of blocks, both flag values", "why_tests_cant": "Trees are unbounded.", "anchors": ["qadence/transpile/block.py:set_as_variational", "qadence/transpile/block.py:set_as_fixed", "qadence/transpile/block.py:set_trainable"]}
{"id": "C12", "title": "Basis strings and integers are inverse to each other", "statement": "int_to_basis and basis_to_int are mutually inverse for either endianness, for every number of qubits and every k below 2**n; larger k is rejected; nqubits_to_basis lists each of the 2**n strings once, in order; samples_to_integers keeps every count. Exceptions (each proved with a witness): negative integers are not rejected; zero qubits give a one-character string; samples of different lengths can collide and lose counts.", "quantifier": "all n, all 0 <= k < 2**n, all bit strings, both endiannesses", "why_tests_cant": "2**n inputs for every n.", "anchors": ["qadence/utils.py:basis_to_int", "qadence/utils.py:int_to_basis", "qadence/utils.py:nqubits_to_basis", "qadence/utils.py:samples_to_integers"]}
{"id": "C13", "title": "State constructors give the named state, normalised", "statement": "product_state(bits), zero_state, one_state, uniform_state and ghz_state are unit vectors; product_state(bits) has amplitude 1 exactly at index basis_to_int(bits); the block versions prepare the same state from |0...0>; every random draw gives a unit vector; normalize rescales every non-zero vector to unit norm, pmf gives the squared amplitudes and sums to 1, density matrices are Hermitian with unit trace. At least one qubit is required: the empty string raises.", "quantifier": "all bit strings, all numbers of qubits >= 1, all vectors, all random draws", "why_tests_cant": "The dimension grows with n; every index must be right.", "anchors": ["qadence/states.py:_state_from_bitstring", "qadence/states.py:_block_from_bitstring", "qadence/states.py:uniform_state", "qadence/states.py:ghz_state", "qadence/states.py:product_block", "qadence/states.py:ghz_block"]}
{"id": "C14", "title": "Expectation estimated from samples is the empirical mean of the parity", "statement": "empirical_average / pauli_z_expectation return, for each Pauli-Z string, the average over the samples of (-1)^(number of ones on its support); the value lies in [-1,1] when all histograms of the batch have the same total (the first one's total normalises all of them), and is exact when the frequencies equal the Born probabilities.", "quantifier": "all counters, all supports, all batches", "why_tests_cant": "Every histogram over 2**n outcomes.", "anchors": ["qadence/measurements/utils.py:empirical_average", "qadence/measurements/utils.py:pauli_z_expectation", "qadence/measurements/utils.py:get_counts"]}
{"id": "C15", "title": "Tomography rotates each Pauli string to the computational basis and recombines linearly", "statement": "Measuring after the basis-change gates that tomography appends gives, for exact big-endian frequencies, the expectation of each string of X, Y, Z on distinct qubits and of each identity term in the observable, and the terms are recombined with their real coefficients. It fails (refuted, as recorded) for identity factors inside a string, for N, for nested products, for factors inside a string, for repeated letters and for little-endian outcome strings.", "quantifier": "all states, all Pauli strings of any length on distinct qubits, all nested sums and scalings", "why_tests_cant": "All states and all strings of any length.", "anchors": ["qadence/measurements/utils.py:rotate", "qadence/measurements/utils.py:iterate_pauli_decomposition", "qadence/measurements/utils.py:get_qubit_indices_for_op", "qadence/measurements/tomography.py:compute_expectation"]}
{"id": "C16", "title": "Classical-shadow group estimates are unbiased and exact on eigenstates", "statement": "For a Pauli string the k-th group estimate is the mean, over the rows among rows k*floor(N/K) to (k+1)*floor(N/K) whose random bases measure every letter of the string, of the product of the outcomes, and 0 if there is none; its expectation over the shots is the expectation value of the string when some row measures it, and over random bases as well it is that value times 1-(1-3^-w)^floor(N/K); on an eigenstate every possible outcome gives the eigenvalue, so a sum of such strings is returned exactly; the combined value is a median of the K groups; rows beyond K*floor(N/K) are unused; the sample budget is 34*3^w/accuracy^2 rows and 2 ln(2M/confidence) groups, rounded, for M observables whose largest number of non-identity letters is w; the mean squared error of a group estimate is (1-v^2)/m for m rows measuring the string, and if every group holds at least 34/accuracy^2 rows measuring each string, all returned values are within the accuracy except with probability at most the confidence parameter. Exceptions: the budget does not provide that many rows per group (its rows are split over the groups, which can even be empty), one-qubit circuits raise, factors not listed in the order of the qubit support are mixed up, little-endian runs measure the wrong bases.", "quantifier": "all normalised states of all registers of two or more qubits, all strings, all N, K, basis rows and outcomes", "why_tests_cant": "Unbiasedness is an identity over all states and all outcome strings.", "anchors": ["qadence/measurements/shadow.py:classical_shadow", "qadence/measurements/shadow.py:estimators", "qadence/measurements/shadow.py:estimations", "qadence/measurements/shadow.py:number_of_samples"]}
{"id": "C17", "title": "Readout MLE returns the closest probability distribution", "statement": "mle_solve(p) returns a vector that is non-negative, sums to one, and is at least as close in Euclidean distance to p as every other probability vector (for p summing to one).", "quantifier": "all real vectors p of any length with sum one, all competing distributions", "why_tests_cant": "Optimality quantifies over a continuum of competitors.", "anchors": ["qadence/mitigations/readout.py:mle_solve"]}
{"id": "C18", "title": "Rounding mitigated probabilities back to counts keeps the number of shots", "statement": "Readout mitigation with MLE returns, for each sample, a counter with positive counts on distinct outcomes whose total is the number of shots, whenever the number of shots is at least m(m+1)/2 for m = 2^n outcomes; the total is the number of shots for any number of shots for which the renormalisation is defined. (With fewer shots the renormalisation can divide zero by zero.)", "quantifier": "all samples, all numbers of qubits and shots, all invertible column-stochastic single-qubit confusion matrices", "why_tests_cant": "Rounding effects occur at unsampled values.", "anchors": ["qadence/mitigations/readout.py:renormalize_counts", "qadence/mitigations/readout.py:mitigation_minimization"]}
{"id": "C19", "title": "Zero-noise extrapolation is exact on polynomial noise curves", "statement": "zne(noise_levels, values) returns p(0) whenever the values are those of a polynomial p of degree smaller than the number of distinct noise levels. Exceptions (each proved with a witness): none inside the stated degree; a curve of higher degree is not recovered.", "quantifier": "all sets of distinct noise levels, all polynomials of that degree", "why_tests_cant": "A continuum of curves.", "anchors": ["qadence/mitigations/analog_zne.py:zne"]}
{"id": "C20", "title": "Embedding resolves every parameter, user inputs first", "statement": "The embedding function returns, for every gate parameter, the value of its expression where each symbol takes the value from the inputs if given there, otherwise from the variational parameters; a symbol given nowhere raises KeyError (time symbols default to 1); gates with a constant angle receive that constant, provided the constants of the block have different names (they are named by Python's hash, under which -1 and -2 coincide: two gates RX(-1), RX(-2) receive the same angle); at expression level the dictionary holds the inputs, then the parameters, then each expression's value under its printed name with dots replaced (so parameters 'a.b' and 'a_b' collide).", "quantifier": "all blocks, all expressions, all dictionaries of inputs and params", "why_tests_cant": "All dictionaries and expression sets.", "anchors": ["qadence/blocks/embedding.py:embedding", "qadence/blocks/embedding.py:embedding_fn", "qadence/utils.py:merge_separate_params"]}
{"id": "C21", "title": "The single-gap parameter-shift rule is the exact derivative", "statement": "For an expectation that is a first-order trigonometric polynomial in the gate angle with spectral gap D, psr with any admissible shift equals the analytic derivative. Exceptions (each proved with a witness): gaps are rounded to four decimals before use, so the claim is for gaps on that grid; the default shift divides by zero for gap 8; the JAX engine's fixed gap is wrong for controlled rotations.", "quantifier": "all coefficients, all angles, all gaps and all shifts for which the rule's denominator is not zero", "why_tests_cant": "A continuum of functions and angles.", "anchors": ["qadence/backends/parameter_shift_rules.py:single_gap_psr", "qadence/backends/parameter_shift_rules.py:general_psr"]}
{"id": "C22", "title": "The multi-gap parameter-shift rule is the exact derivative", "statement": "For an expectation that is a trigonometric polynomial with given spectral gaps, the multi-gap rule equals the analytic derivative whenever its linear system is non-singular. Exceptions (each proved with a witness): the rule fails for generators without a gap and for gaps that the rounding to four decimals merges or sets to zero.", "quantifier": "all numbers of gaps, all coefficients, all angles, all shift sets with invertible system", "why_tests_cant": "Any number of gaps.", "anchors": ["qadence/backends/parameter_shift_rules.py:multi_gap_psr"]}
{"id": "C23", "title": "The quantum Fourier transform is the DFT and its inverse undoes it", "statement": "qft(n) with the digital strategy and output swaps has as its operator the unitary DFT matrix of size 2**n on the chosen qubits in the chosen order (reversed order with reverse_in); without the swaps the output bits are reversed; qft(n, inverse=True) undoes it in both orders and is the conjugate transpose. This holds for every n and every list of n distinct qubits; a support of any other length is refused. With the sDAQC strategy and a fully coupled Ising build Hamiltonian on any number of qubits other than four, the circuit (or its inverse) stays, on every state, within (n-1) times the error that the 1e-8 cut-off causes in one layer of the digital circuit, and equals it when the cut-off drops nothing; four qubits and supports other than 0..n-1 (up or down) are refused.", "quantifier": "all n, all matrix entries, all supports, all build Hamiltonians, all input states", "why_tests_cant": "Tests check small n numerically.", "anchors": ["qadence/constructors/qft.py:qft", "qadence/constructors/qft.py:_qft_layer_digital", "qadence/constructors/qft.py:_qft_layer_sDAQC", "qadence/constructors/qft.py:_sqg_gen", "qadence/constructors/qft.py:_tqg_gen"]}
{"id": "C24", "title": "Hardware-efficient ansatz has the documented layout and unique parameters", "statement": "hea(n, depth, operations) contains depth x len(operations) x n rotations, all with distinct parameter names; entanglers connect nearest neighbours, each pair of neighbours exactly once per layer; with periodic boundary the last and first qubit are also connected exactly when n is even and larger than 2 (for odd n the request is silently ignored). Construction fails for a single qubit and for repeated support indices.", "quantifier": "all n >= 2, all depths, all operation lists, both boundary settings", "why_tests_cant": "Counts and uniqueness are inductive in n and depth.", "anchors": ["qadence/constructors/hea.py:_rotations_digital", "qadence/constructors/hea.py:_entanglers_digital", "qadence/constructors/hea.py:hea_digital"]}
{"id": "C25", "title": "Identity-initialised ansatz is the identity", "statement": "identity_initialized_ansatz evaluated at its initial parameter values is the identity operator. The initial values are consistent for up to 11 layers or up to 10 rotations per side; beyond that two parameters can share a name with different values and the ansatz need not be the identity.", "quantifier": "all n, depths, rotation lists, entanglers, boundary settings and random initial values", "why_tests_cant": "Random initial values and unbounded depth.", "anchors": ["qadence/constructors/iia.py:identity_initialized_ansatz", "qadence/constructors/iia.py:_rotations"]}
{"id": "C26", "title": "Feature scaling maps the feature range onto the target range", "statement": "fm_parameter_scaling composes the symbol with the affine map sending feature_range to target_range end to end, so every value in the feature range lands in the target range. Exceptions (each proved with a witness): a scaling factor within 1e-9 of one is dropped.", "quantifier": "all ranges with distinct end points, all values in range", "why_tests_cant": "Continuum of ranges and values.", "anchors": ["qadence/constructors/feature_maps.py:fm_parameter_scaling", "qadence/constructors/feature_maps.py:_set_range"]}
{"id": "C27", "title": "hamiltonian_factory sums exactly the requested terms once", "statement": "The Hamiltonian has one interaction term per edge of the register and one detuning term per qubit with the requested strengths, so its operator is the textbook weighted sum (ZZ, NN, XX+YY, XX+YY+ZZ or the user's function, and N, X, Y or Z on the qubits); it is built exactly when the strengths have the right lengths, the detuning is allowed and no edge is a loop.  Parameter names generated from two different prefixes are distinct for distinct edges and qubits as long as the first index of an edge is at most 10 or all edges run upwards below qubit 112 (beyond that (1,112) and (11,12) collide).  total_magnetization, zz_hamiltonian and ising_hamiltonian are the named sums; create_observable gives shift + scale*H; the Ising configuration agrees with ising_hamiltonian from 3 qubits on (on 2 qubits it drops Z(0)).", "quantifier": "all registers, strengths and interaction types", "why_tests_cant": "Name generation concatenates decimal indices; collisions only appear at large sizes.", "anchors": ["qadence/constructors/hamiltonians.py:hamiltonian_factory", "qadence/constructors/hamiltonians.py:_preprocess_strengths"]}
{"id": "C28", "title": "DAQC produces the target evolution", "statement": "For ZZ or NN target and build Hamiltonians, daqc_transform with the sDAQC strategy returns a block whose operator is exp(-i t_f gen_target), up to a phase error proportional to zero_tol and, if global phases are ignored, a constant phase; it is exact when no slice is cut off and every target interaction is a build interaction. The linear system has exactly one solution for every qubit count except 4, where it is singular and the call raises. Targets the build Hamiltonian cannot make are refused. Exception: the claim needs sets of qubits to iterate in increasing order, which CPython guarantees only below 9 qubits; at 9 qubits a term on qubits 1 and 8 is taken for one on 4 and 7.", "quantifier": "all qubit counts except 4, all couplings, all times, all combinations of ZZ and NN", "why_tests_cant": "All couplings and sizes.", "anchors": ["qadence/constructors/daqc/daqc.py:daqc_transform", "qadence/constructors/daqc/utils.py:_ix_map", "qadence/constructors/daqc/utils.py:_build_matrix_M"]}
{"id": "C29", "title": "NoiseHandler objects always satisfy the composition rules", "statement": "However a NoiseHandler is built and extended, it never mixes digital and analog protocols, has at most one readout and only in last position, has at most one analog protocol, and the numbers of protocols and options agree; a rejected extension leaves the object unchanged; equality means equal protocols and options; _to_dict/_from_dict is a round trip. Exceptions (each proved with a witness): equality compares only the common prefix; the constructor shares the caller's lists, so changing them later breaks the rules; the enumeration class itself is not recognised as a readout protocol.", "quantifier": "all sequences of constructor, append and builder calls, including failing ones", "why_tests_cant": "Arbitrary call histories.", "anchors": ["qadence/noise/protocols.py:NoiseHandler.__init__", "qadence/noise/protocols.py:NoiseHandler.verify_all_protocols", "qadence/noise/protocols.py:NoiseHandler.append", "qadence/noise/protocols.py:NoiseHandler.__eq__"]}
{"id": "C30", "title": "The trainer performs the configured number of epochs and stops on request", "statement": "A training run executes max_iter epochs unless stopped; once a callback requests a stop no further epoch starts; validation runs exactly at multiples of val_every; train_start and train_end callbacks run exactly once, and the stage sequence is well bracketed. Exceptions (each proved with a witness): max_iter + 1 epochs are executed instead of max_iter.", "quantifier": "all max_iter, val_every, batch counts and all callback behaviours", "why_tests_cant": "All stop schedules and interleavings with callbacks.", "anchors": ["qadence/ml_tools/trainer.py:Trainer.fit", "qadence/ml_tools/trainer.py:Trainer._train", "qadence/ml_tools/trainer.py:Trainer._train_epochs", "qadence/ml_tools/train_utils/base_trainer.py:BaseTrainer.callback"]}
{"id": "C31", "title": "Callbacks fire exactly when configured", "statement": "A callback on a given stage fires exactly at the iterations that are positive multiples of called_every for which its condition holds (always at train start and end), and in registration order. Exceptions (each proved with a witness): callbacks at the start of an epoch look at the previous epoch's number.", "quantifier": "all iterations, periods, conditions, callback lists", "why_tests_cant": "All iteration histories.", "anchors": ["qadence/ml_tools/callbacks/callback.py:Callback._should_call", "qadence/ml_tools/callbacks/callback.py:Callback.__call__", "qadence/ml_tools/callbacks/callbackmanager.py:CallbacksManager.run_callbacks"]}
{"id": "C32", "title": "Early stopping triggers exactly after `patience` evaluations without improvement", "statement": "Over any history of metric values, EarlyStopping requests a stop at the first evaluation that completes `patience` consecutive evaluations without a strict improvement over the best value so far; best is the running optimum. Exceptions (each proved with a witness): a mode other than min and max is accepted and stops after patience evaluations.", "quantifier": "all sequences of metric values, both modes, all patience values", "why_tests_cant": "Arbitrary histories.", "anchors": ["qadence/ml_tools/callbacks/callback.py:EarlyStopping.run_callback"]}
{"id": "C33", "title": "Resuming picks the checkpoint with the largest iteration, and a crash between writes never mixes iterations", "statement": "get_latest_checkpoint_name returns the stored checkpoint with the largest iteration number for the device; after any sequence of checkpoint writes with a crash at any point, resuming loads a model and an optimizer of the same iteration. Exceptions (each proved with a witness): a crash between or inside the two writes of a checkpoint makes resuming mix iterations; a single file is taken for any device; a class name containing 'opt' is taken for an optimiser.", "quantifier": "all directory contents, all write sequences and crash points", "why_tests_cant": "Crash points and directory histories.", "anchors": ["qadence/ml_tools/callbacks/saveload.py:get_latest_checkpoint_name", "qadence/ml_tools/callbacks/saveload.py:write_checkpoint", "qadence/ml_tools/callbacks/saveload.py:load_checkpoint"]}
{"id": "C34", "title": "Learning-rate schedulers follow their documented curve", "statement": "Step decay gives lr0*gamma^k after k calls; the cyclic scheduler stays between base_lr and max_lr, is periodic with period 2*step_size and triangular; cosine annealing gives min_lr + (lr0-min_lr)*(1+cos(pi*t/t_max))/2. Exceptions (each proved with a witness): cosine annealing compounds from the second call on and leaves the documented curve.", "quantifier": "all rates, factors, periods and numbers of calls", "why_tests_cant": "All histories of calls.", "anchors": ["qadence/ml_tools/callbacks/callback.py:LRSchedulerStepDecay.run_callback", "qadence/ml_tools/callbacks/callback.py:LRSchedulerCyclic.run_callback", "qadence/ml_tools/callbacks/callback.py:LRSchedulerCosineAnnealing.run_callback"]}
{"id": "C35", "title": "Every pass of the infinite dataset visits every sample once", "statement": "Iterating an InfiniteTensorDataset yields in every consecutive block of len(dataset) samples each sample exactly once, whatever the shuffling order. Exceptions (each proved with a witness): starting a second iterator reshuffles the order of the first; an empty dataset never returns.", "quantifier": "all dataset sizes, permutations and prefixes of the infinite stream", "why_tests_cant": "An infinite stream.", "anchors": ["qadence/ml_tools/data.py:InfiniteTensorDataset.__iter__"]}
{"id": "C36", "title": "get_parameters / set_parameters round trip", "statement": "set_parameters(module, theta) followed by get_parameters returns theta when theta has the right length; set_parameters(m, get_parameters(m)) changes nothing; parameters that do not require grad are never touched. Exceptions (each proved with a witness): a too short vector fails after overwriting earlier parameters; surplus entries are ignored.", "quantifier": "all modules with any number and shapes of parameters", "why_tests_cant": "Any list of shapes.", "anchors": ["qadence/ml_tools/parameters.py:get_parameters", "qadence/ml_tools/parameters.py:set_parameters", "qadence/ml_tools/parameters.py:num_parameters"]}
{"id": "C37", "title": "Support arrays partition the qubits", "statement": "When a feature map or ansatz splits its qubits between features, every qubit is assigned to exactly one feature, in order, with sizes differing by at most one. Exceptions (each proved with a witness): get_fm_qubits gives the features equal parts and leaves out the last qubits, as many as the remainder, when the number of features does not divide the number of qubits.", "quantifier": "all qubit counts and numbers of features", "why_tests_cant": "All n and k.", "anchors": ["qadence/ml_tools/constructors.py:_create_support_arrays", "qadence/constructors/utils.py:get_fm_qubits"]}
{"id": "C38", "title": "Register rescaling scales every distance, and min_distance is the smallest one", "statement": "rescale_coords(s) multiplies all pairwise distances by s; min_distance is a lower bound attained by a pair; all_node_pairs lists each unordered pair once; a register built with a spacing has that smallest distance; a register serialised with _to_dict/_from_dict has the same coordinates when its smallest distance is one or zero, and is otherwise divided by its smallest distance.", "quantifier": "all finite sets of coordinates, all positive scale factors", "why_tests_cant": "Continuum of geometries.", "anchors": ["qadence/register.py:Register.rescale_coords", "qadence/register.py:Register.distances", "qadence/register.py:Register.min_distance", "qadence/register.py:Register.all_node_pairs", "qadence/register.py:Register._from_dict"]}
{"id": "C39", "title": "Divergences satisfy their defining laws", "statement": "js_divergence is symmetric, non-negative, bounded by ln 2 (attained by disjoint counters) and zero exactly for equal frequencies; norm_difference is a metric on counters that list the same outcomes in the same order (in general it ignores which outcome a count belongs to).", "quantifier": "all pairs of counters", "why_tests_cant": "All histograms.", "anchors": ["qadence/divergences.py:js_divergence", "qadence/divergences.py:norm_difference", "qadence/divergences.py:shannon_entropy"]}
{"id": "C40", "title": "Overlap estimators compute the squared overlap", "statement": "The exact, compute-uncompute, swap-test and Hadamard-test methods of Overlap all return |<bra|ket>|^2 from the wavefunctions, hence agree with each other; from histograms of shots they return the corresponding shares of shots, and the same |<bra|ket>|^2 when the frequencies are the Born probabilities; with one feature each, entry (i, j) of the result is the overlap of bra row i with ket row j. (Exceptions, proved: a feature name shared by bra and ket is evaluated at the bra's values only by the single-circuit methods; a lone T, U or CPHASE circuit makes the Hadamard test raise KeyError.)", "quantifier": "all bra and ket circuits of gates on any number of qubits (no Hamiltonian evolution in the two tests that move qubits), all parameter values, all histograms, all batch sizes", "why_tests_cant": "All states, circuits and batches.", "anchors": ["qadence/overlap.py:Overlap", "qadence/overlap.py:overlap_exact", "qadence/overlap.py:overlap_swap_test", "qadence/overlap.py:overlap_hadamard_test", "qadence/overlap.py:overlap_compute_uncompute", "qadence/overlap.py:overlap_jensen_shannon"]}
{"id": "C41", "title": "Pauli exponentials and Trotter formulas decompose to the same evolution", "statement": "decompose_pauli_exp([(P, c)], t) has operator exp(-i t c P) for every X/Y/Z string P on a run of neighbouring qubits and every real c and t; a list of terms gives the ordered product, and lie_trotter_suzuki builds the first-order, symmetric second-order and fourth-order product formulas, all exact for commuting terms; HamEvo.digital_decomposition is exact for a generator the library recognises as commuting. Exceptions (each shown): qubits inside the string that carry no X or Y (gaps, I, N, the content of a one-element kron) get a Z; the higher orders run terms with an odd number of Y backwards in their second half; digital_decomposition ignores the requested order for non-commuting generators because it discards the result of the commutation check.", "quantifier": "all Pauli strings on any set of qubits, all times", "why_tests_cant": "Strings of any length and gaps.", "anchors": ["qadence/decompose.py:decompose_pauli_exp", "qadence/decompose.py:change_to_z_basis", "qadence/decompose.py:lie_trotter_suzuki", "qadence/operations/ham_evo.py:HamEvo.digital_decomposition"]}
{"id": "C42", "title": "Addressing patterns respect device limits", "statement": "With constrained weights, the local amplitude/detuning of each addressed qubit stays within the local limit and the total within the global limit; weights lie in [0,1], inside the limits the requested values are delivered unchanged, and a pattern is rejected exactly for numeric weights outside [0,1] or an empty register (weights naming non-existing qubits are silently dropped).", "quantifier": "all weights, amplitudes, detunings and registers", "why_tests_cant": "A continuum of values, including the boundary ones.", "anchors": ["qadence/analog/addressing.py:AddressingPattern"]}
{"id": "C43", "title": "Analog blocks keep consistent durations and supports", "statement": "The duration of an analog chain is the sum of the durations of its parts; an analog kron is accepted exactly if its parts have equal durations (up to numpy.isclose) and disjoint, non-global supports, and its duration is that common value.", "quantifier": "all trees of analog blocks", "why_tests_cant": "Unbounded trees.", "anchors": ["qadence/blocks/analog.py:AnalogChain", "qadence/blocks/analog.py:AnalogKron"]}
{"id": "C44", "title": "Block serialization round trips", "statement": "Deserialising the serialised form of a block built from X, Y, Z, I, H, S, T and their daggers, SWAP, RX, RY, RZ, CNOT, CZ, scalings, chain, kron and add gives a block with the same structure, supports, noise, parameter expressions, values and uuids, provided every parameter expression is free of bare constants (pi), exponent notation and names outside [a-zA-Z0-9_.]; the outermost tag and the tags of composite blocks are kept, other inner tags are lost. A tree containing any other class raises on deserialisation. Noise-free blocks also survive a JSON file; noisy ones do not. A circuit round trips when its register does.", "quantifier": "all trees of blocks", "why_tests_cant": "Unbounded trees.", "anchors": ["qadence/blocks/composite.py:CompositeBlock._to_dict", "qadence/blocks/composite.py:CompositeBlock._from_dict", "qadence/blocks/primitive.py:ControlBlock._from_dict", "qadence/serialization.py:deserialize"]}
{"id": "C45", "title": "Bitstring counters are batched, merged and converted without losing samples", "statement": "count_bitstrings returns a counter whose total is the number of samples and whose keys are exactly the observed bitstrings; conversion of batched parameters to a list of dictionaries keeps every value in its batch position, broadcasting singletons. Exceptions (each proved with a witness): sizes that do not match are accepted and every dictionary then gets the whole tensor; values that are not tensors disappear.", "quantifier": "all sample tensors, all batch sizes", "why_tests_cant": "All samples.", "anchors": ["qadence/backends/utils.py:count_bitstrings", "qadence/backends/utils.py:to_list_of_dicts", "qadence/backends/utils.py:infer_batchsize"]}
{"id": "C46", "title": "Waveform construction never exceeds the device's maximal amplitude and delivers the requested area", "statement": "SquareWaveform.from_area gives a duration and amplitude with amplitude at most the device maximum and duration a multiple of the clock period (or the minimal duration), whose product is the requested area up to the resolution: at most half a clock period at full amplitude too small and a tenth of the maximal amplitude too large; from_duration rounds the duration to the clock and keeps a non-negative amplitude.", "quantifier": "all areas and device limits", "why_tests_cant": "Rounding at arbitrary reals.", "anchors": ["qadence/backends/pulser/waveforms.py:SquareWaveform.from_area", "qadence/backends/pulser/waveforms.py:SquareWaveform.from_duration"]}
{"id": "C47", "title": "Pauli-Hamiltonian commutation check is sound", "statement": "block_is_commuting_hamiltonian returns True exactly when no qubit meets two different kinds of Pauli operator (and then all sub-blocks, in particular all terms of the expansion, commute as operators); it raises exactly on blocks that are not chain-free Pauli expressions. It is not complete: X(0)+I(0) commutes but is reported as non-commuting. block_is_qubit_hamiltonian accepts exactly the expressions built from X, Y, Z, I, N.", "quantifier": "all sums of Pauli strings", "why_tests_cant": "All pairs of strings of any length.", "anchors": ["qadence/blocks/utils.py:_check_commutation", "qadence/blocks/utils.py:block_is_commuting_hamiltonian", "qadence/blocks/utils.py:block_is_qubit_hamiltonian"]}
{"id": "C48", "title": "unroll_block_with_scaling is the Pauli expansion", "statement": "unroll_block_with_scaling(block) returns a list of (term, coefficient) pairs whose weighted sum of operators equals the operator of the block; no returned term is itself a sum, and none is a scaling unless a ScaleBlock directly wraps another ScaleBlock.", "quantifier": "all nested sums and scalings of Pauli strings", "why_tests_cant": "Unbounded nesting.", "anchors": ["qadence/blocks/utils.py:unroll_block_with_scaling"]}
{"id": "C49", "title": "Circuits of gates preserve the norm and dagger() undoes them", "statement": "A block built from gates (standard gates, rotations, swaps, controlled gates, evolutions under a self-adjoint generator, unitary matrix blocks, sequences and Kronecker products) preserves every inner product, so running it on a normalised state gives probabilities summing to 1; running b then b.dagger() (or the reverse) is the identity wherever dagger() is the adjoint; self-adjoint observables have real expectation values.", "quantifier": "all blocks, all parameter values, all states, all numbers of qubits", "why_tests_cant": "All circuits and all states.", "anchors": ["qadence/blocks/abstract.py:AbstractBlock.dagger", "qadence/operations/ham_evo.py:HamEvo", "qadence/blocks/composite.py:ChainBlock"]}
{"id": "C50", "title": "Only texts of the expression grammar reach eval", "statement": "A text is accepted by the check that precedes evaluation of a stored expression exactly when it is a (nested) function call over integers, quoted numbers or words and keyword arguments, with optional white space between tokens; each accepted text has one reading, contains no operator, attribute access, subscript or bare name outside quotes, and calls only names beginning with a letter. (Which functions may be called is not restricted: a built-in such as open passes.)", "quantifier": "all texts, of any length and nesting", "why_tests_cant": "All strings; a security property quantifies over every hostile input.", "anchors": ["qadence/serialization.py:parse_expr_fn", "qadence/serialization.py:_parser_fn", "qadence/serialization.py:ExpressionSerialization"]}
{"id": "C51", "title": "The default simulator runs the program that was written", "statement": "Compiling a digital block for the default (pyqtorch) backend - with the default passes, with or without single-qubit merging - succeeds and yields a native program whose operator, for every value of the parameters, is the operator of the block; the same holds for observables, and the scale-factor expressions (sums and products of any length, powers and the supported functions) keep their value when translated. Required: supported gates, constant generators, and, when values are passed per expression (the default differentiation mode), scale factors that are numbers on parameter-free gates or real expressions whose names sympy does not reserve and whose bare numbers on parametric gates are non-negative. Outside this the code deviates: N(q,'0') is simulated as |1><1|, TDagger is not supported, an imaginary factor times a parameter is looked up as a value named 'I', a parameter named 'E' or 'pi' is replaced by the constant, a negative number in front of a parametric gate is misread, and a time-dependent generator switches the parameter mode half-way through the circuit.", "quantifier": "all blocks, parameter values, pass configurations and scale expressions", "why_tests_cant": "All circuits and parameter values; tests compare a handful of circuits.", "anchors": ["qadence/backends/pyqtorch/convert_ops.py:convert_block", "qadence/backends/pyqtorch/convert_ops.py:sympy_to_pyq", "qadence/backends/pyqtorch/convert_ops.py:extract_parameter", "qadence/backends/pyqtorch/config.py:default_passes", "qadence/backends/pyqtorch/backend.py:Backend.circuit", "qadence/backends/pyqtorch/backend.py:Backend.observable"]}
{"id": "C52", "title": "Running, measuring and sampling on the default simulator", "statement": "For a circuit the simulator compiles faithfully and any batch of parameter values and initial states whose sizes broadcast, run returns one row per batch entry: the circuit's operator at that entry's parameter values applied to that entry's initial state (|0...0> when none is given), with bit-reversed amplitudes for little endianness. expectation returns the table of real parts of <psi_k|O_j|psi_k> (same values for both endiannesses on two or more qubits), the batched and the looped evaluation agree, and sample draws each counter from the Born probabilities of its row, with reversed bitstrings for little endianness. Exceptions: on one qubit with little endianness the batched expectation truncates or permutes the batch; a given initial state is always read as big-endian; a state in the simulator's own layout is refused; and looped expectation with separate parameter dictionaries drops rows when the observables have no parameters.", "quantifier": "all numbers of qubits, circuits, observables, batch sizes, parameter values, initial states, and both endiannesses", "why_tests_cant": "the row/column/bit-order bookkeeping must be right for every qubit number and batch shape; tests use a few symmetric states", "anchors": ["qadence/backends/pyqtorch/backend.py:Backend.run", "qadence/backends/pyqtorch/backend.py:Backend._batched_expectation", "qadence/backends/pyqtorch/backend.py:Backend._looped_expectation", "qadence/backends/pyqtorch/backend.py:Backend.sample", "qadence/backends/utils.py:pyqify", "qadence/backends/utils.py:unpyqify", "qadence/backends/utils.py:validate_state", "qadence/backends/utils.py:infer_batchsize", "qadence/backends/utils.py:to_list_of_dicts", "qadence/transpile/invert.py:invert_endianness"]}
{"id": "C53", "title": "Analog blocks become the evolution under the device's Hamiltonian", "statement": "With device specifications in the register, every AnalogInteraction of duration d acts as exp(-i H d/1000) with H the interaction (sum over pairs of C6/R^6 n n, or C3/R^3 (XX + YY)) plus, unless disabled, the addressing pattern; every analog rotation acts as the same with the drive omega/2 (cos(phi) X - sin(phi) Y) - delta n on its qubits added. Chains compose, digital blocks and circuits without device are unchanged, equal pulses add their durations, norms are preserved, and without interaction AnalogRX, AnalogRY and AnalogRZ turn each driven qubit by RX, RY and PHASE. Exceptions (each proved with a witness): drives put in parallel with kron are applied one after the other, each with the full interaction; rotations in a nested kron are dropped; a kron of interactions only, and a kron of a digital and an analog block, can be built but not translated.", "quantifier": "all registers, devices, addressing patterns, parameter values, trees of analog and digital blocks", "why_tests_cant": "the Hamiltonian depends on every pair distance and parameter; tests compare a few registers at a few values numerically", "anchors": ["qadence/analog/parse_analog.py:add_background_hamiltonian", "qadence/analog/hamiltonian_terms.py:rydberg_interaction_hamiltonian", "qadence/analog/hamiltonian_terms.py:rydberg_drive_hamiltonian", "qadence/analog/hamiltonian_terms.py:rydberg_pattern_hamiltonian", "qadence/operations/analog.py:AnalogRot", "qadence/operations/analog.py:AnalogRX", "qadence/transpile/apply_fn.py:apply_fn_to_blocks"]}
{"id": "C54", "title": "Gradients with the parameter-shift engine are exact for whole circuits", "statement": "With diff_mode gpsr, for a circuit of gates, controlled rotations, U gates, fixed scalings and time evolutions under fixed generators, in which every differentiated gate parameter occurs once, and observables without differentiated parameters: the backward pass returns exactly one number per differentiated gate parameter, that number is the partial derivative of the weighted sum of expectation values, and combined with the derivatives of the gate parameters it is the total derivative with respect to the user's parameters. For circuits of gates with the default options the gradient always exists. Applying the rules to the rules gives the iterated partial derivatives, to any order. Exceptions (each proved with a witness): a block object used twice, a parameter that scales a gate, and a parameter inside the generator of an evolution give wrong gradients; the factor of a scaled composite gets none; a scaled CZ makes construction fail.", "quantifier": "all circuits, observables, weights, initial states, parameter values, differentiable dependences of the gate parameters on a user's parameter, orders of differentiation", "why_tests_cant": "numerical comparison with autograd at a few points and a few circuits cannot exclude a wrong rule for another arrangement of gates or a missing parameter", "anchors": ["qadence/engines/torch/differentiable_expectation.py:PSRExpectation", "qadence/engines/torch/differentiable_expectation.py:construct_rules", "qadence/blocks/utils.py:uuid_to_block", "qadence/blocks/utils.py:uuid_to_eigen", "qadence/backends/parameter_shift_rules.py:general_psr"]}
{"id": "C55", "title": "The alternating layer ansatz entangles the neighbours within blocks whose cuts alternate", "statement": "The digital alternating layer ansatz for n qubits, blocks of m qubits and a depth is a chain of depth layers; each applies every operation of the list to every qubit of the support, in order, and then exactly one entangling gate to each pair of neighbouring qubits in one block of m neighbours, where the cuts between blocks start at the first qubit in layers 0, 2, ... and are moved by half a block in layers 1, 3, ...; no two gates share a parameter; and it is constructed exactly when m is at least 2, the qubits of the support are distinct and there are enough of them. Exceptions: with two layers or more a single block of two, three or four qubits is rejected, and two qubits are rejected for every m above 2, because a group of gates would be empty.", "quantifier": "all numbers of qubits, block sizes, depths, supports, operation lists, entanglers and parameter prefixes", "why_tests_cant": "The tests construct the ansatz for a few sizes; which pairs are linked in which layer depends on the arithmetic of n, m and the layer, for every combination.", "anchors": ["qadence/constructors/ala.py:ala", "qadence/constructors/ala.py:ala_digital", "qadence/constructors/ala.py:_entanglers_ala_block_digital", "qadence/constructors/ala.py:_rotations_digital", "qadence/constructors/ala.py:_entangler"]}
{"id": "C56", "title": "digitalize turns a circuit into gates without changing it when the terms commute", "statement": "Applied to any block, digitalize leaves no Hamiltonian evolution and no arbitrary rotation U in its chains, krons and sums; a block without them is returned as it is; if every generator is a sum of real multiples of Pauli strings on runs of neighbouring qubits, the result exists for every nesting, uses no other qubits, and its operator is that of the block with each evolution replaced by the product of the evolutions under its terms, and is the operator of the block itself when the terms commute. Exceptions: blocks inside a scale factor or a control are not looked at; and next to an evolution under a string with a gap, an operation on the qubit in the gap makes the conversion raise.", "quantifier": "all nested blocks, generators, parameter values and approximation orders", "why_tests_cant": "The conversion recurses over arbitrarily nested composites; a test compares a few circuits at a few parameter values.", "anchors": ["qadence/transpile/digitalize.py:digitalize", "qadence/operations/parametric.py:U.digital_decomposition", "qadence/operations/ham_evo.py:HamEvo.digital_decomposition"]}
{"id": "C57", "title": "AnalogSWAP exchanges two qubits exactly", "statement": "For every pair of distinct qubits and every state of a register of any size, AnalogSWAP with its default duration acts as a SWAP of the two qubits multiplied by -1, so that every measured probability is the one after a SWAP; held for a multiple of that duration it swaps for odd multiples and does nothing for even ones; equal qubits are rejected.", "quantifier": "all pairs of qubits, all states, all multiples of the duration", "why_tests_cant": "The tests compare with SWAP numerically on a few states; that the evolution under this Hamiltonian is exactly a SWAP depends on the exact energies for all states.", "anchors": ["qadence/operations/analog.py:AnalogSWAP", "qadence/operations/ham_evo.py:HamEvo"]}
{"id": "C58", "title": "Zero-noise extrapolation by pulse stretching runs the right stretched programs", "statement": "Mitigating with stretches s_1..s_k runs, for each stretch, the program whose pulses last s times longer at 1/s of the amplitude and detuning, on a register scaled by s, and extrapolates the observable's values to stretch 0. Without noise, the stretched program is the original program up to a weaker interaction between the atoms (divided by s^5, or s^2 for XY coupling); so for atoms that do not interact the mitigated value is the exact one, and any polynomial dependence on the stretch of degree below k is extrapolated exactly. With interacting atoms the scheme is biased even without noise, programs with a free evolution are refused, and pulses inside an AnalogKron are not stretched.", "quantifier": "all nested programs of pulses and digital blocks, registers, pulse parameters, positive stretch factors, observables, devices without addressing pattern, and all simulators", "why_tests_cant": "The effect of a stretch is an identity between exponentials of Hamiltonians over continuous parameters and unbounded program trees; a test checks a few programs at a tolerance, with a noisy simulator.", "anchors": ["qadence/mitigations/analog_zne.py:pulse_experiment", "qadence/mitigations/analog_zne.py:analog_zne", "qadence/transpile/apply_fn.py:apply_fn_to_blocks", "qadence/register.py:Register.rescale_coords"]}
{"id": "C59", "title": "A QuantumModel over any history of calls", "statement": "Whatever sequence of run, sample, expectation, reset_vparams, optimiser steps, set_as_variational and set_as_fixed is called on a model: (1) asking for values (run, sample, expectation without its own noise) never changes a later answer; (2) reset_vparams sets the variational values in the order of vparams and nothing else, and refuses a wrong number of values without changing anything; (3) the parameters that require gradients are exactly the trainable parameters of the circuit and observables, every other one is a constant that keeps its value, and names and initial values never change; (4) set_as_variational / set_as_fixed flag exactly the selected parameters in use; (5) run, sample and expectation hand the backend the value of every gate parameter at the current values, inputs first, in both parameter modes, with the defaults of the model where an argument is missing; (6) a run raises exactly when the inputs are malformed or a parameter that is neither a time nor (the namesake of) a trainable one has no value. Not as one expects: noise passed to one expectation sticks for the later ones; fixing a parameter resets the trained values of all others and turns it into a required input instead of freezing it; the reported inputs are not updated.", "quantifier": "all circuits and observables, parameter objects, backends, histories of calls, inputs", "why_tests_cant": "A property of all call histories on a stateful object; tests make two or three calls.", "anchors": ["qadence/model.py:QuantumModel", "qadence/backend.py:Backend.convert", "qadence/backend.py:Backend.observable"]}
{"id": "C60", "title": "Derivatives of a model with respect to its inputs", "statement": "For a model that treats the rows of a batch independently and a smooth output f, derivative(model, x, (i, j, ...)) returns, for every row, the iterated partial derivative of f: exactly with automatic differentiation, and with finite differences (any number and mixture of indices) the value of that derivative at a point within n times the step of the row, hence with error at most n/6 M E^2 where E bounds the steps and M the derivatives two orders higher; with the default spacing the error is at most n/6 M eps^(2/(n+2)) and the two modes agree to that. Models with several outputs and indices beyond the inputs are refused. Not as one expects: a spacing given by the caller is used only for the first difference of mixed or higher derivatives; no index is refused by one mode and accepted by the other; the sampling variant ignores its spacing and averages copies of one quotient whose step is a random number in [0, 1).", "quantifier": "all smooth functions of any number of inputs, all lists of indices, batches, spacings", "why_tests_cant": "An error bound for every function and every list of indices; tests compare a few polynomials.", "anchors": ["qadence/backends/utils.py:finitediff", "qadence/backends/utils.py:finitediff_sampling", "qadence/ml_tools/models.py:derivative", "qadence/ml_tools/models.py:_torch_derivative", "qadence/ml_tools/models.py:QNN._derivative"]}
{"id": "C61", "title": "The inputs and calls of a QNN", "statement": "A QNN can be built exactly when it has an observable and either a list of as many inputs as there are feature parameters, or no list and at most one feature. For distinct names, column j of an input tensor is the value of the j-th name, nothing else is passed, a one-dimensional tensor is one column, and a tensor of any other width (or without dimensions) is refused without changing the model. Over any history of calls a QNN behaves like a QuantumModel with the same circuit and observables; forward is the expectation of its own observables at these values and the current parameters. Reordering the inputs together with the columns changes no answer. As long as nothing is made variational or fixed, forward on a table of the right width fails exactly when a needed feature is missing among the names. Wrong names pass the constructor; a repeated name drops a column; an observable or mitigation passed to expectation is ignored (findings).", "quantifier": "all circuits, observables, input lists, histories of calls, numbers of columns and rows, both parameter levels where stated", "why_tests_cant": "Tests use a few fixed input lists and widths; the claims are about every list, every width and every history of calls.", "anchors": ["qadence/ml_tools/models.py:QNN.__init__", "qadence/ml_tools/models.py:format_to_dict_fn", "qadence/ml_tools/models.py:QNN.forward", "qadence/ml_tools/models.py:QNN.expectation", "qadence/ml_tools/models.py:QNN.run", "qadence/ml_tools/models.py:QNN.sample"]}
{"id": "C62", "title": "Saving and loading a model", "statement": "load_params_from_dict in strict mode succeeds exactly when the keys agree; then, and for any dictionary without strict, every parameter present on both sides gets the saved value and nothing else (keys, order, requires_grad, noise, inputs) changes. After any calls that make nothing variational or fixed, loading the saved parameters into a new model for the same circuit and observables gives back the trained model. A saved model can be loaded again exactly when it has observables and no measurement protocol with ordinary options; the loaded one has the saved observables, parameter objects and noise; a QNN keeps the names and order of its inputs. By default the trained values are not restored; with as_torch the constants become trainable; the differentiation mode of the inputs is lost (findings).", "quantifier": "all circuits, observables, histories of calls, dictionaries of parameters, both values of strict, save_params and as_torch", "why_tests_cant": "Tests save and load a few models without training histories; the claims are about every history before saving and every dictionary.", "anchors": ["qadence/model.py:QuantumModel._to_dict", "qadence/model.py:QuantumModel._from_dict", "qadence/model.py:QuantumModel.load_params_from_dict", "qadence/ml_tools/models.py:QNN._to_dict", "qadence/ml_tools/models.py:QNN._from_dict", "qadence/measurements/protocols.py:Measurements._from_dict"]}
{"id": "C63", "title": "A QNN built from configurations has the requested uploads, layers and parameters", "statement": "QNN.from_configs with a FeatureMapConfig and an AnsatzConfig gives every feature the settings that the user wrote for it, either one value for all features or a dictionary whose keys are exactly the inputs; anything else is rejected. With the digital strategy the feature map uploads the features in rounds, in round i = 0, 1, ... the inputs to be repeated at least i times in the order of the inputs, so that a feature with num_repeats k is uploaded k+1 times. A series feature map puts each upload on all qubits; a parallel one gives every feature its own contiguous share of the qubits, the shares being disjoint and of sizes that differ by at most one. The feature map exists for every accepted configuration with non-empty ranges and enough qubits. The circuit is upload, layer 0, upload, layer 1, ..., upload, ansatz, where layer i is the configured ansatz of depth 1 with parameters of prefix fm_i. No two layers share a parameter, none is shared with the final ansatz unless its prefix starts with fm, and trainable weights of different features or qubits have different names. The inputs of the model are the configured ones in their order.", "quantifier": "all configurations, numbers of features, repeats and qubits, all orders of set iteration and all values of the features", "why_tests_cant": "the dictionaries, repeats and layer counts are unbounded, and whether names collide depends on all of them", "anchors": ["qadence/ml_tools/config.py:FeatureMapConfig", "qadence/ml_tools/config.py:AnsatzConfig", "qadence/ml_tools/constructors.py:create_fm_blocks", "qadence/ml_tools/constructors.py:create_ansatz", "qadence/ml_tools/constructors.py:_interleave_ansatz_in_fm", "qadence/ml_tools/constructors.py:build_qnn_from_configs"]}
{"id": "C64", "title": "A quantum convolutional network convolves and pools as documented", "statement": "For every even register, depths, operations, entangler and number of inputs: the circuit of a QCNN is a feature map, in which input i is encoded on its own share of consecutive qubits (the first n mod m shares are one qubit larger), followed by the layers; layer l applies, in each of its repetitions, the convolution cell to neighbouring pairs of the qubits that are left after l poolings, in the order and with the parameters of the documentation; from layer l on the other qubits are left alone; each remaining qubit is in exactly one cell of an unshifted repetition when their number is even; in the first two layers the pairs alternate between even and odd; without correlation no parameter is used twice, with it at most nine are used in a layer; the observable is the (weighted) sum of the Z of all qubits; and the network can be built exactly when the register has an even number n >= 4 of qubits, all depths are odd, there are between 1 and n inputs and at most log2 n layers, and with a repeated second layer n >= 8.", "quantifier": "all register sizes, depths, lists of operations, entanglers on their two qubits, feature map bases, numbers of inputs, and parameter values", "why_tests_cant": "The construction recurses over layers and repetitions with indices that depend on all of them; tests build a few networks and look at shapes, not at which qubits and parameters each gate has.", "anchors": ["qadence/ml_tools/qcnn_model.py:QCNN", "qadence/ml_tools/constructors.py:_create_conv_layer", "qadence/ml_tools/constructors.py:_create_single_W", "qadence/ml_tools/constructors.py:_create_feature_map_qcnn", "qadence/ml_tools/constructors.py:_get_block_params"]}
{"id": "C65", "title": "The information content of a loss landscape measures what it documents", "statement": "For every model with parameter tensors of positive rank, every random walk of parameter variations, loss function and list of thresholds: each variation is cut into exactly the model's parameters, in order, without loss or overlap; the finite derivatives along the walk are bounded by any Lipschitz constant of the loss; each derivative is discretised to +1, 0 or -1 according to its threshold; the six transition probabilities and the probability of no change sum to one; the information content is between 0 and 1 and is the entropy of the transitions to base 6 up to the truncation of small probabilities; it is zero for a flat landscape and does not change when the loss is shifted, scaled together with the thresholds, or negated; max_IC and sensitivity_IC return the documented optimum; q solves its equation up to one step of the grid; the bounds on the gradient norm exist and are positive in the documented range. Refuted where the code deviates: scalar parameters cannot be analysed, at maximal information content the lower bound exceeds the upper one, and for sensitivities between 1/3 and 2/3 the upper bound is negative.", "quantifier": "all parameter shapes, walks, losses, derivatives, thresholds, sensitivities and all increasing quantile functions", "why_tests_cant": "tests evaluate one small model at random variations; the bounds, invariances and the accuracy of q are statements over all landscapes", "anchors": ["qadence/ml_tools/information/information_content.py:InformationContent.reshape_param_variations", "qadence/ml_tools/information/information_content.py:InformationContent.randomized_finite_der", "qadence/ml_tools/information/information_content.py:InformationContent.calculate_IC", "qadence/ml_tools/information/information_content.py:InformationContent.q_value", "qadence/ml_tools/information/information_content.py:InformationContent.get_grad_norm_bounds_max_IC"]}
{"id": "C66", "title": "run, sample and expectation mean the same for every form of a program and agree with a QuantumModel", "statement": "For every block, register, number of qubits and keyword arguments: calling run, sample or expectation with a register and a block, with a number of qubits and a block, or with a block alone gives what the call with the circuit gives, circuits that do not fit are refused, and a block with global support is refused without a register; exactly the documented keywords are accepted and each reaches the backend under its own meaning; gradients are recorded exactly if a differentiation mode is asked for; the result equals that of a QuantumModel made from the same arguments; a backend is made exactly if it is installed, supports the differentiation mode and fits the configuration, and no other configuration is touched. Refuted where the code deviates: lists of circuits can never be run, values cannot be passed by position together with a block, the documented order of the arguments of expectation is not the implemented one, and configuration objects are overwritten and shared between backends.", "quantifier": "all programs, keyword arguments, configurations and histories of configuration objects", "why_tests_cant": "the number of combinations of forms, keywords and backends is unbounded and tests use one or two of them", "anchors": ["qadence/execution.py:run", "qadence/execution.py:sample", "qadence/execution.py:expectation", "qadence/backends/api.py:backend_factory", "qadence/extensions.py:set_backend_config", "qadence/circuit.py:QuantumCircuit.__init__"]}
{"id": "C67", "title": "The Pulser backend plays, in the order of the circuit, one pulse per gate with the angle, duration and channel of that gate", "statement": "For every circuit the Pulser backend accepts, the sequence has exactly one pulse per gate, from left to right, each waiting for the previous ones, on the local channel with the gate's qubits or on the global channel as its support says; a circuit is accepted exactly when it is made of supported blocks. RX and RY pulses are resonant with the right phase and an area equal to the angle up to the resolution of the device, never above its maximal amplitude; RZ and analog rotations have the requested drive for the requested duration up to the clock; an addressing pattern gives each qubit one pulse of its weight over the whole duration.", "quantifier": "all nested circuits of digital and analog blocks, parameter values, devices, clock periods, minimal durations and configurations", "why_tests_cant": "angles, durations and device limits are real numbers and circuits nest arbitrarily; tests run a few angles through the simulator with tolerances", "anchors": ["qadence/backends/pulser/pulses.py:add_pulses", "qadence/backends/pulser/pulses.py:analog_rot_pulse", "qadence/backends/pulser/pulses.py:digital_xy_rot_pulse", "qadence/backends/pulser/pulses.py:digital_z_rot_pulse", "qadence/backends/pulser/pulses.py:entangle_pulse", "qadence/backends/pulser/pulses.py:add_addressing_pattern", "qadence/backends/pulser/backend.py:make_sequence", "qadence/backends/pulser/devices.py:RealisticDevice"]}
{"id": "C68", "title": "Calls of the Pulser backend do not influence one another", "statement": "For every sequence of calls of run, sample and expectation on one converted circuit, without noise and with parameter values, each call gives the answer it would give on a newly made backend, whether or not earlier calls failed. A run gives one state per row of the parameter values, that of the simulator for exactly the values of this row, in the requested endianness; samples give one counter per row and need at least one shot; an expectation has one row per row of values and one column per observable; missing values, batches of initial states and, for runs, cloud configurations are refused.", "quantifier": "all histories of calls, parameter dictionaries with batched and single values, initial states, observables, numbers of shots, devices with or without an addressing pattern", "why_tests_cant": "the property is about unbounded histories of calls on shared mutable objects; tests call a fresh backend once", "anchors": ["qadence/backends/pulser/backend.py:Backend.run", "qadence/backends/pulser/backend.py:Backend.sample", "qadence/backends/pulser/backend.py:Backend.expectation", "qadence/backends/pulser/backend.py:Backend._run_noisy", "qadence/backends/pulser/backend.py:Backend.assign_parameters", "qadence/backends/pulser/backend.py:simulate_sequence", "qadence/backends/utils.py:to_list_of_dicts"]}
{"id": "C69", "title": "The neutral-atom ansatz and feature maps do what they document", "statement": "For every register, number of layers and choice of options, the Rydberg ansatz is a sequence of layers, each the evolution under laser and interaction, then under the interaction alone, then under the detuning, with the durations of that layer and the weights and phase common to all layers; its parameters are exactly the documented ones with different names; it is refused exactly for a register with a loop. The Rydberg feature map turns each atom i by the feature value times its weight, in rotations of equal duration on disjoint atoms, with detunings below the maximum for weights of one sign, while the atoms interact during the whole sequence; it is refused exactly for missing, zero or cancelling weights, no qubits or no detuning; the tower map has the weights 1 to n; the analog feature map is one operation whose angle is the multiplier times the basis function of the scaled feature. Refuted where the code deviates: the interaction does not use the positions, the prefix does not reach the weights, and mixed weights exceed the maximal detuning.", "quantifier": "all registers, layers, options, prefixes, weights, feature values, devices with van der Waals interaction, values of the parameters", "why_tests_cant": "Tests look at a circuit of a few qubits; the meaning of the ansatz concerns matrix exponentials for all parameter values, and the names of the parameters must not collide for any number of layers.", "anchors": ["qadence/constructors/rydberg_hea.py:rydberg_hea", "qadence/constructors/rydberg_hea.py:rydberg_hea_layer", "qadence/constructors/rydberg_hea.py:_amplitude_map", "qadence/constructors/rydberg_feature_maps.py:rydberg_feature_map", "qadence/constructors/rydberg_feature_maps.py:rydberg_tower_feature_map", "qadence/constructors/rydberg_feature_maps.py:analog_feature_map"]}
{"id": "C70", "title": "Blocks and circuits that compare equal mean the same", "statement": "For blocks built from fixed gates, rotations, controlled gates, scalings, chains, tensor products and sums (the parts of products and sums not composite, the terms of a sum denoting different operators) and whose lone parameters do not reappear inside larger expressions of the other block, a == b implies that a and b denote the same operator for all parameter values. Comparison never raises unless both sides contain a U gate; without U gates every block equals itself, and reordering the parts of a product or of a sum keeps it equal while a chain is compared position by position. A block is 'in' a composite block exactly when it equals a block reached through composite blocks; a parameter 'in' a block is one of its parameters. Equal circuits have equal blocks and registers with every qubit at the same place. Findings: HamEvo ignores its generator, projectors and matrices their entries, U == U raises, a lone parameter equals any expression containing it, sums compare as sets, parts are found inside nested products, registers ignore the device and which qubits are connected, and a factor's parameter is not 'in' the block.", "quantifier": "all pairs of blocks, all parameter values, all registers", "why_tests_cant": "the pairs of block trees are unbounded, and the failing pairs are ones nobody thinks of comparing", "anchors": ["qadence/blocks/primitive.py:PrimitiveBlock.__eq__", "qadence/blocks/primitive.py:ParametricBlock.__eq__", "qadence/blocks/primitive.py:ScaleBlock.__eq__", "qadence/blocks/primitive.py:ControlBlock.__eq__", "qadence/blocks/composite.py:CompositeBlock.__contains__", "qadence/blocks/composite.py:KronBlock.__eq__", "qadence/blocks/composite.py:AddBlock.__eq__", "qadence/parameters.py:Parameter.__eq__", "qadence/register.py:Register.__eq__", "qadence/circuit.py:QuantumCircuit.__eq__"]}
{"id": "C71", "title": "The JAX backend runs, measures and samples the circuit it is given", "statement": "Converting a circuit or observable with the JAX backend (horqrux) succeeds exactly on the gates it has a conversion for, and the converted program acts as the block's operator for all values of the parameters. run returns the amplitudes of that operator applied to |0...0> or to the given state vector, in the requested bit order; expectation returns one row per sample, with values given once reused for every sample, holding the real expectation value of each observable (a bare number for one sample and one observable); sample returns one counter with n_shots outcomes drawn with the squared amplitudes as probabilities, each under its bit string in the requested order. Batches of initial states and parameters with incompatible numbers of values are refused.", "quantifier": "all blocks of supported gates (including evolutions under combinations of Pauli operators), all observables, all numbers of qubits, all values, all batch sizes, all initial state vectors, both bit orders, all numbers of shots and all draws of the random generator", "why_tests_cant": "tests compare a few circuits with the default backend; they cannot cover every nesting of blocks, every generator placement, all batch sizes and all initial states", "anchors": ["qadence/backends/horqrux/backend.py:Backend", "qadence/backends/horqrux/convert_ops.py:convert_block", "qadence/backends/horqrux/convert_ops.py:HorqHamiltonianEvolution", "qadence/backends/horqrux/config.py:default_passes", "qadence/backends/jax_utils.py:block_to_jax", "qadence/backends/jax_utils.py:uniform_batchsize", "qadence/backends/jax_utils.py:horqify"]}
{"id": "C72", "title": "Functions of density matrices are the textbook quantities", "statement": "For every batch of density matrices `purity(rho, n)` is tr(rho^n), `von_neumann_entropy(rho, eps)` is -sum l log2 l over the eigenvalues l of rho plus at most -eps log2 eps for every eigenvalue below eps (exact when none is), and `fidelity(rho, sigma)` is tr S with S the positive square root of R sigma R and R the positive square root of rho. The fidelity lies in [0, 1], is symmetric, is 1 of a state with itself, is sqrt(<a|sigma|a>) against a pure state a and |<a|b>| (not squared) between pure states; all three functions are unchanged by a unitary change of basis. A second batch shorter than the first raises. `equivalent_state` accepts normalised states exactly when every 1 - |<a|b>|^2 is within the tolerance; with tolerance zero, exactly when they agree up to a phase.", "quantifier": "every dimension, batch, order, eps, pair of density matrices, unitary, pair of normalised states", "why_tests_cant": "The statements are equalities between spectral functions of arbitrary matrices; tests evaluate a few states of a few qubits and cannot see that the entropy of every pure state is not zero.", "anchors": ["qadence/states.py:purity", "qadence/states.py:von_neumann_entropy", "qadence/states.py:fidelity", "qadence/states.py:equivalent_state", "qadence/overlap.py:overlap_exact"]}
{"id": "C73", "title": "The register shapes have the qubits, distances and edges they promise", "statement": "Register.line, square, circle and rectangular_lattice give the promised number of qubits at the promised places: the smallest distance is the spacing, and two qubits are joined by an edge exactly when they are at that distance, so every edge distance is the spacing. A square of side k has 4(k-1) qubits on the boundary of a square, centred at the origin; on a circle the distance of qubits i and j is spacing*sin(pi|i-j|/n)/sin(pi/n). rescale_coords multiplies every position, keeps the edges and leaves every existing register alone, whereas a second register made from the same graph object changes the first.", "quantifier": "every number of qubits or side, every positive spacing, every pair of qubits, every heap of graphs", "why_tests_cant": "The sizes are unbounded; tests look at one or two small lattices and never at two registers that share a graph.", "anchors": ["qadence/register.py:Register.line", "qadence/register.py:Register.square", "qadence/register.py:Register.circle", "qadence/register.py:Register.rectangular_lattice", "qadence/register.py:Register.edge_distances", "qadence/register.py:Register.rescale_coords", "qadence/register.py:_scale_node_positions", "qadence/register.py:line_graph"]}
{"id": "C74", "title": "Parameter objects over any history of constructions", "statement": "Parameter(name, ...) gives a parameter with the requested name, kind and value; over any history of constructions an object has the attributes of the last call that returned it, calls with different names or flags never share an object, and calls with the same name and flags return one object as long as fewer than 1000 others were used in between, so all gates that mention a string share one parameter. Consequently a second parameter with the same name and flags changes the value of the first, wrapping or reading back a parameter changes a live one, and zero values, the order of keywords and a full cache give several objects for one name. Equality is reflexive and symmetric but not transitive and not compatible with the hash; writing and reading keeps name, kind and value but not is_time; evaluate uses the given value of a name or else the parameter's own, and fails exactly on plain symbols without value.", "quantifier": "every history of constructor calls from strings and parameters, every name, value and flag, every expression and dictionary of values", "why_tests_cant": "The effects depend on the history of the whole process (a cache of symbols shared by all tests); a unit test sees one construction.", "anchors": ["qadence/parameters.py:Parameter.__new__", "qadence/parameters.py:Parameter.__eq__", "qadence/parameters.py:Parameter.__hash__", "qadence/parameters.py:Parameter._to_dict", "qadence/parameters.py:Parameter._from_dict", "qadence/parameters.py:FeatureParameter", "qadence/parameters.py:VariationalParameter", "qadence/parameters.py:TimeParameter", "qadence/parameters.py:evaluate", "qadence/utils.py:isclose"]}
{"id": "C75", "title": "Observables exchanged with OpenFermion", "statement": "to_openfermion converts exactly the blocks made of X, Y, Z, I, scalings, sums, chains and krons (the empty chain or sum excepted); the result stands for the block in which the parts of every chain are taken in the opposite order, hence for the block itself when the parts of its chains commute, with the values the parameters hold at that moment. from_openfermion turns every operator with a term other than the identity into a block with the same meaning, so going there and back keeps the meaning. A chain of parts that do not commute comes out as a different operator, a multiple of the identity comes back as the identity on qubit -1, the zero operator raises, and coefficients below OpenFermion's tolerance disappear from sums.", "quantifier": "every block, every parameter values, every QubitOperator of any number of terms and qubits, every implementation of QubitOperator meeting the stated contract", "why_tests_cant": "Tests convert a few sums of commuting Pauli strings; the order of products and degenerate operators show only on other inputs.", "anchors": ["qadence/blocks/manipulate.py:to_openfermion", "qadence/blocks/manipulate.py:from_openfermion"]}
{"id": "C76", "title": "Which gates are noisy, over any history of calls", "statement": "set_noise gives a noise to exactly the leaf blocks of a block (of the target class, if one is given) and changes nothing else. A circuit converted by the PyQTorch backend with noise in its configuration has it on every gate and at readout; converted without, its gates have the noise their objects hold. Only a sample or expectation call with noise on the circuit itself changes what it executes: after any history its gates carry the digital part of the last noise it was given and its readout noise is the last one it ever got. While no noise is passed, gates keep the noise they were constructed with. Consequently one noisy call or conversion makes later noiseless calls and conversions of the same gates noisy, readout noise cannot be removed, dropout is lost, and gates inside scaled blocks never get noise.", "quantifier": "every history of constructing gates and noise handlers, appending to handlers, set_noise, conversions (with or without noise and dropout), sample, expectation and run calls; every block", "why_tests_cant": "The effect of a call depends on all earlier calls that touched the same gate objects; a unit test uses fresh circuits.", "anchors": ["qadence/transpile/noise.py:set_noise", "qadence/transpile/apply_fn.py:apply_fn_to_blocks", "qadence/backends/pyqtorch/backend.py:Backend.circuit", "qadence/backends/pyqtorch/backend.py:set_block_and_readout_noises", "qadence/backends/pyqtorch/convert_ops.py:convert_block", "qadence/backends/pyqtorch/convert_ops.py:convert_digital_noise", "qadence/backends/pyqtorch/convert_ops.py:convert_readout_noise"]}
{"id": "C77", "title": "Workloads on the remote platform: waiting, validating, sending, logging in", "statement": "get_result asks for the status every refresh_time as long as another refresh_time fits in the timeout; it reports the first final status it is told and only that (the workload when done, an error when stopped or unknown), times out exactly when every status it was told is 'not finished yet', and never waits longer than the timeout. A WorkloadSpec is accepted exactly when an expectation comes with an observable and its parameter values are numbers or arrays of one length; what submit_workload sends determines the workload. get_client returns, over any history of calls and changes of the environment variables, a client made for the credentials asked for; a refusal leaves no trace. Deviations recorded: a refresh time longer than the timeout never asks; a workload that finishes during the last wait is missed; a matrix is accepted next to a number and an empty dictionary is rejected; the trained values of a model are not sent; environment variables are read once per set of credentials; an unknown environment means production.", "quantifier": "every status of the workload as a function of time, every timeout and refresh time, every specification, every history of requests for clients and changes of the environment", "why_tests_cant": "The outcome depends on the schedule of the remote side and on the history of the process; tests mock one or two answers.", "anchors": ["qadence/pasqal_cloud_connection.py:get_result", "qadence/pasqal_cloud_connection.py:check_status", "qadence/pasqal_cloud_connection.py:WorkloadSpec", "qadence/pasqal_cloud_connection.py:workload_spec", "qadence/pasqal_cloud_connection.py:submit_workload", "qadence/backends/pulser/cloud.py:get_client"]}
{"id": "C78", "title": "Successive trainings: folders, resuming, crashes between checkpoints", "statement": "With one subfolder per run the calls of fit on one configuration never share a folder and never load a checkpoint; without, they all use one folder, the one the user gave if any. Over any history of calls of fit on any folders, by any trainers, a call on a folder begins with the parameters and the epoch at which the last call on that folder ended, provided checkpoints are kept there; if the process died in between, with the last checkpoint written. A call touches its own folder only; without checkpoints and validation a further call goes on with the parameters in memory. Deviations recorded: two configurations used within one second share a folder; log_folder='./' is not honoured; the user's folder is forgotten after a per-run call; with validation but checkpoint_every=0 a second fit goes back to the untrained parameters; with checkpoint_best_only it goes back to the best ones; an early-stopped second per-run fit leaves a stale latest checkpoint.", "quantifier": "every configuration, every history of calls of fit by any trainers, every effect of an epoch, every point at which training is stopped, interrupted or the process dies between checkpoints", "why_tests_cant": "Tests run fit once or twice with one configuration; what a call loads depends on everything earlier calls left on disk.", "anchors": ["qadence/ml_tools/train_utils/config_manager.py:ConfigManager", "qadence/ml_tools/callbacks/callbackmanager.py:CallbacksManager.start_training", "qadence/ml_tools/callbacks/callbackmanager.py:CallbacksManager.initialize_callbacks", "qadence/ml_tools/callbacks/saveload.py:load_checkpoint", "qadence/ml_tools/callbacks/saveload.py:write_checkpoint", "qadence/ml_tools/trainer.py:Trainer.fit"]}
{"id": "C79", "title": "Losses an optimiser works with, and losses that are reported", "statement": "With gradients, an optimiser sees at each evaluation exactly the loss and the gradient of the parameters it evaluates, whatever gradients earlier steps left, and the returned loss is that of its last evaluation. Without gradients, over every history of fits, checkpoints and changes of the model in between, every candidate told to the optimiser is the model's parameters and is told with that model's loss. The loss and metrics reported for an epoch are the means over its batches, each metric under its prefixed name.", "quantifier": "all optimisers (as functions of the losses and gradients they are given), loss functions, histories of fit calls and model changes, lists of batches and metrics", "why_tests_cant": "the optimiser, the loss and the history of calls are arbitrary; a test fixes one of each", "anchors": ["qadence/ml_tools/optimize_step.py:optimize_step", "qadence/ml_tools/optimize_step.py:update_ng_parameters", "qadence/ml_tools/trainer.py:Trainer.run_train_batch", "qadence/ml_tools/trainer.py:Trainer._modify_batch_end_loss_metrics", "qadence/ml_tools/trainer.py:Trainer.build_optimize_result", "qadence/ml_tools/loss/loss.py:mse_loss"]}
{"id": "C80", "title": "Which data an epoch, a validation and a test use", "statement": "For every order in which a loader goes through a dataset of tensors, an epoch uses every sample exactly once, in batches of the given size (the first max_batches of them if that is set); an infinite dataset gives one full batch per epoch, no loader one step without data. A trainer uses the loaders last given to fit, over every history of fits and tests. With several processes on a node every sample is used by some process and all use equally many. What a test uses of its loader is limited by the number of training batches.", "quantifier": "all datasets, batch sizes, orders of samples, numbers of batches allowed, dictionaries of loaders, histories of fit and test calls, numbers of processes", "why_tests_cant": "orders, sizes and histories are unbounded; tests look at one loader with a few samples", "anchors": ["qadence/ml_tools/trainer.py:Trainer._batch_iter", "qadence/ml_tools/trainer.py:Trainer.test", "qadence/ml_tools/trainer.py:Trainer.fit", "qadence/ml_tools/train_utils/base_trainer.py:BaseTrainer._compute_num_batches", "qadence/ml_tools/data.py:DictDataLoader", "qadence/ml_tools/data.py:InfiniteTensorDataset", "qadence/ml_tools/train_utils/accelerator.py:Accelerator._prepare_dataloader"]}
{"id": "C81", "title": "Processes of a training work together", "statement": "Every fit of a trainer for n processes runs n processes that agree on their number and have the ranks 0 to n-1, each once: alone on a machine in a clean environment, over every program whose trainers all use several processes or all use one on the CPU, on a cluster with one process per GPU, and under torchrun on GPUs.", "quantifier": "all numbers of processes, GPUs and nodes, all programs that make and fit trainers in any order, all assignments of ranks by torchrun", "why_tests_cant": "the environment variables one fit leaves behind reach later fits, and clusters are not available in tests", "anchors": ["qadence/ml_tools/train_utils/accelerator.py:Accelerator", "qadence/ml_tools/train_utils/distribution.py:Distributor.setup_process_rank_environment", "qadence/ml_tools/train_utils/execution.py:DefaultExecution", "qadence/ml_tools/train_utils/execution.py:TorchRunexecution", "qadence/ml_tools/train_utils/execution.py:detect_execution"]}
{"id": "C82", "title": "Expectation values computed from samples you already have", "statement": "For a list of observables that are (nested, scaled) sums of products of Z, and histograms of outcomes with the same number of shots, the samples protocol returns for every observable and every histogram the mean over the shots of the value the observable has in the basis state that was read; exact frequencies give the exact expectation values; an observable that is not diagonal in the computational basis is refused.", "quantifier": "all observables in the Z basis, all real coefficients, all numbers of qubits, all histograms and batches of histograms", "why_tests_cant": "the observables and histograms are unbounded; tests use a handful", "anchors": ["qadence/measurements/samples.py:compute_expectation", "qadence/blocks/abstract.py:AbstractBlock._is_diag_pauli", "qadence/measurements/utils.py:pauli_z_expectation"]}
{"id": "C83", "title": "The differentiation engine does not change what is computed", "statement": "A backend wrapped in a differentiation engine gives the samples, states and expectation values of the wrapped backend for the circuit, observables, parameters, state, noise, mitigation and endianness asked for: automatic differentiation and the parameter-shift mode agree, one observable is the list with that observable, and the adjoint mode agrees for one observable; circuit() and observable() refuse exactly what the mode cannot differentiate.", "quantifier": "all backends (as functions), circuits, observables, dictionaries of values, settings, modes and both engines", "why_tests_cant": "the claim is about every backend and every combination of settings; tests cover a few pairs of modes with default settings", "anchors": ["qadence/engines/differentiable_backend.py:DifferentiableBackend", "qadence/engines/torch/differentiable_backend.py:DifferentiableBackend.expectation", "qadence/engines/jax/differentiable_backend.py:DifferentiableBackend.expectation", "qadence/engines/torch/differentiable_expectation.py:DifferentiableExpectation", "qadence/backend.py:Backend.convert"]}
{"id": "C84", "title": "What experiment tracking shows after a training", "statement": "After a training that does not raise, in the process of rank 0, TensorBoard shows for the log folder the earlier values at steps before the first epoch of this training and, of this training, exactly the training metrics of every epoch that is a positive multiple of write_every and of the last epoch, the validation metrics of every epoch that is a positive multiple of val_every and those of the validation before the training, each at the step of its epoch; figures are those made at the start, at positive multiples of plot_every and at the end. MLflow gains one run with exactly these metrics, the last figure of each name, and hyperparameters and model if asked for. Other processes write nothing. Printing shows every metric once.", "quantifier": "all configurations, trainings (with any early stopping), earlier contents of the folder or server, metrics and plotting functions", "why_tests_cant": "The values shown depend on the interplay of callbacks, epochs, resumption and the tracking tool over whole histories", "anchors": ["qadence/ml_tools/callbacks/writer_registry.py:TensorBoardWriter", "qadence/ml_tools/callbacks/writer_registry.py:MLFlowWriter", "qadence/ml_tools/callbacks/callbackmanager.py:initialize_callbacks", "qadence/ml_tools/callbacks/callbackmanager.py:start_training"]}
{"id": "C85", "title": "Aggregated metrics and stopping across processes", "statement": "When several processes train together with aggregated metrics, have the same number of batches with the same metrics in the same order in every epoch, and none is interrupted, then all of them end, after the same epochs, the last being the first in which a process asks for a stop; and all report the same losses and metrics, the means over the processes. Without aggregation all end after the same epoch whatever the batches and interruptions are, and each reports its own values. A single process is not affected by the aggregation. A batch of tensors, None, lists and dictionaries reaches the loss function with the same structure, its tensors cast to the type of the training.", "quantifier": "all numbers of processes, epochs and batches, all losses and metrics, all epochs at which processes ask for a stop, all nested batches", "why_tests_cant": "tests run at most a few processes for a few epochs", "anchors": ["qadence/ml_tools/train_utils/accelerator.py:Accelerator.all_reduce_dict", "qadence/ml_tools/train_utils/accelerator.py:Accelerator.prepare_batch", "qadence/ml_tools/trainer.py:Trainer.stop_training", "qadence/ml_tools/trainer.py:Trainer._aggregate_result", "qadence/ml_tools/data.py:data_to_device"]}
{"id": "C86", "title": "The diagonal and sparse form of an observable", "statement": "For an observable made of Z and I by products, sums and scaling, converting it to its diagonal, or to a sparse diagonal tensor, gives the same matrix as the dense conversion: that of the operator, on the sorted qubits of the block, zero off the diagonal. Any other block is refused.", "quantifier": "all blocks of any nesting, all qubits and parameter values", "why_tests_cant": "tests compare a few Hamiltonians on few qubits", "anchors": ["qadence/blocks/block_to_tensor.py:block_to_diagonal", "qadence/blocks/block_to_tensor.py:block_to_tensor", "qadence/blocks/block_to_tensor.py:_fill_identities", "qadence/blocks/abstract.py:AbstractBlock._is_diag_pauli"]}
{"id": "C87", "title": "Switching between optimisation with and without gradients", "statement": "Inside enable_grad_opt or disable_grad_opt a trainer is in the mode asked for with the optimiser given, or its own if that suits the mode, and a gradient-free optimiser starts from the current parameters of the model with a budget of max_iter; if the optimiser does not suit the mode, the context raises without running its body. Afterwards, whatever the body did and whether or not it raised, mode and optimiser are what they were before, and a gradient-free optimisation goes on from the parameters reached. However contexts are nested, the optimiser always suits the mode.", "quantifier": "all histories of fits, assignments of optimisers and nested contexts, all bodies, exceptions at any point", "why_tests_cant": "the interesting states arise from nesting and exceptions, which tests sample at a few points", "anchors": ["qadence/ml_tools/train_utils/base_trainer.py:BaseTrainer.enable_grad_opt", "qadence/ml_tools/train_utils/base_trainer.py:BaseTrainer.disable_grad_opt", "qadence/ml_tools/train_utils/base_trainer.py:BaseTrainer.optimizer", "qadence/ml_tools/train_utils/base_trainer.py:BaseTrainer.set_use_grad"]}
{"id": "C88", "title": "Where tags of blocks are found and what transformations do with them", "statement": "get_blocks_by_tag returns the blocks with the tag that the compositions of the circuit contain, each once, in the order of reading; tags inside scaled and controlled blocks are not found. Renumbering qubits keeps every tag. The dagger keeps tags only of controlled gates and of gates that are their own dagger; flattening keeps only those of blocks that are no compositions; moving scales to the primitive blocks keeps the tag of the whole block and every tag that was found. A drawing shows every tag as often as the block has it, but removes tags of primitive blocks from the block of the user, so that a second drawing lacks them. Apart from tags these transformations do what they do to blocks without tags.", "quantifier": "all blocks with tags at any places, all tags, all maps of qubits, all lists of types to flatten, all orders of iteration over sets", "why_tests_cant": "Tags can be anywhere in a tree of any depth; tests tag one or two blocks and do not look at the block after it has been drawn.", "anchors": ["qadence/circuit.py:QuantumCircuit.get_blocks_by_tag", "qadence/transpile/invert.py:reassign", "qadence/blocks/composite.py:CompositeBlock.dagger", "qadence/transpile/flatten.py:flatten", "qadence/transpile/block.py:scale_primitive_blocks_only", "qadence/transpile/block.py:fill_identities", "qadence/draw/utils.py:make_diagram"]}
{"id": "C89", "title": "Where the qubits of a register are", "statement": "A register made from coordinates has one qubit per coordinate, numbered in order, at that coordinate, times one positive factor when a spacing is given. In a rectangular lattice with r qubits per row and c per column, qubit i*r+j is at (i,j) times the spacing for all i<c, j<r, so that the qubits at the same height are c many and not r. Register.square places 4*(side-1) qubits along the boundary of a square, each next to the one before, all around once, centred at the origin, with the given spacing as their smallest distance.", "quantifier": "all lists of coordinates, all numbers of rows and columns, all sides, all positive spacings", "why_tests_cant": "Tests look at the number of qubits of a few small registers.", "anchors": ["qadence/register.py:Register.from_coordinates", "qadence/register.py:Register.rectangular_lattice", "qadence/register.py:Register.square"]}
{"id": "C90", "title": "What functions on circuits do with the register", "statement": "transpile applies its functions from the last to the first, and functions on blocks lifted to circuits keep register and device. Flattening a circuit, filling it with identities or taking its dagger keeps what the circuit does when its block is digital or when its register is the default one of that size; measuring in rotated bases applies the rotations after the circuit on the same register. The dagger of a circuit is refused exactly when it has an analog part. A circuit with analog parts on another register does something else after flatten, fill_identities or in classical shadows on backends other than PyQTorch, because these put the qubits on a new default register.", "quantifier": "all circuits of any depth with digital and analog parts, all registers and devices, all values of parameters, all lists of functions and of types to flatten, all orders of iteration over sets", "why_tests_cant": "The interaction depends on all distances of the register; tests of these functions use digital circuits, on which registers play no role.", "anchors": ["qadence/circuit.py:QuantumCircuit", "qadence/circuit.py:QuantumCircuit.dagger", "qadence/transpile/transpile.py:transpile", "qadence/transpile/transpile.py:blockfn_to_circfn", "qadence/transpile/flatten.py:flatten", "qadence/transpile/circuit.py:fill_identities", "qadence/transpile/digitalize.py:digitalize", "qadence/measurements/utils.py:rotate", "qadence/measurements/shadow.py:classical_shadow"]}
{"id": "C91", "title": "Declared spectra and generators", "statement": "The eigenvalues an operation declares (block.eigenvalues) are exactly the eigenvalues of its operator, as many as its dimension; those of its generator (eigenvalues_generator) are exactly those of the declared generator; a rotation or controlled rotation by an angle is the evolution under its declared generator for half of the angle; the declared eigenvalues of a time evolution are eigenvalues of it. Exceptions, each with a theorem: a scaled block leaves its factor out; S, T and their daggers declare 0 and 1 for a generator with eigenvalues 0 and 2; the generator of PHASE generates the opposite phase; the generator of SWAP is not Hermitian and generates no SWAP; CSWAP leaves out an eigenvalue of its generator; MCZ, CZ and U refuse.", "quantifier": "all operations of the library on all qubits, any number of controls, all values of parameters, all generators and times of evolutions", "why_tests_cant": "Spectra are statements about all states of registers of any size and all angles; tests compare the spectra of a few gates and skip those that raise.", "anchors": ["qadence/operations/primitive.py:X", "qadence/operations/primitive.py:S", "qadence/operations/primitive.py:T", "qadence/operations/primitive.py:SWAP", "qadence/operations/parametric.py:PHASE", "qadence/operations/parametric.py:RX", "qadence/operations/control_ops.py:MCRX", "qadence/operations/control_ops.py:MCPHASE", "qadence/operations/control_ops.py:CSWAP", "qadence/operations/control_ops.py:Toffoli", "qadence/operations/ham_evo.py:HamEvo.eigenvalues", "qadence/blocks/primitive.py:ScaleBlock.eigenvalues"]}
{"id": "C92", "title": "The formula printed for an observable is the observable", "statement": "block_to_mathematical_expression(obs), read with the usual precedence (coefficients bind more tightly than tensor products, tensor products more tightly than sums, parentheses first), is the operator of obs, for every nesting of sums, tensor products and coefficients over operations whose titles do not contain the words the printer looks for, if the coefficients are printed exactly and are not zero.  model.observables_to_expression() has one entry per observable, in order, if their tags differ.  Refuted in general: a name or tag that contains the letters mul makes printing fail with an IndexError, a zero coefficient in a product prints another observable, one within a sum leaves the sign behind, a real coefficient is cut after five characters, the states of N and the contents of chains are not shown, and of several untagged observables only the last is listed.", "quantifier": "all blocks (any nesting, any number of parts, any tags), all texts of coefficients, all lists of observables", "why_tests_cant": "the printer works on text it has itself produced, so whether it goes wrong depends on the whole nesting and on the names chosen by the user", "anchors": ["qadence/utils.py:block_to_mathematical_expression", "qadence/utils.py:format_parameter", "qadence/model.py:QuantumModel.observables_to_expression", "qadence/blocks/abstract.py:AbstractBlock._block_title", "qadence/blocks/primitive.py:ScaleBlock._block_title"]}
{"id": "C93", "title": "Finding blocks by their parameters", "statement": "Looking up a parameter identifier in a block yields a part of it which has this parameter. Looking up an expression yields exactly the parts which have a parameter of this value, once for every such parameter, and a KeyError if there is none. A block is reported to have duplicated variational parameters exactly if a trainable parameter occurs in the values of two different parameters of its parts; using one part several times, or a parameter twice within one expression, is no duplicate. Parameters within controlled operations that are not parametric gates are not found (counterexample).", "quantifier": "all blocks whose parameter identifiers are unambiguous, all identifiers, all expressions, all assignments of the trainable flag", "why_tests_cant": "the tests look for the parameters of a few blocks; nested scalings, generators and shared parts arise in unbounded combinations", "anchors": ["qadence/blocks/utils.py:uuid_to_block", "qadence/blocks/utils.py:expression_to_uuids", "qadence/blocks/utils.py:get_block_by_uuid", "qadence/blocks/utils.py:get_blocks_by_expression", "qadence/blocks/utils.py:has_duplicate_vparams"]}
{"id": "C94", "title": "Triangular and honeycomb lattices", "statement": "In a register made as a triangular or honeycomb lattice with a given spacing, two qubits are joined by an edge exactly if they are nearest neighbours, and nearest neighbours are exactly at the spacing. The number of qubits is given by the numbers of cells. Registers of two or three qubits made from a number have all pairs joined and at the spacing. The first argument of the lattices is documented as the number of cells in each row, but it is the number of rows (counterexample).", "quantifier": "all numbers of rows and columns of cells, at least one, and all positive spacings", "why_tests_cant": "tests build a few small lattices; the removal of corner nodes depends on the parity of both sizes", "anchors": ["qadence/register.py:Register.triangular_lattice", "qadence/register.py:Register.honeycomb_lattice", "qadence/register.py:triangular_lattice_graph", "qadence/register.py:alltoall_graph"]}
{"id": "C95", "title": "The assertion that two blocks are the same", "statement": "If the assertion that two gates are the same block passes, they are the same operation for all parameter values; every block passes against itself, and so does its dagger's dagger; blocks that pass have the same kind and the same qubits in the same order. For other blocks a pass says less (counterexamples): the parts of composite blocks, the block inside a scaled block and the state of a number operator are not compared, and a parameter on the left passes for a larger expression containing it.", "quantifier": "all pairs of gates on any qubits with any parameter expressions, given that equality of expressions in sympy implies equal values; all blocks for the rest", "why_tests_cant": "tests use the assertion to check daggers of a few blocks and would pass for wrong daggers of composite blocks", "anchors": ["qadence/blocks/utils.py:assert_same_block"]}
{"id": "C96", "title": "Hyperparameters given to a tracking tool", "statement": "Whatever sequence of trainings is done with one configuration, and whichever tracking tool is chosen for each, handling the hyperparameters raises nothing; TensorBoard is given exactly the entries of the types it can log, MLflow alone all entries, and a training without remaining entries logs none. A training with TensorBoard removes the other entries from the user's configuration, so that a later training with MLflow misses them (counterexample). If the tool is changed in the configuration of an existing trainer, TensorBoard can be given entries it cannot log (counterexample).", "quantifier": "all dictionaries of hyperparameters and all sequences of trainings and tools", "why_tests_cant": "tests filter one dictionary once; the loss shows only in a history with two tools", "anchors": ["qadence/ml_tools/train_utils/config_manager.py:ConfigManager._handle_hyperparams", "qadence/ml_tools/train_utils/config_manager.py:ConfigManager._filter_tb_hyperparams", "qadence/ml_tools/callbacks/callbackmanager.py:CallbacksManager.initialize_callbacks", "qadence/ml_tools/callbacks/callback.py:LogHyperparameters"]}
{"id": "C97", "title": "Matrix blocks: accepted matrices and expansion", "statement": "A matrix block is made exactly of square matrices, possibly with a leading dimension of 1, whose size has as many whole qubits as the support; the size need not be a power of two (counterexample: a 3 by 3 matrix on one qubit). Expanding the matrix of a block on consecutive ascending qubits to n qubits gives the matrix of its operation on these n qubits. If the qubits of the block are not among the n, the result is the identity without an error. Expansion to one qubit, the default, returns the matrix itself, also when it is larger (counterexample).", "quantifier": "all shapes, entries, supports and numbers of qubits", "why_tests_cant": "tests use a few matrices whose sizes are powers of two", "anchors": ["qadence/blocks/matrix.py:MatrixBlock.__init__", "qadence/blocks/matrix.py:MatrixBlock.expand_to"]}
{"id": "C98", "title": "The variance minimised by the choice of shifts", "statement": "The derivative returned by the multi-gap parameter-shift rule is a weighted sum of the differences of measured values. If measurement errors have variance one and are uncorrelated, the variance of the derivative is twice the sum of the squared weights. The function that computes the exact variance returns this number if the shifts are proportional to the gaps. For other shifts it solves the transposed system and can return less, and its value depends on the order of the shifts (counterexample: gaps 1 and 2, shifts pi and pi/2). Optimal shifts are sought between the given bounds and at least 0.02 apart; the search fails exactly if a bound is missing or is 0 (a lower bound of 0 is given and reported as missing).", "quantifier": "all gaps, shifts, bounds, linear solvers, distributions of uncorrelated measurement errors and optimisers", "why_tests_cant": "tests evaluate derivatives at a few points and never look at the variance", "anchors": ["qadence/backends/agpsr_utils.py:variance", "qadence/backends/agpsr_utils.py:calculate_optimal_shifts", "qadence/backends/parameter_shift_rules.py:multi_gap_psr"]}
