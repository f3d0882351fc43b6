# Formal model of qadence in Rocq: design and trusted base

Source: /repo (qadence at the pinned commit), read as text.  Model and proofs: `rocq/theories`.
Properties: `properties.jsonl`.  Status of each: `MANIFEST.json`.  Mutation log: `seeded/LOG.jsonl`.

## 1. How the model is organised

* Each Python function is modelled by a small total Gallina function that follows its branches.
  Exceptions are values (`option` or a result type).  Every definition cites file and lines.
* Real and complex scalars are the mathematical reals (`Coq.Reals.R`) and Coquelicot's complex
  numbers.  Floating-point rounding is not modelled; where the code rounds or compares with a
  tolerance this is written explicitly in the model.
* Python sets iterate in an unspecified order.  The model quantifies over all orders.
* Random numbers, wall-clock time and remote services enter as arbitrary functions or arguments.  Hardware, rich/graphviz
  output, logging and the communication between processes are not modelled.

### Operator semantics (the independent specification for circuits)

A state of a register is a function `psi : (nat -> bool) -> C`: an amplitude for every assignment of a
bit to every qubit.  A gate with matrix `G` on the ordered qubits `qs` acts by the textbook rule
`(G psi)(x) = sum_y G[x|qs, y] * psi(x[qs := y])`.  A block denotes an operator on states by structural
recursion: chain = composition in order, kron = composition (its parts act on disjoint qubits),
add = sum, scale = scalar multiple.  The matrix of an operator on qubits `fs` has entry
`(i,j)` = amplitude of basis state `i` in the image of basis state `j`, qubit `fs[0]` being the most
significant bit.  This semantics does not use the library's Kronecker-product code; that code
(`block_to_tensor`) is modelled separately and proved equal to it.

## 2. Properties, model parts and proof plans

| id | model | plan |
|----|-------|------|
| C01 | QubitSupport `__new__`, `__add__`, `is_disjoint`; set order = arbitrary enumeration | direct, list-set reasoning |
| C02 | block AST, `qubit_support`, `n_qubits`, kron constructor | induction on blocks |
| C03 | `_fill_identities`, `_block_to_tensor_embedded`, gate matrices over nat-indexed matrices with `torch.kron` | refinement to operator semantics by induction; refuted where the code differs (projectors with ket<>bra, unsorted supports, T_dagger) |
| C04 | `dagger` of every block class | induction with adjoint of products; refuted for U, MatrixBlock, Projector |
| C05 | `__mul__`, `__imul__`, `__add__`, `__iadd__`, `__sub__`, `__isub__`, `__pow__`, `__matmul__`, `__truediv__`, `__neg__` | case analysis + semantics |
| C06 | `_flat_blocks`, `flatten` | induction |
| C07 | `scale_primitive_blocks_only` | induction |
| C08 | `reassign`, `invert_endianness` (block, tensor, counter) | induction on blocks / bits |
| C09 | `chain_single_qubit_ops` | commutation of disjoint gates; refuted for unordered layers |
| C10 | `fill_identities`, `validate` | induction |
| C11 | `set_trainable` | induction |
| C12 | `basis_to_int`, `int_to_basis`, ... | induction on bits |
| C13 | state constructors | sums over bit vectors |
| C14 | `empirical_average`, `pauli_z_expectation` | sums over counters |
| C15 | `rotate`, `iterate_pauli_decomposition` | operator semantics, Born rule; refuted for identity factors |
| C16 | `classical_shadow`, `estimators`, `estimations` | finite sums; list partition |
| C17 | `mle_solve` | projection onto the simplex, KKT-style inequality |
| C18 | `renormalize_counts` | refuted with witness, partial positive result |
| C19 | `zne` as interpolation | uniqueness of interpolating polynomials |
| C20 | `embedding_fn` | dictionary reasoning |
| C21, C22 | PSR rules | trigonometric identities; linear systems |
| C23 | `qft`, `_qft_layer_digital`, `_qft_layer_sDAQC` | operator semantics, induction on layers; sDAQC: distance of operators, added up over the layers, on top of C28 |
| C24 | `_rotations_digital`, `_entanglers_digital` | counting, name injectivity |
| C25 | `identity_initialized_ansatz` | operator semantics, mirror cancellation; refuted on name clash |
| C26 | `fm_parameter_scaling` | real arithmetic |
| C27 | `hamiltonian_factory`, `_preprocess_strengths` | name injectivity, refuted with witness |
| C28 | `_ix_map`, `_build_matrix_M`, `daqc_transform` | arithmetic + diagonal evolution |
| C29 | `NoiseHandler` | invariant over call histories |
| C30 | `Trainer` loop | trace induction |
| C31 | `Callback._should_call`, manager | arithmetic, trace |
| C32 | `EarlyStopping` | induction over metric histories |
| C33 | checkpoint directory | invariant, crash points, refuted |
| C34 | LR schedulers | real arithmetic, induction on calls |
| C35 | `InfiniteTensorDataset.__iter__` | stream prefix reasoning |
| C36 | `get_parameters`, `set_parameters` | list slicing |
| C37 | `_create_support_arrays` (`np.array_split`), `get_fm_qubits` | list partition |
| C38 | `Register` geometry | real arithmetic |
| C39 | `js_divergence`, `norm_difference` | concavity of entropy; refuted for key order |
| C40 | overlap methods | operator semantics, Born rule |
| C41 | `decompose_pauli_exp`, `lie_trotter_suzuki` | operator semantics; refuted for gaps |
| C42 | `AddressingPattern` | real arithmetic with Heaviside(0)=1/2 |
| C43 | analog blocks | induction |
| C44 | `_to_dict` / `_from_dict` | induction; refuted for multi-control |
| C45 | `count_bitstrings`, `to_list_of_dicts`, `infer_batchsize` | list reasoning |
| C46 | `SquareWaveform` | integer/real arithmetic |
| C47 | `_check_commutation` etc. | operator semantics |
| C48 | `unroll_block_with_scaling` | induction |
| C49 | the operator semantics itself, `dagger` | unitarity by induction over blocks; exp(A)exp(-A)=1 from the power series |
| C50 | the parsimonious grammar of `parse_expr_fn` as a PEG parser over strings | equivalence with an inductive grammar, uniqueness of readings |
| C51 | `convert_block`, `sympy_to_pyq`, `extract_parameter`, the default passes | refinement: the native program denotes the block's operator |
| C52 | `run`, `_batched_expectation`, `_looped_expectation`, `sample`, `pyqify`, `unpyqify` on tensors with row-major storage | index arithmetic, refinement to operator semantics |
| C53 | `add_background_hamiltonian`, the three Hamiltonian terms, `apply_fn_to_blocks`, the analog constructors, on trees of analog and digital blocks | operator of each term = textbook sum; exponential characterised by its series; induction on the tree |
| C54 | `uuid_to_block`, `uuid_to_eigen`, declared spectra, `construct_rules`, `PSRExpectation.backward` on whole circuits | expectation value is a trigonometric polynomial in each differentiated parameter (induction on the circuit); exactness of each rule; multivariate chain rule; closure of the class under the rules for higher orders |
| C55 | `ala_digital` with `_entanglers_ala_block_digital` (integer ranges with Python's floor division), rotations shared with hea.py | place of a position within its block; permutation of the listed positions with the pairs in one block; case analysis of which groups of gates are empty |
| C56 | `digitalize` on nested blocks, `U.digital_decomposition`, on top of the decomposition of C41 | induction on the block; supports of the decompositions, so that krons can be rebuilt; exactness from C41 |
| C57 | `AnalogSWAP`: the generator built with the block operators, and its evolution | the energies on the antisymmetric and symmetric parts of a state; evolution of an eigenstate from the exponential series; linearity |
| C58 | `pulse_experiment` with its closure `mutate_params`, `noise_level_experiment`, `analog_zne`, on the trees of C53; the simulator is an argument | scaling of the two parts of the Hamiltonian under a stretch of the register and of the pulses, equality of the exponentials; induction on the tree; extrapolation from C19; witness of the bias on two atoms |
| C59 | `QuantumModel`: its mutable state (parameter objects, `_params`, noise, inputs) and its methods as a step function over calls; `Backend.convert` with `embed`; backend run/sample/expectation and the order of `ParameterDict` are arguments | invariant over histories of calls (where each entry of the parameter dictionary comes from); evaluation from C20 merged over circuit and observables; findings by witnesses |
| C60 | `finitediff`, `finitediff_sampling`, `_torch_derivative`, `derivative` on real batches; `torch.autograd.grad` is an argument | the difference of a difference has as derivative the difference of the derivative, so the mean value theorem turns differences into derivatives one index at a time; the central-difference error from bounds on slopes; induction on the list of indices |
| C61 | M_Qnn: constructor checks, format_to_dict, the translation of each QNN call to a QuantumModel call, histories (M_Model) | columns become `combine names columns` when names are distinct; calls by translation to C59; embedding depends only on lookups, so order is irrelevant; existence by C59_needs |
| C62 | M_SaveLoad: the saved dictionary, from_dict, load_params_from_dict, the measurement constructor called with keyword options, QNN versions | induction over the dictionary (values by key, keys and flags kept); invariance of keys and flags over histories; case analysis of from_dict |
| C63 | M_QnnConfig: both configurations with their `__post_init__`, the rounds of uploads with the counter dictionary, digital, analog and Rydberg feature maps, the three ansatz types, the interleaving and the circuit | the counters of the rounds equal repeats + 1 - round (induction on rounds and inputs); supports from C37, gates from C26, krons from disjoint shares; prefixes of names by induction over the constructors |
| C64 | M_Qcnn: the QCNN circuit, feature map and observable, with the counters of the parameters | closed forms for the qubits left after l poolings, the pairs, the gates of a cell and the parameter numbers; induction over pairs, repetitions and layers; existence by disjointness of the padded cells |
| C65 | M_Information: the reshaping of the variations, finite derivatives, discretisation, transition counts, information content, optimum, q and both bounds | counting lemmas over consecutive pairs, the tangent inequality for the entropy, the derivative of the curve of q (mean value theorem) and its monotonicity on the grid, and the order of the quantile function |
| C66 | M_Execution: Python argument binding, singledispatch, the three functions for circuits, registers, numbers and blocks, QuantumCircuit, backend_factory with mutable configurations, and one call of a QuantumModel | closed forms of argument binding for signatures with defaults; unfolding of each form to the circuit form; case analysis of the factory |
| C67 | M_Pulses: blocks as a tree of interactions, rotations, entanglements, digital rotations and composites; a sequence as the list of calls on it; waveforms as segments over the reals (with M_Waveforms of C46) | induction over the block for acceptance and order; the waveform bounds of C46 for areas and durations |
| C68 | M_PulserBackend: a backend with a native sequence and a simulation configuration as mutable state; assignment of parameters with aliasing, addressing pattern and measurement, rows, run, noisy run, sample, expectation; the simulator and the cloud as arguments | each call with values leaves the state unchanged (so histories follow by induction); closed forms for the rows |
| C69 | M_RydbergHea: the amplitude maps, layers and whole ansatz as blocks; the Rydberg and tower feature maps as analog trees of C53 with values; the analog feature map on top of C26 | the sums of the generators by the algebra of block operators (C05, C27), evolutions by their series (C53); names by injectivity of decimal numerals; diagonal evolutions in closed form |
| C70 | M_Equality.v: `__eq__` and `__contains__` of every block class, of registers and of circuits, as mutually recursive functions bounded by the sizes of the blocks (the bound is shown never to be reached). | Strong induction on the sizes; for products and sums a matching of the parts by a counting argument, then commutation of disjoint parts. |
| C71 | M_Horqrux: `block_to_jax`, `convert_block` with the default passes, and run, expectation and sample of the horqrux backend on arrays with a shape; what the horqrux operations, `vmap` and `random.choice` do is an explicit part of the model | induction over blocks (the passes by C06/C07); matrices of generators by the representation lemmas of C03; amplitudes by locality on the n qubits; the reversed index by the digits of C12; counters by C45 |
| C72 | M_Density.v: purity, entropy, fidelity and `equivalent_state` on lists of matrices over C; `eigh` and `eigvalsh` as arguments with the spectral decomposition as contract | uniqueness of the positive square root (eigenvector by eigenvector); sums over the spectrum by polynomial interpolation, so they depend only on traces of powers; fidelity <= 1 by a partial isometry and positivity of traces; Cauchy-Schwarz with its equality case |
| C73 | M_Shapes.v: the loop of `gen_points` as a walk, rings, paths and grids as edge lists, `_scale_node_positions` on a heap of graphs; circular_layout as an argument | closed form of the walk by induction with the direction and counter as invariant; edges = pairs at the smallest distance by integer arithmetic (squares, grids) or monotonicity of the sine (circles) |
| C74 | M_ParamObjects.v: the constructor of `Parameter` on a world of objects and sympy's least-recently-used symbol cache, `__eq__`, the hash, `_to_dict`/`_from_dict`, `evaluate` | invariant of reachable worlds (one cache entry per key, objects remember their key); position in the cache bounded by the number of other keys; induction over histories and expressions |
| C75 | M_OpenFermion.v: `to_openfermion` and `from_openfermion` on blocks; the QubitOperator of OpenFermion as a record of operations with a contract, met by a reference implementation | induction over the block with the operator algebra of C05; commuting products by reversal; terms as krons of distinct qubits |
| C76 | M_NoiseRun.v: leaf blocks, noise handlers and converted circuits as objects of a world; construct, append, `set_noise`, `Backend.circuit`, sample/expectation with noise and run as steps | frame lemmas per step, then induction over histories with the noises given to the circuit as trace |
| C77 | M_Cloud.v: `check_status` and the polling loop against a remote side that is a function from time to status; validation and content of workload specifications; the credential cache as a least-recently-used list | induction over the polls left, with the first final status as specification; invariant of the client cache over histories |
| C78 | M_Runs.v: the folder of a call of fit, loading, the epochs with stops and interruptions, the checkpoints written in order; parameters and epochs abstract | the numbers written never decrease, so the last one written is the one loaded; induction over histories of calls with frames between folders |
| C79 | M_Step.v: `optimize_step` with the closure run by an arbitrary optimiser; the gradient-free trainer with `update_ng_parameters` over histories; batch results, prefixed metrics, epoch averages; mean squared error with and without broadcasting | induction over the optimiser's evaluations and over histories with an invariant tying the stored candidate to the model; counting lemmas for the means |
| C80 | M_Batches.v: loaders as dataset, order per pass, batch size and drop_last; `_batch_iter`, `_compute_num_batches`, the setters, `fit`, `test`, dictionaries of loaders, preparation for several processes | counting lemmas for groups and for every w-th sample; induction over histories of calls |
| C81 | M_Processes.v: accelerators, the environment variables, ranks of processes, spawning, programs that make and fit trainers, clusters and torchrun | invariants on the environment by induction over programs; the ranks as blocks of a sequence |
| C82 | M_Samples.v: `compute_expectation` on given samples and the predicate `_is_diag_pauli`; the estimator of M_Measure.v | the estimate of a Z string is its value in the read basis state; linearity over the decomposition into terms |
| C83 | M_Engine.v: the two engines' `expectation` in every mode, `sample`, `run`, `circuit`, `observable`, `convert`, over backends, protocols and adjoint expectation given as functions | every parameter of a keyed circuit has a rule, so the restricted dictionary agrees on what is read; index arithmetic for the stacked columns |
| C84 | M_Tracking.v: what callbacks see over a trace of M_Trainer, the callbacks that write, TensorBoard folders, MLflow servers, printing, model signatures | invariants of traces, induction on epochs; refuted for write_every = 0, plot_every = 0, resumed fits, interrupts, MLflow figures and failures |
| C85 | M_Together.v: processes as programs with reductions matched by position, `all_reduce_dict`, `stop_training`, `_aggregate_result`, the loop over epochs, `prepare_batch` | lockstep lemmas for each reduction, induction on batches and epochs; the outcome of a run is unique |
| C86 | M_Diagonal.v: `block_to_diagonal`, the diagonal mode of `_fill_identities`, the sparse branch of `block_to_tensor` | a relation between matrices and diagonals kept by kron, product, sum and scale, induction on blocks; the entries by C03 |
| C87 | M_Modes.v: the flags of class and trainer, the setter of the optimiser, the two context managers, programs of nested contexts with exceptions | case analysis for one context, induction on programs |
| C88 | M_Tags.v: blocks with tags, `get_blocks_by_tag`, `reassign`, `dagger`, `flatten`, `scale_primitive_blocks_only`, `fill_identities` as the drawing uses it, and the block after it | induction on blocks; places of blocks as lists of numbers; agreement with the models without tags |
| C89 | M_Lattice.v and M_Register.v: `from_coordinates`, `rectangular_lattice`, `Register.square` with its rotations | the walk in closed form by induction on the number of missing points; the smallest distance by C38 |
| C90 | M_Circuits.v: circuits as register, device and block with analog parts; `transpile`, `blockfn_to_circfn`, `flatten`, `fill_identities`, `digitalize`, `dagger` on circuits, `rotate`, the circuits of a shadow | induction on blocks over the meaning of C53; two waiting atoms at different distances as the counterexample |
| C91 | M_Spectra.v: the properties `eigenvalues` and `generator` of all operations (`eigenvalues_generator` is in M_Gradient.v) | eigenvalues of controlled 2x2 matrices by the determinant; exponential series of matrices that square to one; states as witnesses for the refuted parts |
| C92 | M_Formula.v: `block_to_mathematical_expression` on the tree of titles, `format_parameter`, the titles of blocks, `observables_to_expression`; texts are strings of characters | a grammar with four levels of precedence as specification; induction on blocks with the invariant that a printed text contains none of the words the printer looks for; names, tags and coefficients as counterexamples |
| C93 | M_Lookup.v: `uuid_to_block`, `uuid_to_expression`, `expression_to_uuids`, `get_block_by_uuid`, `get_blocks_by_expression`, `has_duplicate_vparams` on the blocks of M_Trainable.v | relation between a block and the parameters of its parts as specification; keys and entries of the dictionaries by induction on blocks |
| C94 | M_Cells.v: `triangular_lattice`, `honeycomb_lattice`, `alltoall_graph` for two and three qubits; the generators of networkx (nodes, removed corners, edges, positions) written out | integer quadratic form for the squared distances, case analysis on parities, the lemma on numbered points of C73 |
| C95 | M_SameBlock.v: `assert_same_block` on the classes, supports and comparisons of expressions of M_Equality.v | case analysis on the two gates; reflexivity by induction on blocks; pairs of blocks with different denotations as counterexamples |
| C96 | M_Hyperparams.v: `_handle_hyperparams`, `_filter_tb_hyperparams`, the callback that logs hyperparameters, the writer kept by a trainer; successive trainings | induction on the dictionary and on the sequence of trainings; two short histories as counterexamples |
| C97 | M_Matrix.v: `MatrixBlock.__init__` on shapes, `expand_to` on top of `_fill_identities` of M_Tensor.v | bounds of the binary logarithm; the lemma on filled matrices of C03; accepted sizes that are no powers of two as counterexamples |
| C98 | M_Variance.v: `variance`, the constraints and the call of the optimiser in `calculate_optimal_shifts`; on top of `multi_gap_psr` of M_PSR.v | exchange of sums; bilinearity of the average; a two-gap system as counterexample |


No property of the list turned out to be inexpressible in a model.

## 3. Trusted base

* The Coq 8.16.1 kernel (`coqc`; the files can be re-checked with `coqchk`).
* Axioms of the standard library, exactly as listed per theorem in section 7: `ClassicalDedekindReals.sig_forall_dec` and
  `sig_not_dec` (the construction of the reals), `functional_extensionality_dep` (also used by the reals), and
  `Classical_Prop.classic` (reached through Coquelicot's and the standard library's analysis lemmas).  No axiom of another
  library and none of our own.  No `Admitted`, no disabled kernel check, no functor or module type, no plugin.
* The reading of /repo into the model: each definition of an `M_` file cites the file and lines it models and names its
  simplifications.
* The specification files (`S_`): operator semantics (`S_Ops`, `S_Den`, `S_State`), parameter-shift setting (`S_PSR`), transpilation
  notions (`S_Transpile`), the grammar (`S_Grammar`), the native simulator (`S_Native`, `S_Tensor`), sets (`S_Sets`).
  They are small and do not refer to the library code.

### External functions

Calls into other libraries enter as arguments of the model; theorems assume what is written here and an `Example` beside the
theorem exhibits an instance.

| function | used in | assumed |
|---|---|---|
| iteration order of a Python `set` | all block models | any order listing each element once (`set_order`); C28 needs increasing order |
| object identity (`id`) | C09, C51 | `distinct_objects`: different layers are different objects |
| `torch.linalg.solve` | C22, C28 | returns a solution of a non-singular system, fails otherwise |
| `numpy.polyfit` | C19 | a least-squares polynomial of the requested degree |
| `torch.argsort` | C17 | a permutation that sorts |
| matrix inverse | C18 | the inverse of an invertible matrix |
| random shuffles, draws, initial values | C13, C16, C25, C35 | arbitrary permutations / values; shots Born distributed where a mean is claimed |
| sampling of the backend | C14, C15, C40, C52 | any counter; "exact frequencies" where equality is claimed |
| sympy: free symbols, printing, compiled functions, `hash` | C20 | arbitrary functions |
| sympy: `srepr`, `eval`, name reading, numeric functions | C44, C51 | the text format in `M_Serialize`; `calls_ok` for the arithmetic functions; `hash_sign` |
| networkx edge order | C27 | lexicographic for the three-qubit lattice used in one example |
| register (de)serialisation inside a circuit | C44 | hypothesis of `C44_circuit`; the register itself is C38 |
| user callbacks, optimisation steps | C30, C31 | arbitrary behaviours |
| pyqtorch: operations, run, expectation, sample | C51, C52 | `S_Native`, `S_Tensor` |
| C6 and other device constants | C53 | rational or real arguments |
| eigenvalue and linear solvers | C54 | eigenvalues as given, solutions of non-singular systems |
| `numpy.polyfit`, runs of the simulator | C58 | arbitrary functions of the circuit |
| `run`, `sample`, `expectation` of a backend; order of a ParameterDict | C59, C66 | arbitrary functions of their arguments; insertion order |
| `torch.autograd.grad` | C60, C79 | the gradient function it is given |
| sympy: equality, `equals`, symbols and their cache | C61, C70, C74 | structural or arbitrary equality as stated; a least-recently-used cache of 1000 symbols |
| reading back blocks and noise on load | C62 | the round trip of C44 |
| building blocks of ansatzes (analog rotations, Rydberg maps, random draws, entanglers) | C63, C64 | arbitrary functions |
| random variations, the loss, the inverse normal distribution | C65 | arbitrary functions |
| Pulser: sequences, devices, simulator, cloud | C67, C68 | treatment of a sequence as documented; the simulator as an arbitrary function |
| horqrux operations, `jax.vmap`, `random.choice` | C71 | operations as in `S_Native`; maps act element by element |
| `torch.linalg.eigh`, `eigvalsh` | C72 | a spectral decomposition |
| networkx lattices and layouts, isomorphism | C70, C73 | documented coordinates; an arbitrary test |
| OpenFermion's QubitOperator and `count_qubits` | C75 | the contract in `P_OpenFermion`, met by the reference implementation there |
| pyqtorch's use of noise arguments | C76 | the noise given to an operation is the one used |
| the remote platform, JSON texts, `lru_cache` | C77 | a function from time to status; texts as values; a cache of the documented size |
| `torch.save`, `torch.load`, clock, process numbers | C78 | what is loaded is what was saved; arbitrary numbers |
| torch optimisers, Nevergrad's `tell` and `ask` | C79 | arbitrary functions of what they are given; candidates of the model's size |
| DataLoader, DistributedSampler | C80 | as documented: any order of samples per pass; every w-th sample of the padded dataset |
| `os.environ`, spawned processes | C81 | a copy of the environment at the start of the process |
| the samples given by a user | C82 | arbitrary histograms |
| backends, measurements, pyqtorch's adjoint expectation, `jax.custom_vjp` | C83 | arbitrary functions of what the engines hand to them |
| TensorBoard's purge_step, MLflow experiments, runs and artifacts | C84 | as documented |
| torch.distributed.all_reduce: matches the n-th calls of all processes, blocks or fails when they differ in kind | C85 | as documented |

## 4. What is modelled

* `M_Addressing.v`: Model of qadence/analog/addressing.py (AddressingPattern) and of the values it contributes to each qubit (analog/hamiltonian_terms.py:75-99, backends/pulser/pulses.py:73-89). Parameters stand for their current value.
* `M_Ala.v`: Model of the alternating layer ansatz, qadence/constructors/ala.py. Its functions [_rotations_digital] (82-114) and [_entangler] (117-140) have the same text as those of hea.py, modelled in M_Hea.v. Parameters are identified by their names. [None] stands for a raised exception. The tag of the result is not modelled; the strategies other than DIGITAL raise NotImplementedError (255-270).
* `M_Analog.v`: Model of the analog blocks of qadence/blocks/analog.py: durations and supports. Durations are the values returned by [evaluate] on the duration expression.
* `M_AnalogSwap.v`: Model of AnalogSWAP, qadence/operations/analog.py:35-57. The numbers of the code (floating point) are real numbers here; [None] stands for a raised exception.
* `M_Backend.v`: Model of [Backend.run], [Backend._batched_expectation], [Backend._looped_expectation] and [Backend.sample] (qadence/backends/pyqtorch/backend.py) with the shape helpers of qadence/backends/utils.py and the tensor version of [invert_endianness] (qadence/transpile/invert.py). Noise and measurement protocols are not part of this model.
* `M_Basis.v`: Model of qadence/utils.py:55-165 (basis_to_int, int_to_basis, nqubits_to_basis, samples_to_integers) and of qadence/backends/utils.py:80-184 (count_bitstrings, to_list_of_dicts, infer_batchsize).
* `M_Batches.v`: Model of the data a trainer uses: [Trainer.fit], [run_training], [run_validation], [test] and [_batch_iter] (qadence/ml_tools/trainer.py:290-350, 464-490, 535-561, 577-604, 623-647), the loader setters and [_compute_num_batches] (ml_tools/train_utils/base_trainer.py:232-336), [DictDataLoader] and [InfiniteTensorDataset] (ml_tools/data.py:43-89), and the preparation of loaders for several processes (ml_tools/train_utils/accelerator.py:242-387). A torch DataLoader is given by its dataset, the order in which its sampler goes through the dataset in each pass, its batch size and [drop_last]; DistributedSampler is modelled after its documentation. Moving batches to a device does not change them.
* `M_Block.v`: Blocks: the classes of qadence/blocks and qadence/operations as a syntax tree. Not represented here: tags, noise attributes, parameter uuids (they do not affect the operator) and analog blocks (see M_Analog.v).
* `M_BlockOps.v`: Model of the block methods: supports, constructors, dagger and Python operators (qadence/blocks/{abstract,primitive,composite,utils}.py, qadence/operations).
* `M_Callbacks.v`: Model of callbacks: qadence/ml_tools/callbacks/callback.py:100-193 and callbackmanager.py:149-170.
* `M_Cells.v`: Model of [Register.triangular_lattice], [Register.honeycomb_lattice] (qadence/register.py:218-256) with [triangular_lattice_graph] (371-374) and of [alltoall_graph] for two and three qubits (377-381). networkx's [triangular_lattice_graph(m, n)], [hexagonal_lattice_graph(m, n)] and [relabel_nodes] are external; their generators of nodes, edges and positions (networkx/generators/lattice.py, neither periodic) are written out. A graph is that of M_Shapes.v, its edges with the smaller node first.
* `M_Checkpoint.v`: Model of checkpoint files: qadence/ml_tools/callbacks/saveload.py:17-175. File names are lists of characters.
* `M_Circuits.v`: Model of what functions on circuits do with the register: circuit.py:35-53 and 117-119 (constructor and [dagger]), transpile/circuit.py, transpile/transpile.py, transpile/flatten.py:105-108, transpile/digitalize.py:42-44, measurements/utils.py:103-121 [rotate], measurements/shadow.py:141-160. The blocks are those of M_Rydberg.v, with digital and analog parts. [None]: an exception. Simplifications: the constructor's check of the number of qubits is not modelled (the functions here use no other qubits than the block had, or those of the register); [kron] does not look at the supports again when krons are flattened; edges of registers are not modelled.
* `M_Cloud.v`: Workloads on the remote platform: qadence/pasqal_cloud_connection.py, and the clients of qadence/backends/pulser/cloud.py. The remote side is a function from time to the status of a workload. Simplifications: a request takes no time, so the k-th poll happens after k sleeps; times are real numbers, not floats. Serialization of circuits, observables and numbers to text is an argument (its own properties are those of M_Serialize.v).
* `M_Convert.v`: Model of qadence/backends/pyqtorch/convert_ops.py, of the default passes in qadence/backends/pyqtorch/config.py and of [Backend.circuit] / [Backend.observable] in qadence/backends/pyqtorch/backend.py, on digital blocks without noise.
* `M_Daqc.v`: Model of qadence/constructors/daqc/{daqc,gen_parser,utils}.py. Floating-point numbers are modelled as reals.
* `M_Dataset.v`: Model of InfiniteTensorDataset: qadence/ml_tools/data.py:57-89, and of get_parameters / set_parameters: ml_tools/parameters.py:8-46.
* `M_Decompose.v`: Model of qadence/decompose.py and of HamEvo.digital_decomposition (qadence/operations/ham_evo.py).
* `M_Density.v`: Model of the functions on density matrices and of [equivalent_state] in qadence/states.py:590-720. A batch is a list of matrices (S_Mat.v) or of rows of amplitudes; [d] is the dimension of the matrices. [eigvalsh] and [eigh] stand for torch.linalg's functions of the same name; what is assumed of them is written in P_Density.v ([eigh_ok]). Real numbers instead of floats. [partial_trace] (states.py:601-617) is a call of pyqtorch and is not modelled.
* `M_Derivative.v`: Model of derivatives of a model with respect to its inputs: finitediff and finitediff_sampling, qadence/backends/utils.py:191-243, and _torch_derivative and derivative, qadence/ml_tools/models.py:27-35 and 38-81, with QNN._derivative, 199-210 and 460-461. A tensor of shape (batch, features) is a function of the row and the column, a tensor of outputs a function of the row. torch.autograd.grad is an argument. [None] stands for a raised exception. Simplification: numbers are reals; column indices are not negative.
* `M_Diagonal.v`: Model of the conversion of diagonal observables to vectors and sparse tensors: [block_to_diagonal], the diagonal mode of [_fill_identities] and the branch SPARSEDIAGONAL of [block_to_tensor], all in qadence/blocks/block_to_tensor.py. The dense conversion is in M_Tensor.v, the predicate [_is_diag_pauli] in M_Samples.v. Simplifications: the values of a scale are given as a list (one value for each element of the batch, a single one for a constant); device arguments and gradients are ignored; an exception is [None].
* `M_Digitalize.v`: Model of qadence/transpile/digitalize.py on blocks, and of U.digital_decomposition (qadence/operations/parametric.py). [None] stands for a raised exception. The circuit version (digitalize.py:42-44) applies it to the block of the circuit and builds a new circuit on the same number of qubits, without the register; tags are not modelled.
* `M_Divergences.v`: Model of qadence/divergences.py. A Counter is an association list of outcomes (strings) and values with distinct keys.
* `M_EarlyStop.v`: Model of EarlyStopping: qadence/ml_tools/callbacks/callback.py:669-745, and SaveBestCheckpoint 412-444.
* `M_Embedding.v`: Model of qadence/blocks/embedding.py, of [stringify] in qadence/parameters.py and of [merge_separate_params] in qadence/utils.py.
* `M_Engine.v`: Model of the engines that wrap a backend: qadence/engines/differentiable_backend.py, the classes of the same name in qadence/engines/torch/differentiable_backend.py and qadence/engines/jax/differentiable_backend.py, and the part of DifferentiableExpectation (qadence/engines/torch/differentiable_expectation.py, qadence/engines/jax/differentiable_expectation.py) that decides what is computed and with which arguments; Backend.convert of qadence/backend.py as far as it refuses circuits and observables. Gradients are in M_PSR.v and M_Gradient.v. The wrapped backend, the measurement protocols and pyqtorch's adjoint expectation are functions given as arguments. A table of expectation values is a list of rows, one for each element of the batch. An exception is [None].
* `M_Equality.v`: Comparing blocks, registers and circuits with [==], and asking whether a block or a parameter is [in] a block or a circuit (the methods [__eq__] and [__contains__] of blocks/primitive.py, blocks/composite.py, register.py, circuit.py and parameters.py). Python calls the left operand's [__eq__] unless the class of the right operand is a proper subclass of the left one's; every [__eq__] here answers False (and not NotImplemented) unless the argument is an instance of its own class. Together: operands of different classes are unequal, also when one class extends the other. Simplifications: tags are absent ([tag == tag] is one more conjunct); parameters with the same name are the same parameter (the value and [trainable] are two more conjuncts of parameters.py:138-142); a controlled gate and its multi-controlled form with one control (CZ and MCZ, CNOT and a Toffoli with one control, CRX and MCRX) are one class, and so are HamEvo and AnalogSWAP; PutBlock and the analog blocks (whose [__eq__] always raises, blocks/analog.py:33-34) are absent.
* `M_Execution.v`: Model of qadence/execution.py, of backend_factory and config_factory in qadence/backends/api.py, of set_backend_config in qadence/extensions.py and of the constructor of QuantumCircuit (qadence/circuit.py:34-52), with the part of QuantumModel (qadence/model.py) they are compared with. Python values that are only handed on are opaque. Calls follow Python's rules for positional and keyword arguments and functools.singledispatch. Configuration objects are mutable and live in a heap. An exception is [None]. The backends' own convert, run, sample and expectation are arguments of the model.
* `M_FeatureMap.v`: Model of qadence/constructors/feature_maps.py:21-199 (feature_map) and 202-235 (exp_fourier_feature_map).
* `M_Features.v`: Model of the assignment of qubits to features: qadence/ml_tools/constructors.py:47-86 and qadence/constructors/utils.py:71-96.
* `M_Fill.v`: Model of qadence/transpile/block.py:285-417 (fill_identities, chain_single_qubit_ops) and qadence/transpile/circuit.py. Tags are not modelled.
* `M_Formula.v`: Model of the formulas printed for observables: qadence/utils.py:321-368 [block_to_mathematical_expression], utils.py:188-198 [format_parameter], the titles of blocks (blocks/abstract.py:222-236, blocks/composite.py:71-78, blocks/primitive.py:269-292) and model.py:677-697 [QuantumModel.observables_to_expression]. Blocks with tags are those of M_Tags.v. Simplifications: the sign of the tensor product is written as the single character @; the text sympy prints for a rounded expression, whether it is known to be real, the qubits of a block and the titles of blocks other than the parameter-free one-qubit operations are given; a numeral is an optional minus sign, digits and at most one point (Python also accepts an exponent, underscores and spaces, which are read like any text that is no numeral). [None]: an exception (IndexError).
* `M_Gradient.v`: Model of gradients with the parameter-shift rules, from the circuit to the gradient of every gate parameter: qadence/blocks/utils.py (uuid_to_block, uuid_to_eigen), the spectra declared in qadence/operations, qadence/engines/torch/differentiable_expectation.py (construct_rules, PSRExpectation). The circuit is at gate level: the value of each gate parameter is found under its identifier (uuid) in the dictionary of values, so the expression of a gate parameter is [EVar uuid]. One element of the batch is considered, as in M_PSR.v. Analog blocks and measurement protocols are not modelled.
* `M_Grammar.v`: Model of qadence/serialization.py:75-104 ([_parser_fn], [parse_expr_fn]) together with the grammar file qadence/serial_expr_grammar.peg:1-11, as arpeggio runs it: ordered choice, greedy repetition, regular expressions matched at the current position, and white space skipped before every terminal. Simplification: characters are 8-bit ([\d] means 0-9).
* `M_Hamiltonians.v`: Model of qadence/constructors/hamiltonians.py and of [create_observable] in qadence/ml_tools/constructors.py.
* `M_Hea.v`: Model of the hardware-efficient ansatz, qadence/constructors/hea.py. Parameters are identified by their names. [None] stands for a raised exception. The tag of the result is not modelled.
* `M_Horqrux.v`: Model of qadence/backends/horqrux/convert_ops.py, of the default passes in qadence/backends/horqrux/config.py, of [Backend.circuit], [observable], [run], [expectation] and [sample] in qadence/backends/horqrux/backend.py, and of [block_to_jax], [horqify], [unhorqify] and [uniform_batchsize] in qadence/backends/jax_utils.py, on digital blocks. What horqrux's operations and jax's array functions do is written down here as well ([hden], [native_apply], [native_expectation], [vmap]); it is trusted.
* `M_Hyperparams.v`: Hyperparameters of successive trainings with one configuration: which of them reach the tracking tool. qadence/ml_tools/train_utils/config_manager.py (_handle_hyperparams, _filter_tb_hyperparams), callbacks/callbackmanager.py (initialize_callbacks), callbacks/callback.py (LogHyperparameters), trainer.py (_fit_setup). A dictionary is a list of keys and values in order of insertion. A value is its Python type and an element of an arbitrary type; of subclasses only bool (of int) occurs, and it is allowed itself. One process trains (rank 0), and every training reaches its end. What the tools do with the dictionary they are given is not modelled.
* `M_Iia.v`: Model of the identity-initialised ansatz, qadence/constructors/iia.py. A parameter is its name; the initial value given to it is recorded beside the block, in the order in which the parameters are created. [None] stands for a raised exception. Tags are not modelled; the random numbers of iia.py:140 are the argument [alpha].
* `M_Information.v`: Model of the information content of a loss landscape: qadence/ml_tools/information/information_content.py:16-339 (InformationContent). Simplifications: numbers are real numbers; tensors are lists (views keep the order of the elements); the random variations of the parameters are given, as is the loss, a function of the values of the parameters by name; NormalDist().inv_cdf is given, with [None] for a probability it refuses; the caches of calculate_IC and q_value are left out, as they do not change the values; the warning is left out; [None] stands for a raised exception. A quotient 0/0, for fewer than three variations, is nan in the code, which the comparison with 1e-4 turns into no contribution; here it is 0, with the same effect.
* `M_Lattice.v`: Model of [Register.square] (qadence/register.py:140-176): the points of its loop and the register made from them. The points are integers until their mean is subtracted; edges and devices are not modelled, as in M_Register.
* `M_Lookup.v`: Model of the search for blocks by their parameters: qadence/blocks/utils.py:216-264 (uuid_to_block, uuid_to_expression, expression_to_uuids), 403-427 (get_block_by_uuid, get_blocks_by_expression, has_duplicate_vparams). Blocks, expressions and parameter objects are those of M_Trainable.v. Simplifications: expressions are compared by their form (sympy brings them into one when they are made); parameters are compared by identity (C74 is about constructing them); uuids are numbers. [None]: KeyError.
* `M_Matrix.v`: Model of making a MatrixBlock and of its method [expand_to]: qadence/blocks/matrix.py:63-91 and 125-132. Simplifications: the matrix is of type complex128, so that the checks for unitary and Hermitian matrices, which only warn, do not raise; [int(log(size, 2))] is the integer part of the logarithm (it is computed in floating point); a result of [expand_to] with a batch dimension of 1 and one without are the same. The register of qubits of the block is C01.
* `M_Measure.v`: Model of qadence/measurements/utils.py and measurements/tomography.py.
* `M_Model.v`: Model of the state of a QuantumModel and of its methods, qadence/model.py:113-452, with Backend.convert, qadence/backend.py:188-253. The parameter objects of the circuit and of the observables are mutable and live in a heap (M_Trainable); the embedding is the one of M_Embedding. The backend's run, sample and expectation are arguments: functions of the embedded parameters and the other arguments. Simplifications: constant matrices are treated as the other constants; parameters hold one number each.
* `M_Modes.v`: Model of the two modes of optimisation of a trainer (with gradients, or gradient-free) and of the ways to switch between them: ml_tools/train_utils/base_trainer.py ([use_grad], [set_use_grad], the setter of [optimizer], [enable_grad_opt], [disable_grad_opt]). Simplifications: one trainer; optimisers are known by their kind and a number; the flag [use_grad] of the callback manager, which nothing reads, is left out; arguments of other types (TypeError) are left out.
* `M_Names.v`: Python's f"{n}" for a non-negative integer, as a string.
* `M_Noise.v`: Model of qadence/noise/protocols.py (class NoiseHandler). Python lists are objects: handlers hold references to a protocol list and an option list. Every operation a caller can perform is a step on a heap of such lists.
* `M_NoiseRun.v`: Noise on gates over histories of calls: qadence/transpile/noise.py, apply_fn.py and the noise handling of qadence/backends/pyqtorch/backend.py and convert_ops.py. Blocks and noise handlers are objects with identity, because [set_noise] assigns to the objects a circuit is made of and a handler can be extended after it was given to a gate. A world holds the leaf blocks, the noise handlers and the converted circuits made so far; the calls a user can make are steps on worlds. Simplifications: what a circuit executes is recorded as the sequence of its native leaf operations (which class of gate, which digital noise), not with the shape of the composition around them; a scaled block contains one gate; analog blocks and registers with a device are left out, so the first default pass does nothing (analog/parse_analog.py:49,62-63). Whether a handler is valid is the subject of M_Noise.v.
* `M_OpenFermion.v`: Exchange of observables with OpenFermion: qadence/blocks/manipulate.py. OpenFermion itself is not part of the library: its [QubitOperator] is a record of operations ([qubit_operators]), constrained by the contract of P_OpenFermion.v; an implementation that meets the contract is given there. The value of a parameter is the one stored in it when the block is converted ([rho0], the result of [evaluate], parameters.py:233-283). Analog blocks, for which the registered default calls itself without end (manipulate.py:47-49), are not represented.
* `M_Overlap.v`: Model of qadence/overlap.py.
* `M_PSR.v`: Model of qadence/backends/parameter_shift_rules.py (all of it except the optimiser-based choice of shifts, agpsr_utils.py), of the rescaling of spectra in blocks/utils.py:267-328 and engines/torch/differentiable_expectation.py:204-227, and of the rule used by the JAX engine.
* `M_ParamObjects.v`: Model of the parameter objects of qadence/parameters.py: [Parameter.__new__] from a name or a parameter, [__eq__], [__hash__], [_to_dict], [_from_dict] and [evaluate]. sympy is external; what is used of it is part of the model: [Symbol.__new__] drops assumptions that are None, turns the others into booleans (Symbol._sanitize) and looks the symbol up in a least-recently-used cache of 1000 entries whose keys are the class, the name and the assumptions in the order given (sympy.core.cache.cacheit, functools.lru_cache); the hash of a symbol is that of its name and its sorted assumptions. So two calls may return one object, and the constructor then writes its attributes again. Values are complex numbers (tensors and infinities are not modelled); [rand(1).item()] is an argument of each call.
* `M_Pauli.v`: Model of the Pauli-Hamiltonian helpers of qadence/blocks/utils.py and of [is_identity] (qadence/blocks/abstract.py).
* `M_Processes.v`: Model of how a training is spread over processes: [Accelerator.__init__], [distribute], [_spawn_method] and [worker] (qadence/ml_tools/train_utils/accelerator.py:61-89, 117-147, 150-184, 208-240), [Distributor] with [setup_process_rank_environment] and [start_process_group] (train_utils/distribution.py:42-83, 85-190) and the two ways of execution (train_utils/execution.py:151-168, 233-300, 324-385, 388-425). Processes are modelled up to the point where the process group is created; addresses are left out, ports are numbers.
* `M_PulserBackend.v`: Model of the execution of circuits by the Pulser backend: qadence/backends/pulser/backend.py:43-47 (_convert_init_state), 86-126 (simulate_sequence), 163-351 (Backend) and to_list_of_dicts in qadence/backends/utils.py:98-109. A backend has two pieces of mutable state: the native sequence of a converted circuit and the simulation configuration. A call gives its result and the state afterwards; a raised exception is [None]. Simplifications: parameter values are one-dimensional real tensors; one converted circuit; the simulator, the cloud, the observables and the inversion of the endianness are functions given to the model (so a random draw depends on what is sampled only); a sequence is described by the variables it declares, the values assigned to them, the addressing patterns added to it and whether it has been measured; Pulser refuses to change or measure a measured sequence, to declare the channels of a pattern twice and to build a sequence without the values of all its variables; building makes a copy. Measurement and mitigation protocols are left out.
* `M_Pulses.v`: Model of the translation of blocks to pulses: qadence/backends/pulser/pulses.py, make_sequence in qadence/backends/pulser/backend.py:56-82 and qadence/backends/pulser/devices.py. A Pulser sequence is the list of the calls made on it; what Pulser does with them, including its own checks of the limits of a device, is not modelled. Numbers are real numbers; a waveform is a list of segments (duration in ns, first and last value in rad/us). A value that is not a number becomes a variable of the sequence, named by its uuid, and is here the real number that an assignment gives to it. The computation of the eigenvalues of a rotation, the warnings and the creation of the Pulser register are left out. [None] stands for a raised exception.
* `M_Qcnn.v`: Model of the quantum convolutional network: qadence/ml_tools/qcnn_model.py:16-163 (QCNN) and qadence/ml_tools/constructors.py:828-1076 (_create_feature_map_qcnn, _get_block_params, _create_single_W, _create_conv_layer). Simplifications: numbers are natural numbers (a negative odd depth, which gives an empty layer, is left out); tags are left out; the dictionary params is split into its counters, which are the entries param_index_l_r, and its parameters, which are named by their keys; the angles of the feature map are numbers, computed from the values of the features; the entangler is a function of two qubits; [None] stands for a raised exception.
* `M_Qft.v`: Model of qadence/constructors/qft.py, digital strategy.
* `M_QftDaqc.v`: Model of the sDAQC strategy of the quantum Fourier transform, qadence/constructors/qft.py:118-232. [None] stands for a raised exception. Floating-point numbers are modelled as reals. torch.linalg.solve is the argument [solve] of M_Daqc.v.
* `M_Qnn.v`: Model of QNN, qadence/ml_tools/models.py:84-104 and 107-461, on top of the model of QuantumModel (M_Model): the inputs given to the constructor, the columns of an input tensor, and the calls that are handed on to QuantumModel. Simplifications: a tensor with two or more dimensions enters only through its slices values[:, j]; sympy.symbols makes one symbol with the given name (no blanks, commas or ranges); the differentiation of the inputs is in M_Derivative; from_configs and the printed form are left out.
* `M_QnnConfig.v`: Model of the construction of a QNN from configurations: qadence/ml_tools/config.py:271-474 and 477-581 (FeatureMapConfig, AnsatzConfig) and qadence/ml_tools/constructors.py:89-707 and 745-825 (the feature maps, the ansatz, the layers between the uploads, the circuit). The observable is in M_Hamiltonians, the functions feature_map, hea, iia and ala in their own files. Simplifications: the register is a number of qubits 0..n-1; tags are left out; the angles of a feature map are numbers, computed from the values that the features and the trainable weights have in an environment; [None] stands for a raised exception. Blocks made by an analog operation, by rydberg_feature_map and by rydberg_hea enter through functions that return them.
* `M_QubitSupport.v`: Model of qadence/qubit_support.py (QubitSupport, a subclass of tuple).
* `M_Readout.v`: Model of qadence/mitigations/readout.py:23-165 (readout mitigation with the MLE option). Real numbers stand for floats.
* `M_Register.v`: Model of qadence/register.py. A register is the node dictionary of its graph: nodes (integers) with their 2D positions, in insertion order. Edges and device specifications are not modelled here.
* `M_Runs.v`: Successive trainings: the folder a call of [Trainer.fit] works in, what it loads from it and what it leaves there. qadence/ml_tools/train_utils/config_manager.py, callbacks/callbackmanager.py (start_training, initialize_callbacks), callbacks/callback.py (_should_call, SaveCheckpoint, SaveBestCheckpoint), callbacks/saveload.py and trainer.py (fit, _fit_setup, _train, _train_epochs). The parameters of a model are a type argument; an epoch is an arbitrary function on them; one process trains (rank 0 of world size 1). The name of a checkpoint file is its iteration or "best": that different iterations have different names and that the search finds the largest is C33; one class of models and one device are assumed.
* `M_Rydberg.v`: Model of the translation of analog blocks into Hamiltonian evolutions: qadence/analog/hamiltonian_terms.py, qadence/analog/parse_analog.py, qadence/transpile/apply_fn.py and the constructors of qadence/operations/analog.py. Every analog parameter (duration, omega, delta, phase, the numbers of the addressing pattern) stands for its current value. AnalogEntanglement and scaled analog blocks, which the translation leaves as they are, are not modelled.
* `M_RydbergHea.v`: Model of the ansatz and feature maps for neutral atoms: qadence/constructors/rydberg_hea.py and qadence/constructors/rydberg_feature_maps.py. Parameters are identified by their names. [None] stands for a raised exception.
* `M_SameBlock.v`: Model of [assert_same_block] (qadence/blocks/utils.py:542-557), which the project's tests of daggers rely on. Classes, supports and comparisons of expressions are those of M_Equality.v, with the simplifications stated there. The name of a block is a constant of its class, so that the second assertion follows from the first. [expressions] (of the generator of a HamEvo) is an argument. The result is true if no assertion fails.
* `M_Samples.v`: Model of qadence/measurements/samples.py ([compute_expectation] from given samples) and of the predicate [_is_diag_pauli] of qadence/blocks/abstract.py. The estimator itself, [pauli_z_expectation] of qadence/measurements/utils.py, is in M_Measure.v and the decomposition into terms in M_Pauli.v. An exception is [None].
* `M_SaveLoad.v`: Model of saving and loading a QuantumModel and a QNN: _to_dict, _from_dict and load_params_from_dict of qadence/model.py:463-582 and qadence/ml_tools/models.py:463-502, with _from_dict of qadence/measurements/protocols.py:35-38. Simplifications: blocks, the parameter objects and noise models come back as they were (C44 says when); parameters hold one number each, so copying never fails for its shape; backend, diff_mode and configuration are left out.
* `M_Schedulers.v`: Model of the learning-rate callbacks: qadence/ml_tools/callbacks/callback.py:487-666. An optimiser is the list of the learning rates of its parameter groups. Real arithmetic instead of floats.
* `M_Serialize.v`: Model of qadence/serialization.py ([serialize], [deserialize] and the classes they dispatch to), of the [_to_dict] / [_from_dict] methods of the block classes (blocks/primitive.py, blocks/composite.py), of ParamMap and Parameter (parameters.py) and of QuantumCircuit (circuit.py). A Python exception is [None].
* `M_Shadow.v`: Model of qadence/measurements/shadow.py.
* `M_Shapes.v`: Model of the graphs of the registers in qadence/register.py: the edges and positions of [Register.line], [square], [circle] and [rectangular_lattice], [edge_distances], and the sharing of a graph between registers. A graph is its node dictionary (M_Register.v) and its edges, the smaller node first. networkx's grid_2d_graph (nodes in row-major order; a ring when periodic with more than two nodes and one column), relabel_nodes and set_node_attributes are written as what they do here; [circular_layout] is an argument, its contract is in P_Shapes.v. The triangular and honeycomb lattices are in M_Cells.v; the spring layout of [all_to_all] is not modelled.
* `M_Spectra.v`: Model of the declared spectra of operations: the properties [eigenvalues] and [generator] of qadence/operations/primitive.py, operations/parametric.py, operations/control_ops.py, operations/ham_evo.py and blocks/primitive.py:262-267 (ScaleBlock). The property [eigenvalues_generator] is in M_Gradient.v. [None]: an exception, or a block this property is not modelled for: projectors, compositions and matrices, whose eigenvalues torch computes (blocks/abstract.py:66-73). Simplifications: a parameter is read at one value (no batch); a controlled block that is no operation of the library has no declared spectrum.
* `M_States.v`: Model of qadence/states.py: state vectors and the blocks that prepare them.
* `M_Step.v`: One step of an optimisation and the loss that is reported: qadence/ml_tools/optimize_step.py, the parts of trainer.py and train_utils/base_trainer.py around it, loss/loss.py. Torch's gradients, its optimisers and Nevergrad are arguments: an optimiser of Torch is a program that evaluates its closure any number of times at parameters of its choice, one of Nevergrad is a state with [tell] and [ask]. Simplifications: real numbers instead of floats; one process; all trainable parameters belong to the optimiser.
* `M_Stretch.v`: Model of zero-noise extrapolation by pulse stretching, qadence/mitigations/analog_zne.py:42-113 [pulse_experiment] and 153-193 [analog_zne]. The noisy simulation of a circuit and the expectation value of an observable at its end is the argument [measure]; it gives one value for each set of parameter values. [None] stands for a raised exception.
* `M_Tags.v`: Model of the tags of blocks: circuit.py:120-142 [get_blocks_by_tag], and what the transformations of blocks do with tags: invert.py:15-48 [reassign], blocks/composite.py:144-146 and the other [dagger] methods, flatten.py:19-119 [flatten], transpile/block.py:185-282 [scale_primitive_blocks_only], transpile/block.py:285-367 [fill_identities], draw/utils.py:157-175. A block with tags is a tree whose leaves are the blocks of M_Block.v without parts; [erase] forgets the tags. [None]: an exception. Simplifications: PutBlocks and analog blocks are left out; the parts of a block are different objects, so that what is assigned to the tag of one does not show in another; after an exception nothing is said about the tags.
* `M_Tensor.v`: Model of qadence/blocks/block_to_tensor.py with torch matrices as (size, entries). Simplifications: the batch dimension is 1; parameters are given by their values ([ev], [ang], see M_Block.v) instead of the embedded dictionary; device arguments are ignored; [matrix_exp] is the mathematical exponential series.
* `M_Together.v`: Model of processes that train together: the collective operations of accelerator.py ([all_reduce_dict]) and the parts of trainer.py that use them ([stop_training], [_aggregate_result], [_train_epochs], [run_training]), and the preparation of batches (accelerator.py [prepare_batch], ml_tools/data.py [data_to_device]). A process is a program that takes part in reductions; torch.distributed matches the n-th reduction of every process with the n-th reductions of the others. Simplifications: losses and metrics are real scalars, marked as integer tensors or not; the gradient averaging of DistributedDataParallel is left out; validation is not modelled separately (it aggregates in the same way).
* `M_Tracking.v`: Model of experiment tracking: qadence/ml_tools/callbacks/writer_registry.py, the callbacks of callback.py that use a writer (WriteMetrics, PlotMetrics, LogHyperparameters, LogModelTracker, PrintMetrics) and callbackmanager.py (initialize_callbacks, start_training, end_training), on top of the traces of [M_Trainer] and of [M_Callbacks]. A log folder of TensorBoard and an MLflow server are modelled by what they have been told; what TensorBoard shows follows its documentation: a session that starts with purge_step n hides everything earlier with a step of n or more. Simplifications: frequencies are natural numbers; callbacks of the user that replace the optimisation result are left out; a stage at which a callback raises is treated as if the callbacks of the writer had run.
* `M_Trainable.v`: Model of qadence/transpile/block.py:44-129 (set_trainable, set_as_variational, set_as_fixed) and of qadence/blocks/utils.py:201-252 (parameters, uuid_to_block, uuid_to_expression). Parameter objects are mutable: they live in a heap and are referred to by their identity. Blocks are modelled as far as their parameters are concerned.
* `M_Trainer.v`: Model of the training loop: qadence/ml_tools/trainer.py:287-604, 698-711 and qadence/ml_tools/train_utils/base_trainer.py:314-397.
* `M_Transpile.v`: Model of qadence/transpile/{flatten,block,invert,circuit,apply_fn,transpile}.py on digital blocks. Constructors can fail ([KronBlock.__init__]); [None] stands for the raised exception. Tags are not modelled except where stated.
* `M_Validate.v`: Model of qadence/transpile/block.py:132-182 ([validate]) and of the blocks it produces, in which nested blocks use local qubit numbers (composite.py:152-180 [PutBlock]). Tags are not modelled.
* `M_Variance.v`: Model of the choice of shifts for the multi-gap parameter-shift rule: qadence/backends/agpsr_utils.py ([variance], [calculate_optimal_shifts]). torch.linalg.solve, torch.linalg.pinv and scipy.optimize.minimize are function arguments. The cache of [calculate_optimal_shifts] (its key includes the identity of the tensor of gaps) is not modelled.
* `M_Waveforms.v`: Model of qadence/backends/pulser/waveforms.py, over real arithmetic (numpy's [round] is half-to-even, [M_PSR.rint]).
* `M_Zne.v`: Model of qadence/mitigations/analog_zne.py:24-39 [zne].

## 5. What is not modelled

* Floating-point rounding, dtypes, devices, performance; gradients inside torch autograd or JAX (they enter as functions).
* The simulators themselves: pyqtorch, horqrux and Pulser are specified by what their operations denote; noisy simulation
  is modelled as which noise reaches which operation (C29, C76), not as a density-matrix evolution; the adjoint
  differentiation mode.
* `ml_tools`: writers (tensorboard, mlflow) beyond the calls made to them, communication between the processes of a
  distributed training after the process group exists, DistributedDataParallel.
* The network protocol and authentication of the cloud service beyond C77.
* Drawing, logging, the texts of exceptions.

## 6. Findings

Each is a theorem ending in `_refuted`: a claim a user could expect, shown false of the modelled code with a concrete witness.

* `C01_global_associativity_refuted` (P_QubitSupport.v): with a global operand the sum is not associative: ("global" + {2}) + {5} omits qubits 3, 4.
* `C02_nqubits_refuted` (P_Support.v): n_qubits is wrong for several leaf gates (T, TDagger, U, controlled rotations, Toffoli, MatrixBlock): it counts qubits, or returns 1, instead of one more than the largest index.
* `C03_block_to_tensor_refuted` (P_Tensor.v): Wrong matrix: Projector with ket <> bra (transposed), N in state 0 (converted as N), TDagger (TypeError), MatrixBlock on qubits in decreasing order or with gaps.
* `C04_dagger_refuted` (P_Dagger.v): dagger() is not the adjoint for U with different outer angles, for Projector with ket <> bra and for a non-Hermitian MatrixBlock.
* `C05_pow_zero_refuted` (P_Operators.v): Zero() ** 0 is the zero operator, not the identity.
* `C07_empty_chain_refuted` (P_Flatten.v): an empty chain swallows the factor.
* `C08_invert_evolution_refuted` (P_Invert.v): HamEvo keeps acting on the original qubits: its generator is not reassigned.
* `C09_shared_layer_refuted` (P_ChainOps.v): With the same layer object used twice, chain(k, k) for k = kron(X(0), X(1)), the two layers share one iterator and the rewritten block has a different operator.
* `C10_fill_identities_refuted` (P_Fill.v): It raises an exception on valid blocks with a gap, such as kron(CNOT(0,2), X(1)).
* `C10_validate_evolution_refuted` (P_Validate.v): With a HamEvo the generator keeps its global qubits and the operator changes.
* `C11_control_refuted` (P_Trainable.v): The parameters of a block inside a plain ControlBlock are not reached.
* `C12_negative_refuted` (P_Basis.v): Negative integers are not rejected: the result is not a basis string.
* `C12_samples_mixed_lengths_refuted` (P_Basis.v): Strings of different lengths can collide, and then counts are lost.
* `C12_zero_qubits_refuted` (P_Basis.v): For zero qubits the single basis state is written with one character.
* `C13_empty_refuted` (P_States.v): No qubits: the vector constructors and the Kronecker blocks raise, the GHZ block still acts on qubit 0.
* `C14_unequal_refuted` (P_Measure.v): With different totals the value can leave [-1, 1]: the first histogram's total normalises all of them.
* `C15_identity_factor_refuted` (P_Tomography.v): Identity factors are counted in the parity: kron(Z(0), I(1)) is measured as Z(0) Z(1).
* `C15_inner_scale_refuted` (P_Tomography.v): A factor inside the string is not looked at: chain(2 * Z(0), Z(1)) is measured as Z(0) Z(1).
* `C15_little_refuted` (P_Tomography.v): Little-endian outcome strings are read with big-endian positions.
* `C15_nested_refuted` (P_Tomography.v): Nested tensor products: only the first qubit of the inner product is read.
* `C15_number_refuted` (P_Tomography.v): N is measured as Z.
* `C15_repeated_refuted` (P_Tomography.v): A repeated letter, chain(Y, Y, Y) on one qubit, is measured as one Y after three basis changes.
* `C16_budget_refuted` (P_ShadowBudget.v): The condition on the groups is not what the budget provides: N rows are split into K groups of N / K rows instead of taking N rows for each group. With one observable Z(0), accuracy 9/10 and confidence parameter 2 exp(-64) the budget is 126 rows and 128 groups, which are then empty: on |00>, where Z(0) is 1, the value returned is 0 for all rows and outcomes.
* `C16_little_refuted` (P_Shadow.v): Little-endian shadow runs reverse the outcomes but not the measured bases.
* `C16_order_refuted` (P_Shadow.v): kron(X(1), Z(0)) is estimated as kron(X(0), Z(1)).
* `C18_few_shots_refuted` (P_Readout.v): Too few shots: seven outcomes of probability 11/80 and one of 3/80 with four shots divide zero by zero.
* `C19_degree_refuted` (P_Zne.v): A curve of higher degree is not recovered: with two levels, x(x-1)(x-2)/1 + (x-1)(x-2) is extrapolated to 0 although its value at 0 is 2.
* `C20_constants_refuted` (P_Embedding.v): Two gates with the constant angles -1 and -2 receive the same angle, because hash(-1) = hash(-2).
* `C20_dot_refuted` (P_Embedding.v): A dot in a name becomes an underscore in the backend's dictionary: the gate with Parameter("a.b") reads the value of "a_b".
* `C21_jax_refuted` (P_PSR.v): The JAX engine's fixed spectral gap is wrong for controlled rotations.
* `C21_zero_denominator_refuted` (P_PSR.v): Default settings divide by zero for an evolution under a generator with eigenvalues -2 and 2 (for instance 2 Z).
* `C22_no_gap_refuted` (P_PSR.v): Generators without a gap (a multiple of the identity): the derivative is zero but the rule fails.
* `C22_rounding_refuted` (P_PSR.v): Gaps are rounded to four decimals: a gap of 1/100000 is taken to be zero and the rule fails although the derivative is not zero.
* `C24_periodic_odd_refuted` (P_Hea.v): With an odd number of qubits the ring is never closed, although periodic linking is requested.
* `C24_single_qubit_refuted` (P_Hea.v): A single qubit is rejected.
* `C25_name_clash_refuted` (P_Iia.v): The set of parameters is unordered, so either of two parameters with the same name may determine the value (qadence/blocks/embedding.py:91-92 and 167-169).
* `C26_end_point_refuted` (P_FeatureMap.v): A scaling factor within 1e-9 of one is dropped, so the end of the feature range can miss the end of the target range.
* `C27_ising_config_refuted` (P_Hamiltonians.v): On two qubits the term Z on qubit 0 is missing.
* `C27_names_refuted` (P_Hamiltonians.v): On a register of 113 qubits the pairs (1, 112) and (11, 12) share the parameter p_1112, whatever else is built.
* `C28_order_refuted` (P_Daqc.v): A target Z Z on qubits 1 and 8 of nine is taken for one on qubits 4 and 7: with the build Hamiltonian on qubits 4 and 7 the transform returns the evolution of the build Hamiltonian, which is not the target evolution.
* `C29_class_object_refuted` (P_Noise.v): The enumeration class itself, as used in the class documentation, is not recognised as a readout noise.
* `C29_eq_refuted` (P_Noise.v): Two handlers compare equal when one has extra protocols at the end.
* `C29_shared_list_refuted` (P_Noise.v): The lists given to the constructor are kept by reference: changing such a list afterwards breaks the rules.
* `C30_epoch_count_refuted` (P_Trainer.v): A run without stop requests executes max_iter + 1 epochs.
* `C31_epoch_start_refuted` (P_Callbacks.v): A callback registered for the start of epochs looks at the result of the previous epoch: with called_every = 2 it runs at the start of epochs 3, 5, ... and not at 2, 4, ...
* `C32_mode_refuted` (P_EarlyStop.v): a mode other than "min" and "max" is accepted; then nothing ever counts as an improvement and the run is stopped at evaluation [patience] whatever the metric does.
* `C33_class_name_refuted` (P_Checkpoint.v): The type is searched anywhere in the name: a model class whose name contains "opt" makes its checkpoint an optimiser checkpoint.
* `C33_crash_refuted` (P_Checkpoint.v): A crash between the model write and the optimiser write of one checkpoint: resuming combines the model of iteration 2 with the optimiser of iteration 1, without any error.
* `C33_single_file_refuted` (P_Checkpoint.v): With a single file the device is ignored.
* `C33_torn_write_refuted` (P_Checkpoint.v): A crash while the model file is being written: the unreadable file is chosen, nothing is loaded into the model, the run restarts at iteration 0, but the optimiser state of iteration 1 is loaded.
* `C34_cosine_refuted` (P_Schedulers.v): ... but two calls do not follow it: the rate is annealed again from its current value instead of its initial value.
* `C35_empty_refuted` (P_Dataset.v): With no rows, the first next never returns; tensors of different lengths are detected.
* `C35_two_iterators_refuted` (P_Dataset.v): Starting a second iterator reshuffles the list the first one is walking through: a sample may repeat within a pass.
* `C36_num_parameters_refuted` (P_Dataset.v): num_parameters, documented as the total number of parameters, skips frozen ones.
* `C36_partial_write_refuted` (P_Dataset.v): A too short vector fails after earlier parameters have been overwritten.
* `C36_surplus_refuted` (P_Dataset.v): Surplus entries of the vector are ignored silently.
* `C37_fm_qubits_refuted` (P_Features.v): otherwise the last qubit belongs to no feature.
* `C38_round_trip_refuted` (P_Register.v): A line of two qubits with spacing 2 does not survive the round trip.
* `C39_norm_refuted` (P_Divergences.v): In general the outcomes are ignored: two counters with opposite frequencies are at distance zero.
* `C40_narrow_refuted` (P_Overlap.v): A circuit that is a lone T gate (or U, CPHASE, matrix block) reports too few qubits: the Hadamard test raises KeyError.
* `C40_shared_feature_refuted` (P_Overlap.v): Bra and ket share a feature name and get different values: compute-uncompute (like the swap test) runs its single circuit with the bra's values only, so it reports the overlap of the ket with itself.
* `C41_gap_refuted` (P_Decompose.v): A gap: X(0) X(2) is exponentiated as X(0) Z(1) X(2).
* `C41_identity_refuted` (P_Decompose.v): An identity factor: X(0) I(1) is exponentiated as X(0) Z(1).
* `C41_number_refuted` (P_Decompose.v): The number operator is exponentiated as Z.
* `C41_odd_y_refuted` (P_Decompose.v): Orders ST2 and ST4 run terms with an odd number of Y backwards in their second half.
* `C41_order_ignored_refuted` (P_Decompose.v): digital_decomposition ignores the requested order for non-commuting generators: the answer of the commutation check is discarded.
* `C41_single_kron_refuted` (P_Decompose.v): A tensor product with a single factor: kron(X(0)) is exponentiated as Z(0).
* `C42_full_weight_refuted` (P_Addressing.v): The default amplitude with full weight is halved.
* `C42_unknown_qubit_refuted` (P_Addressing.v): Weights naming qubits that do not exist are accepted and dropped.
* `C43_nested_global_refuted` (P_Analog.v): A chain's reported support hides a global part: a kron accepts a chain containing an evolution of the whole register.
* `C44_json_noise_refuted` (P_Serialize.v): With noise it does not: the protocols come back as strings, so no noisy gate returns to itself.
* `C44_tags_refuted` (P_Serialize.v): An inner tag is lost.
* `C44_time_refuted` (P_Serialize.v): That it is the time is not kept.
* `C45_plain_values_refuted` (P_Batch.v): Values that are not tensors silently disappear.
* `C45_wrong_sizes_refuted` (P_Batch.v): Sizes that do not match are accepted: every dictionary then gets the whole tensor.
* `C46_area_refuted` (P_Waveforms.v): The delivered area is not the requested one in general.
* `C46_negative_refuted` (P_Waveforms.v): A negative value (a negative detuning) is multiplied by about a thousand.
* `C47_complete_refuted` (P_Pauli.v): The check is not complete: Z(0) + N(0) and X(0) + I(0) commute, yet the answer is False.
* `C48_terms_refuted` (P_Pauli.v): A ScaleBlock directly around a ScaleBlock hides a sum: the returned term still contains it.
* `C49_projector_refuted` (P_Unitary.v): Not gates: a projector and the number operator lose norm.
* `C50_injection_refuted` (P_Grammar.v): But calling any built-in function by name passes the check: the text below truncates a file when it is evaluated. So "accepted texts only build sympy expressions" is false.
* `C51_imaginary_refuted` (P_Convert.v): A product of a parameter and an imaginary number: the imaginary unit is looked up as a value named "I".
* `C51_n_state_refuted` (P_Convert.v): N(q, "0") is simulated as |1><1|.
* `C51_negative_scale_refuted` (P_Convert.v): A negative number in front of a gate with a parameter: the value's key "fix_-n" is read as a difference.
* `C51_reserved_name_refuted` (P_Convert.v): A parameter with a name sympy reads as a number (such as "E" or "pi") is replaced by that number.
* `C51_tdagger_refuted` (P_Convert.v): A TDagger cannot be simulated.
* `C51_time_dependent_refuted` (P_Convert.v): A time-dependent generator switches the whole conversion to expression-level values: with gate-level values a rotation before it is read by uuid, one after it by expression, and no dictionary of either kind serves both.
* `C52_little_state_refuted` (P_Backend.v): With little endianness the result is reordered but the given state is not: running the identity does not return the state.
* `C52_loop_drops_rows_refuted` (P_Backend.v): The loop pairs the rows of the circuit's values with the rows of the observables' values: with separate dictionaries and observables without parameters, only the first row is computed.
* `C52_one_qubit_permuted_refuted` (P_Backend.v): A batch of four comes back with its second and third rows exchanged.
* `C52_one_qubit_truncated_refuted` (P_Backend.v): One qubit, little endianness: the batch index is inverted instead of the qubit index. A batch of three loses its last row.
* `C52_pyq_shape_refuted` (P_Backend.v): A state in the simulator's own layout is refused, although the error message offers that layout.
* `C53_mixed_kron_refuted` (P_Rydberg.v): A digital gate and an analog rotation on different qubits can be put in parallel but the translation raises.
* `C53_nested_kron_refuted` (P_Rydberg.v): The rotations inside an AnalogKron or AnalogChain that is itself part of an AnalogKron have no effect.
* `C53_parallel_refuted` (P_Rydberg.v): "In the analog case it executes blocks parallel in time": two drives in an AnalogKron are applied one after the other, each with the full interaction, so the atoms interact for twice the duration.
* `C53_wait_kron_refuted` (P_Rydberg.v): Waiting on two qubits in parallel can be built but not translated.
* `C54_composite_refuted` (P_Gradient.v): the factor of a scaled sum in a generator gets no rule at all, so no gradient, although the expectation value depends on it. Here the generator is x * add(X) and the rest as before.
* `C54_generator_refuted` (P_Gradient.v): a parameter inside the generator of a time evolution is differentiated with the rule for the scaled gate alone. For HamEvo(x * X, 1) and the observable Z the expectation value is cos(2x); at x = pi/4 the gradient returned is -sqrt 2 instead of -2.
* `C54_scale_refuted` (P_Gradient.v): the scale factor of a scaled gate is differentiated with the rule for the gate's own generator. For the circuit x * X and the observable Z the expectation value is -x^2; at x = 1 the gradient returned is -pi / sqrt 2 instead of -2.
* `C54_scaled_cz_refuted` (P_Gradient.v): nothing can be differentiated when a scaled CZ (or MCZ) occurs with a parameter: its spectrum is computed by concatenating a tensor without dimension, an exception.
* `C54_shared_refuted` (P_Gradient.v): a rotation block used twice in a circuit (the same Python object, so the same identifier) is differentiated as if it occurred once. For chain(rx, rx) with rx = RX(0, "x") and the observable Z the expectation value is cos(2x), and at x = pi/4 the gradient returned is -sqrt 2 instead of -2.
* `C55_one_block_refuted` (P_Ala.v): when the number of qubits is the size of a block, the second layer of blocks of two, three or four qubits cannot be built, because one of its groups of gates is empty and an empty kron is rejected.
* `C55_two_qubits_refuted` (P_Ala.v): two qubits cannot be used with blocks of more than two qubits, not even with one layer.
* `C56_gap_refuted` (P_Digitalize.v): next to an evolution under a string with a gap, an operation on the qubit in the gap makes the conversion fail, because the gates of the decomposition also act on that qubit; the block itself is valid.
* `C56_nested_refuted` (P_Digitalize.v): blocks inside a scale factor or a control are not looked at, so their evolutions and rotations stay.
* `C58_interacting_refuted` (P_Stretch.v): The register is stretched as far as the pulses, so that the interaction falls much faster than the drive: with interacting atoms the extrapolation goes wrong even with a simulator without noise. Here the exact expectation value of X is 1, and the result is 2, which no state has.
* `C58_kron_refuted` (P_Stretch.v): The rotations of an AnalogKron are not stretched, although the register is: the circuits run at the different stretches have the same pulses.
* `C58_wait_refuted` (P_Stretch.v): A circuit with a free evolution (AnalogInteraction) cannot be stretched: the code asks for parameters the block does not have.
* `C59_fixed_refuted` (P_Model.v): Fixing the parameters of a model that runs makes the same run fail: a fixed parameter is not frozen at its value but becomes an input.
* `C59_inputs_refuted` (P_Model.v): The inputs of the model are not updated: after making the only feature variational it is still reported as an input.
* `C59_noise_refuted` (P_Model.v): A noise model passed to one call of expectation is used by the later calls too.
* `C59_training_refuted` (P_Model.v): Fixing one parameter discards what the others have learnt: they return to their initial values.
* `C60_eps_refuted` (P_Derivative.v): The spacing given by the caller is used for the first difference only: the result for two indices is not the difference quotient with that spacing.
* `C60_sampling_refuted` (P_Derivative.v): So it need not be close to the derivative however small eps is: for t^3 at 0, whose derivative is 0, it is the square of the number drawn.
* `C61_duplicate_refuted` (P_Qnn.v): With a name given twice the first of the two columns is used and the second is lost, silently when the remaining feature has a value of its own.
* `C61_names_refuted` (P_Qnn.v): Only the number of inputs is checked: a QNN with misspelt inputs is built, and then refuses every table.
* `C61_observable_refuted` (P_Qnn.v): An observable or a mitigation protocol passed to QNN.expectation is ignored, where QuantumModel.expectation uses it.
* `C62_constants_refuted` (P_SaveLoad.v): Loading it as torch parameters makes the constants of the circuit trainable: the model has more variational parameters than the saved one, and resetting them changes a constant.
* `C62_default_refuted` (P_SaveLoad.v): Loading a saved model as it is by default gives the initial parameters, not the trained ones.
* `C62_measurement_refuted` (P_SaveLoad.v): Nor a model that measures with, for instance, a number of shots.
* `C62_mode_refuted` (P_SaveLoad.v): A QNN whose inputs are differentiated by finite differences comes back with automatic differentiation.
* `C62_observable_refuted` (P_SaveLoad.v): A model without observables can be saved but never loaded.
* `C63_ala_depth_refuted` (P_QnnConfig.v): The depth of an alternating layer ansatz is ignored: every depth gives the same ansatz (_create_ala_digital does not pass it on).
* `C63_ala_operations_refuted` (P_QnnConfig.v): The documented argument operations of an alternating layer ansatz is ignored: the code reads "operation".
* `C63_ala_reupload_refuted` (P_QnnConfig.v): With an alternating layer ansatz a QNN cannot have more than one upload: the layers between them are configured without m_block_qubits.
* `C63_iia_sdaqc_refuted` (P_QnnConfig.v): The identity initialized ansatz with strategy sDAQC fails unless an entangler is given: its default is the gate CNOT, although a Hamiltonian is needed (the documentation of AnsatzConfig names NN-interactions as the default).
* `C63_operation_refuted` (P_QnnConfig.v): "If the type of operation is incompatible with the strategy chosen, then operation gets preference and the given strategy is ignored": the strategy is kept, and no feature map can be built.
* `C63_prefix_refuted` (P_QnnConfig.v): The prefix "fm_0" is accepted, and then the layer after the first upload and the final ansatz share a parameter.
* `C64_alternation_refuted` (P_Qcnn.v): The tutorial says that the pairs alternate in every layer; from the third layer on they do not: of the qubits 3, 7, 11, 15 of the third layer of 16 the second repetition does not convolve 7 and 11.
* `C64_correlated_refuted` (P_Qcnn.v): Correlated parameters are to be shared by corresponding gates of the cells, but the nine parameters of a layer are handed out in turn to the fifteen places of a cell: the first gates of the first two cells of a repetition have different parameters, and with two operations so have the first and the last rotation of the control in a cell.
* `C64_odd_refuted` (P_Qcnn.v): An even number of qubits is asked for so that every qubit has a partner, but half of it may be odd: with 6 qubits, qubit 5 takes part in the second layer but is in none of its cells.
* `C64_second_layer_refuted` (P_Qcnn.v): The second layer has its cells in one kron, which must not be empty: with fewer than eight qubits it cannot be repeated, although two layers are allowed.
* `C65_bounds_refuted` (P_Information.v): A landscape whose information content is maximal gets a lower bound that exceeds the upper one: the grid on which q is looked up ends at 0.16667, beyond the maximum of the curve at 1/6.
* `C65_scalar_refuted` (P_Information.v): A model with a scalar parameter, as the scaling of an observable is, cannot be analysed at all: the size of the shape () is computed as the float 1.0, which is refused as a slice index.
* `C65_sensitivity_refuted` (P_Information.v): For a sensitivity between 1/3 and 2/3 the value returned as an upper bound of a norm is negative.
* `C66_block_values_refuted` (P_Execution.v): The documentation lets [values] follow the observable by position; with a block, or a register and a block, that is an error.
* `C66_composition_refuted` (P_Execution.v): A user's configuration for pyqtorch that switches the composition of single-qubit gates off gets it switched on.
* `C66_list_refuted` (P_Execution.v): Running a list of circuits always fails: the results are collected with tuple += Tensor.
* `C66_order_refuted` (P_Execution.v): In the documented order noise is the seventh argument of [expectation]; passed there it is taken as the measurement protocol.
* `C66_shared_refuted` (P_Execution.v): Two backends made with the same configuration object share it: making the second one for automatic differentiation changes what the first one, made for the parameter shift rule, converts its programs with.
* `C67_configured_refuted` (P_Pulses.v): a configured amplitude replaces the amplitude of an analog rotation but not its duration (pulses.py:203-216), so the angle is scaled by their quotient.
* `C67_entanglement_refuted` (P_Pulses.v): an entanglement on some qubits is played on the global channel (pulses.py:168-173).
* `C67_interaction_refuted` (P_Pulses.v): the interaction on some qubits only plays nothing (pulses.py:132-137), so a circuit made of such blocks takes no time, whatever their duration.
* `C67_parallel_refuted` (P_Pulses.v): rotations put side by side are played one after the other on the local channel: the time taken is the sum of the durations (pulses.py:158-166, 182-184).
* `C67_phase_refuted` (P_Pulses.v): the sign of a phase is lost, although opposite phases make different Hamiltonians (pulses.py:232): AnalogRot with phase pi/2 and with phase -pi/2 play the same pulse.
* `C67_sign_refuted` (P_Pulses.v): the sign of an angle is lost. A rotation by an angle and one by its opposite play the same pulses, for RX, RY, RZ and the analog rotations (pulses.py:216, 270, 291); the pulse for RX(-pi/2) is exactly the one that makes RX(pi/2), which is not RX(-pi/2) up to a phase.
* `C67_twice_refuted` (P_Pulses.v): a parametrised block used twice declares the same variable twice, which a Pulser sequence refuses.
* `C68_cloud_refuted` (P_PulserBackend.v): samples from the cloud ignore the initial state (backend.py:93-113).
* `C68_empty_refuted` (P_PulserBackend.v): with an empty dictionary of values the native sequence itself is measured (backend.py:172-173), so a second such call is refused.
* `C68_initial_state_refuted` (P_PulserBackend.v): a noisy run does not reverse the initial state for the simulator as a run without noise does (backend.py:232, 261), so that |0> becomes |1>: the density matrix of an idle circuit started in |0> is that of |1>, while the run without noise gives |0>.
* `C68_noise_refuted` (P_PulserBackend.v): the noise of a noisy run stays in the configuration of the backend (backend.py:252-257), and every later call without noise is simulated with it.
* `C68_pattern_refuted` (P_PulserBackend.v): the addressing pattern of the register is left out of noisy runs: a simulator that refuses sequences with a pattern refuses the run without noise and accepts the noisy one.
* `C69_detuning_refuted` (P_RydbergHea.v): The weights are not constrained: with weights of both signs a detuning exceeds the documented maximum.
* `C69_interaction_refuted` (P_RydbergHea.v): "an interaction term given by the standard NN interaction and determined starting from the positions in the input register: sum of C6/r^6 n_i n_j": the positions are not used. Whatever the constant, there is a register (two atoms joined by an edge, at a suitable distance) whose interaction is another one.
* `C69_prefix_refuted` (P_RydbergHea.v): "additional_prefix: an additional prefix to attach to the parameter names": the weights of two ansatzes with different prefixes are the same parameters.
* `C70_circuit_u_refuted` (P_Equality.v): A circuit with a U gate cannot be compared with itself: the comparison of the blocks raises, and nothing catches it.
* `C70_contains_refuted` (P_Equality.v): A scaled part is not looked into: X(0) is in 2 X(0) by itself but not in the sum 2 X(0) + Z(1).
* `C70_evolution_refuted` (P_Equality.v): The generator of an evolution is not compared, only its qubits.
* `C70_factor_refuted` (P_Equality.v): The factor of a scaled block is not searched: a parameter may be in a circuit and not in the circuit's block.
* `C70_matrix_refuted` (P_Equality.v): Equality of blocks ignores the entries of a matrix block: all matrix blocks on the same qubits are equal.
* `C70_nested_refuted` (P_Equality.v): Parts are also looked for inside the parts of the other product: X(0) and X(1) equals kron(kron(X(0), Z(2)), X(1)).
* `C70_parameter_refuted` (P_Equality.v): A parameter by itself equals every expression it occurs in, but not the other way round: RX(theta) == RX(2 theta), and RX(2 theta) != RX(theta).
* `C70_projector_refuted` (P_Equality.v): Nor are the bit strings of a projector, the state of a number operator, or the entries of a matrix.
* `C70_register_refuted` (P_Equality.v): The edges only count up to a renaming of the qubits, and the device not at all: a register whose qubits 0 and 1 are connected equals the one, with the same places, whose qubits 1 and 2 are connected and whose device is another.
* `C70_sum_refuted` (P_Equality.v): Sums are compared as sets of terms: X + X equals X + Z, but X + Z does not equal X + X.
* `C70_u_refuted` (P_Equality.v): A U gate cannot be compared with a U gate on the same qubit, not even with itself; the same gate written as three rotations can.
* `C71_little_endian_refuted` (P_HorqruxRun.v): Asking for little-endian expectation values fails: for the conversion the state is reshaped to one row of amplitudes and not reshaped back to one axis per qubit, so no observable can be applied to it (backend.py:102-106 with unhorqify_state=False).
* `C71_no_parameters_refuted` (P_HorqruxRun.v): A circuit and observables without any parameters have no expectation value on this backend: the batch size is the maximum over no values and the call fails (backend.py:142), although running and sampling the same circuit work.
* `C71_projector_refuted` (P_HorqruxRun.v): In the generator of an evolution a projector |0><1| is used as |1><0| (jax_utils.py:153-156), as in the default backend.
* `C72_entropy_pure_refuted` (P_Density.v): [von_neumann_entropy] is documented as -tr(rho log2 rho), which is zero exactly on pure states. A pure state of dimension two or more gets (d - 1)(-eps log2 eps), never zero: the zero eigenvalues are replaced by eps and their terms are added.
* `C73_shared_graph_refuted` (P_Shapes.v): Two registers made from one graph object: the second one's spacing is the spacing of both.
* `C73_square_one_refuted` (P_Shapes.v): A square with one qubit on its side has no qubit at all.
* `C74_copy_refuted` (P_ParamObjects.v): Wrapping a feature parameter again changes an older parameter that was made from the same string: it is no longer trainable.
* `C74_evicted_refuted` (P_ParamObjects.v): After 1000 other names a name gives a new object.
* `C74_hash_refuted` (P_ParamObjects.v): Equal parameters need not have the same hash: with and without the keyword [trainable=True].
* `C74_load_refuted` (P_ParamObjects.v): Reading an old copy of a parameter sets the live parameter back to the old value.
* `C74_order_refuted` (P_ParamObjects.v): The order of the keywords makes two objects, equal to one another and with the same hash.
* `C74_same_name_refuted` (P_ParamObjects.v): With two parameters of one name the differentiable form takes one value for both.
* `C74_time_refuted` (P_ParamObjects.v): A time parameter is read back as an ordinary input.
* `C74_transitive_refuted` (P_ParamObjects.v): Equality is not transitive: 0, 1e-7 and 2e-7.
* `C74_value_refuted` (P_ParamObjects.v): A second variational parameter with the same name and another value is the same object: the first one changes its value.
* `C75_chain_refuted` (P_OpenFermion.v): The parts of a chain come out in the wrong order: chain(X(0), Y(0)) first applies X, its conversion first applies Y, which differs by a sign.
* `C75_identity_refuted` (P_OpenFermion.v): A multiple of the identity is not converted: the identity is put on qubit -1.
* `C75_small_refuted` (P_OpenFermion.v): A coefficient below openfermion's tolerance disappears from a sum: Z(1) + c X(0) is converted to Z(1).
* `C75_values_refuted` (P_OpenFermion.v): The converted operator is the one for the values the parameters hold when it is made; it does not follow other values.
* `C75_zero_refuted` (P_OpenFermion.v): The zero operator is not converted either: an exception.
* `C76_append_refuted` (P_NoiseRun.v): A source appended to a handler does not reach circuits it was given to before, but does reach the next conversion of the same gates.
* `C76_dropout_refuted` (P_NoiseRun.v): Passing noise removes the dropout of a circuit made with dropout.
* `C76_leak_refuted` (P_NoiseRun.v): Converting a circuit with noise in the configuration makes the user's own gates noisy: the same block converted afterwards WITHOUT noise is executed with noise.
* `C76_readout_refuted` (P_NoiseRun.v): A noise without readout part does not remove the readout noise of an earlier call.
* `C76_scaled_refuted` (P_NoiseRun.v): Noise in the configuration, set_noise and noise in calls never reach a gate inside a scaled block.
* `C76_sticky_refuted` (P_NoiseRun.v): Passing noise to one sample or expectation call makes all later calls without noise noisy.
* `C77_empty_refuted` (P_Cloud.v): no values at all are rejected as having a wrong dimension when they come as an empty dictionary.
* `C77_environment_refuted` (P_Cloud.v): any other name of an environment means production, without an error.
* `C77_late_refuted` (P_Cloud.v): the time of the last wait is wasted. Whatever whole number of refresh times the timeout is, a workload that finishes during the last of them, before the timeout, is reported as not finished in time.
* `C77_matrix_refuted` (P_Cloud.v): a matrix is accepted as long as another value is a number or an array.
* `C77_short_refuted` (P_Cloud.v): with a refresh time longer than the timeout the status is never asked for: a workload that is done all along is reported as not finished in time.
* `C77_trained_refuted` (P_Cloud.v): a workload made from a model does not contain what the model has learnt: whatever the values of its variational parameters, what is sent is the same.
* `C77_variables_refuted` (P_Cloud.v): the variables are read once. After the user has changed them, the same call returns the client of the former account.
* `C78_best_refuted` (P_Runs.v): when only the best model is kept, a second call on the same trainer goes back to it.
* `C78_collision_refuted` (P_Runs.v): names of subfolders are unique per configuration only. Two configurations of one process used within the same second get the same folder, although each is told that it is new: they overwrite each other's checkpoints.
* `C78_dot_refuted` (P_Runs.v): a user who asks for the current folder gets a subfolder of the root instead.
* `C78_forgotten_refuted` (P_Runs.v): the folder the user gave is forgotten by a call with one subfolder per run: it is not used afterwards either, when the option is switched off again.
* `C78_lost_refuted` (P_Runs.v): with validation and the default of no checkpoints, the only checkpoint is the one written before the first epoch: a second call of fit on the same trainer begins with the parameters the first one began with, and what was learnt is lost.
* `C78_stale_refuted` (P_Runs.v): a second call with its own subfolder writes the parameters it starts from under the number of the last epoch of the first call. If it is stopped early, its folder offers them as the latest checkpoint.
* `C79_after_refuted` (P_Step.v): so the loss reported with the updated model is not the loss of that model.
* `C79_broadcast_refuted` (P_Step.v): with outputs of shape (n, 1), as a QNN gives, and targets of shape (n,), the loss of perfect predictions is not 0: every output is compared with every target.
* `C79_last_refuted` (P_Step.v): fit therefore returns the last suggestion, not the best parameters it has seen: every loss told was better than the loss of the model that is returned.
* `C79_loss_metric_refuted` (P_Step.v): a metric the user calls "loss" is overwritten.
* `C79_no_loss_refuted` (P_Step.v): an optimiser that does not evaluate its closure leaves no loss to report.
* `C79_samples_refuted` (P_Step.v): ... and for a smaller last batch it is not.
* `C80_dict_refuted` (P_Batches.v): in a DictDataLoader the first loader decides: with an infinite one in front of a TensorDataset only the first batch of the latter is used, in the other order all of them.
* `C80_drop_last_refuted` (P_Batches.v): with several processes drop_last is not respected.
* `C80_nodes_refuted` (P_Batches.v): over two nodes of two processes each, the sampler is given the local ranks 0, 1, 0, 1 of four: half of the samples are never used.
* `C80_other_refuted` (P_Batches.v): of a dataset of any other class, an epoch only uses the first batch of the pass: with an order that does not change, the samples after it are never used, in any number of epochs.
* `C80_own_test_refuted` (P_Batches.v): without an argument the trainer's own test loader is not used: the loss function gets no data.
* `C80_reshuffle_refuted` (P_Batches.v): prepared for several processes, a loader gives the same batches in every epoch, whatever shuffling the user asked for.
* `C80_test_refuted` (P_Batches.v): a test of three batches after a training of one uses only the first.
* `C81_cpu_refuted` (P_Processes.v): on the CPUs of several nodes, all nodes number their processes from 0.
* `C81_fewer_refuted` (P_Processes.v): with fewer processes per node than GPUs, the last process has a rank that is not below their number.
* `C81_gpu_after_cpu_refuted` (P_Processes.v): a fit on the CPU writes "None" where a later fit on a GPU in the same program expects a number, and fails.
* `C81_rest_refuted` (P_Processes.v): if the number of processes is not a multiple of the number of nodes, fewer are started than are waited for.
* `C81_sticky_refuted` (P_Processes.v): a fit in one process leaves its world size in the environment, so every trainer made afterwards runs in one process, however many it asks for.
* `C81_strangers_refuted` (P_Processes.v): a trainer for several processes that was made before such a fit still starts them, but none of them knows of the others: each is alone with all the data.
* `C81_torchrun_cpu_refuted` (P_Processes.v): on CPUs every process started by torchrun takes the rank 0.
* `C82_identity_term_refuted` (P_Samples.v): an identity term inside an accepted observable is estimated as if it were Z: Z(0) + I(1) on the outcome 01 gives 0 instead of 2. (Tomography treats such a term separately.)
* `C82_unequal_refuted` (P_Samples.v): samples with different numbers of shots: all are divided by the number of shots of the first one (C14_unequal_refuted), here through the protocol: the mean of Z(0) over four shots of outcome 0 is 4.
* `C83_adjoint_settings_refuted` (P_Engine.v): the adjoint mode computes the same whatever measurement protocol, noise, mitigation and endianness are asked for ...
* `C83_adjoint_shape_refuted` (P_Engine.v): so with two observables or more the result of the adjoint mode does not have the documented shape (batch size, number of observables).
* `C83_convert_refuted` (P_Engine.v): [convert], which QuantumModel and the execution functions use, has none of these checks: what it accepts does not depend on the mode, and it accepts circuits and observables that [circuit] and [observable] refuse.
* `C83_jax_settings_refuted` (P_Engine.v): ... and so does the jax engine in every mode.
* `C83_measured_backend_refuted` (P_Engine.v): with a measurement protocol, the parameter-shift mode runs the protocol on the default backend, not on the wrapped one; automatic differentiation runs it on the wrapped one.
* `C83_missing_parameter_refuted` (P_Engine.v): a parameter without a rule (here the factor of a sum in a generator) is left out of the dictionary the backend gets in the parameter-shift mode, so that a circuit that runs with automatic differentiation is an error.
* `C84_dict_refuted` (P_Tracking.v): for data given by name (a DictDataLoader) the model is called with the first name instead of data, so a model that takes dictionaries or tensors raises at the end of the training.
* `C84_end_refuted` (P_Tracking.v): The documentation of write_every says that metrics are always written at the end of the training; with write_every = 0 they are not.
* `C84_interrupted_refuted` (P_Tracking.v): When the user interrupts an epoch with the keyboard, the metrics of the epoch before are written as those of the interrupted one.
* `C84_mlflow_failure_refuted` (P_Tracking.v): After a training that raised, the run of MLflow is still active, so that the next training raises before it starts.
* `C84_mlflow_figures_refuted` (P_Tracking.v): With MLflow a figure of a fixed name is kept for the last plot only, while TensorBoard keeps one per plot.
* `C84_mlflow_resume_refuted` (P_Tracking.v): A training that is resumed becomes a new run of MLflow, even with MLFLOW_RUN_NAME set: no run holds the whole training, while the folder of TensorBoard does.
* `C84_plot_disabled_refuted` (P_Tracking.v): With plot_every = 0, documented as disabling plots, figures are made at the start of the training.
* `C84_refit_refuted` (P_Tracking.v): A second fit of the same trainer (without checkpoints) starts again at epoch 0 but shows its first validation at the last epoch of the first fit.
* `C84_resume_validation_refuted` (P_Tracking.v): A training resumed at epoch 4 shows two values of the validation loss at step 4: that of the validation before the training and that of the validation after epoch 4.
* `C85_batches_refuted` (P_Together.v): The same happens when the processes have different numbers of batches.
* `C85_integer_refuted` (P_Together.v): A metric that is an integer tensor (say, a count): the division by the number of processes raises.
* `C85_interrupt_refuted` (P_Together.v): With aggregated metrics, a process that is interrupted goes on to the reduction of the stop indicator while the others are in one of a metric: the processes do not end together.
* `C85_labels_refuted` (P_Together.v): Labels given as integers are cast to floating point numbers like all tensors (cross entropy wants integer classes).
* `C85_nested_tuple_refuted` (P_Together.v): A tuple inside a batch is refused, although DataLoaders of custom datasets may well yield it.
* `C85_order_refuted` (P_Together.v): Reductions are matched by their order, not by their names: if two processes return the same metrics in different orders, each "mean" mixes two metrics, silently.
* `C85_other_refuted` (P_Together.v): A batch of another type is replaced by None without an error: the loss function is called without data.
* `C86_batch_refuted` (P_Diagonal.v): A batch of values for a parameter is multiplied along the diagonal when it has as many elements as the diagonal (and refused otherwise): for x * Z(0) with the values 2 and 5 the result is diag(2, -5).
* `C86_endianness_refuted` (P_Diagonal.v): The endianness is lost in composite and scaled blocks: the diagonal of kron(Z(0), I(1)) is the same for both.
* `C86_support_refuted` (P_Diagonal.v): The support asked for is ignored: with use_full_support=True the sparse tensor of Z(1) is 2 x 2, the dense one 4 x 4.
* `C87_class_flag_refuted` (P_Modes.v): After the first use of a context the trainer has its own flag: later calls of [set_use_grad] no longer reach it.
* `C87_lost_refuted` (P_Modes.v): The flag of the class (or of a trainer) can be changed while a trainer holds an optimiser of the other kind; a context then raises at its end, and the trainer is left with the optimiser of the context in the wrong mode, its own being lost.
* `C88_dagger_refuted` (P_Tags.v): [circuit.dagger()] loses the tag of every composite block: the feature map of a circuit is not found in its dagger.
* `C88_draw_refuted` (P_Tags.v): Drawing changes the block of the user: a tagged gate in a wider circuit has lost its tag, and a second drawing does not show it.
* `C88_flatten_refuted` (P_Tags.v): Flattening loses the tags of compositions, that of the whole block included, also when there is nothing to flatten.
* `C88_hidden_refuted` (P_Tags.v): A tag inside a scaled or a controlled block is not found: circuit.get_blocks_by_tag goes into compositions only.
* `C88_scale_refuted` (P_Tags.v): Scaling a primitive block hides its tag: kron(tag(X(0), "a"), Y(1)) in a sum is found before, and 2 times the sum has no block "a".
* `C89_rows_refuted` (P_Lattice.v): "qubits_row: Number of qubits in each row": the qubits with the same second coordinate are qubits_col many, not qubits_row.
* `C90_register_refuted` (P_Circuits.v): Flattening, or filling with identities, a circuit of two atoms that wait at a distance other than 1 changes what it does: the atoms of the new circuit are at the distance 1 of the default register. The same happens to the circuits a shadow samples on other backends than PyQTorch.
* `C91_cswap_refuted` (P_Spectra.v): The declared eigenvalues 1 and -1 of the generator of CSWAP leave out the eigenvalue 0 of its declared generator.
* `C91_generator_refuted` (P_Spectra.v): S, T and their daggers declare the eigenvalues 0 and 1 for a generator with the eigenvalues 0 and 2.
* `C91_phase_refuted` (P_Spectra.v): The declared generator of PHASE generates the phase by the opposite angle.
* `C91_scale_refuted` (P_Spectra.v): The eigenvalues of a scaled block are declared to be those of the block without its factor: -1 and 1 for 2*X.
* `C91_swap_refuted` (P_Spectra.v): The declared generator of SWAP is not Hermitian, and SWAP is no evolution under it.
* `C92_chain_refuted` (P_Formula.v): All chains of several operations on the same qubits are printed alike.
* `C92_large_refuted` (P_Formula.v): Of a real coefficient five characters are printed: 1234567 Z has the formula of 12345 Z.
* `C92_name_refuted` (P_Formula.v): A parameter whose name contains "mul", as part of a sum: printing the observable ends in an IndexError, although by itself the part is printed.
* `C92_observables_refuted` (P_Formula.v): Of several observables without a tag only the last is shown.
* `C92_state_refuted` (P_Formula.v): The formula does not tell the two states of N, nor what a chain consists of.
* `C92_tag_refuted` (P_Formula.v): An operation with a tag that contains "mul" is not printed either.
* `C92_zero_refuted` (P_Formula.v): A part with the coefficient 0 is left out of a product, so that the formula of an observable that is zero is that of another.
* `C92_zero_sum_refuted` (P_Formula.v): In a sum the signs stay: the formula of X + 0 Y + Z is "(X + + Z)".
* `C93_control_refuted` (P_Lookup.v): Parameters within a ControlBlock (a controlled operation that is not one of the parametric controls) are not found.
* `C94_rows_refuted` (P_Cells.v): The first argument, documented as the number of cells in each row, is the number of rows: a lattice asked for with three cells in each row and one in each column is four rows of qubits high.
* `C95_composite_refuted` (P_SameBlock.v): The parts of composite blocks are not compared: chain(X(0)) passes for chain(Z(0)).
* `C95_parameter_refuted` (P_SameBlock.v): RX(0, x) passes for RX(0, 2*x), but not the other way round.
* `C95_scale_refuted` (P_SameBlock.v): Nor is the scaled block: 2 X(0) passes for 2 Z(0).
* `C95_state_refuted` (P_SameBlock.v): N projecting on |1> passes for N projecting on |0>.
* `C96_history_refuted` (P_Hyperparams.v): But a run with TensorBoard removes entries from the user's configuration: a later run with MLflow, which could log them, does not.
* `C96_writer_refuted` (P_Hyperparams.v): And if the tool is changed in the configuration of an existing trainer, TensorBoard is given entries it cannot log; if the configuration is not changed, it is not.
* `C97_default_refuted` (P_Matrix.v): [expand_to] with 0 or 1 qubits, the default, gives the matrix itself, of whatever size.
* `C97_size_refuted` (P_Matrix.v): The size need not be a power of two: a 3 by 3 matrix makes a block on one qubit, and every support has such a size.
* `C98_order_refuted` (P_Variance.v): The value of [variance] depends on the order of the shifts.
* `C98_variance_refuted` (P_Variance.v): The function [variance] solves the system with the matrix itself, while the estimate uses its transpose. For the gaps 1, 2 and the shifts pi, pi/2 the value it returns is smaller than the variance of the estimate, by 3/16 in units of the variance of one measurement.
* `C98_zero_bound_refuted` (P_Variance.v): Both bounds are given, and the call still fails with the message that both must be given: the lower bound is 0.

## 7. Print Assumptions, per theorem

Produced by running `Print Assumptions` on every theorem named in MANIFEST.json.  Only axioms of the standard library occur.

* **No axioms (closed under the global context)** (356): C01_add_empty, C01_add_global, C01_add_idempotent, C01_disjoint, C01_global_associativity_refuted, C01_new_global, C01_new_ints, C01_new_sound, C01_sum_is_union, C02_kron_accepts_exactly_disjoint, C02_nqubits_composite, C02_support_is_leaf_qubits, C08_invert_counter, C10_fill_identities_refuted, C10_validate_kron, C11_control_refuted, C11_not_inplace, C11_set_trainable, C11_variational_fixed, C12_minus, C12_samples_mixed_lengths_refuted, C12_samples_to_integers, C12_zero_qubits_refuted, C16_ascending, C16_one_qubit, C20_constants, C20_constants_refuted, C20_defined, C20_dot_refuted, C20_expression_level, C20_gate_level, C20_initial_params, C24_defined, C24_layout, C24_names, C24_periodic_odd_refuted, C24_sdaqc, C24_single_qubit_refuted, C27_all_node_pairs, C29_append, C29_atomic, C29_class_object_refuted, C29_eq_refuted, C29_eq_same_length, C29_filter, C29_invariant, C29_round_trip, C29_shared_list_refuted, C29_verify, C30_brackets, C30_end, C30_epoch_count_refuted, C30_run, C30_stop, C31_end_sees_current, C31_epoch_end_run, C31_epoch_start_refuted, C31_run_callbacks, C32_early_stopping, C32_first_request, C32_missing_metric, C32_mode_refuted, C33_class_name_refuted, C33_crash_refuted, C33_latest, C33_resume, C33_single_file_refuted, C33_torn_write_refuted, C35_empty_refuted, C35_every_pass, C35_first_pass, C35_size_check, C35_two_iterators_refuted, C36_frame, C36_get_set, C36_num_parameters, C36_num_parameters_refuted, C36_partial_write_refuted, C36_set_get, C36_surplus_refuted, C36_too_short, C37_errors, C37_exactly_one, C37_fm_qubits, C37_fm_qubits_partial, C37_fm_qubits_refuted, C37_series, C37_support_arrays, C38_pairs, C43_chain_complete, C44_block, C44_circuit, C44_empty_noise, C44_exact, C44_expression, C44_expression_only, C44_json, C44_json_noise_refuted, C44_kron_refused, C44_parameter, C44_raises, C44_tags_refuted, C44_time_refuted, C45_infer_batchsize, C45_plain_values_refuted, C45_to_list_of_dicts, C45_validate, C45_wrong_sizes_refuted, C47_exact, C47_hamiltonian, C50_called, C50_exact, C50_injection_refuted, C50_no_operators, C50_parse, C50_unambiguous, C51_tdagger_refuted, C53_no_device, C55_defined, C55_layout, C55_names, C55_one_block_refuted, C55_two_qubits_refuted, C59_asking, C59_evaluation, C59_evaluation_expr, C59_fixed_refuted, C59_form, C59_history, C59_inputs, C59_inputs_refuted, C59_needs, C59_noise_refuted, C59_reset, C59_set, C59_training_refuted, C61_as_model, C61_columns, C61_constructor, C61_defined, C61_duplicate_refuted, C61_evaluation, C61_forward, C61_history, C61_names_refuted, C61_no_values, C61_observable_refuted, C61_order, C61_refused, C62_constants_refuted, C62_default_refuted, C62_load_params, C62_loadable, C62_loaded, C62_measurement_refuted, C62_mode_refuted, C62_observable_refuted, C62_qnn, C62_resume, C63_config, C63_config_defined, C63_upload_count, C63_weights, C64_alternation, C64_alternation_refuted, C64_correlated, C64_correlated_refuted, C64_coverage, C64_odd_refuted, C65_counts, C65_losses, C65_rows, C65_scalar, C65_transitions, C65_variations, C66_block_values_refuted, C66_circuit, C66_composition, C66_composition_kept, C66_composition_refuted, C66_expectation, C66_factory, C66_forms_expectation, C66_forms_run, C66_forms_sample, C66_list_refuted, C66_model_defaults, C66_model_expectation, C66_model_run, C66_model_sample, C66_order_refuted, C66_refused, C66_run, C66_sample, C66_shared_refuted, C70_chain, C70_circuit_contains, C70_circuit_contains_gate, C70_circuit_parameter, C70_contains, C70_controlled, C70_gates, C70_order, C70_parameter_complete, C70_parameter_sound, C70_reflexive, C70_rotations, C70_scaled, C70_total, C70_u_refuted, C76_append_refuted, C76_dropout_refuted, C76_frame, C76_history, C76_leak_refuted, C76_make, C76_quiet, C76_readout_refuted, C76_scaled_refuted, C76_set_noise, C76_sticky_refuted, C77_again, C77_client, C77_empty_refuted, C77_environment_refuted, C77_explicit, C77_five, C77_refusal, C77_submit, C77_trained_refuted, C77_valid, C77_values, C77_values_accepted, C77_variables_refuted, C78_best_refuted, C78_collision_refuted, C78_continue, C78_crash, C78_dot_refuted, C78_forgotten_refuted, C78_frame, C78_history, C78_lost_refuted, C78_memory, C78_one_folder, C78_per_run, C78_stale_refuted, C79_metrics, C79_newest, C79_no_loss_refuted, C79_succeeds, C79_told, C80_dict, C80_dict_refuted, C80_drop_last, C80_drop_last_refuted, C80_epoch, C80_history, C80_infinite, C80_max, C80_no_loader, C80_nodes_refuted, C80_other_refuted, C80_own_test_refuted, C80_processes, C80_reshuffle_refuted, C80_test, C80_test_refuted, C81_alone, C81_cluster, C81_cpu_refuted, C81_fewer_refuted, C81_gpu_after_cpu_refuted, C81_many, C81_one_port, C81_port, C81_rest_refuted, C81_single, C81_sticky_refuted, C81_strangers_refuted, C81_torchrun, C81_torchrun_cpu_refuted, C83_convert, C83_convert_refuted, C83_guards, C83_sample_run, C84_capitals, C84_dict_refuted, C84_end_refuted, C84_figures, C84_hyperparameters, C84_interrupted_refuted, C84_metrics, C84_mlflow, C84_mlflow_failure_refuted, C84_mlflow_figures_refuted, C84_mlflow_resume_refuted, C84_once, C84_one_value, C84_plot_disabled_refuted, C84_printed, C84_rank, C84_refit_refuted, C84_resume_validation_refuted, C84_signature, C85_batch, C85_labels_refuted, C85_nested_tuple_refuted, C85_other_refuted, C87_class_flag, C87_class_flag_refuted, C87_exception, C87_handover, C87_inside, C87_refused, C87_restored, C87_suits, C88_by_tag, C88_dagger, C88_dagger_operation, C88_dagger_refuted, C88_draw, C88_draw_refuted, C88_erase, C88_flatten, C88_flatten_refuted, C88_hidden_refuted, C88_reassign, C88_scale, C88_scale_refuted, C89_around, C90_transpile, C92_chain_refuted, C92_keys, C92_name_refuted, C92_numerals, C92_observables, C92_observables_refuted, C92_tag_refuted, C93_control_refuted, C93_duplicates, C93_expression, C93_uuid, C94_honeycomb_size, C94_triangular_size, C95_dagger, C95_reflexive, C95_support, C96_history_refuted, C96_mlflow, C96_runs, C96_tensorboard, C96_writer, C96_writer_refuted, C97_made, C97_size_refuted.
* **`ClassicalDedekindReals.sig_forall_dec`** (50): C02_nqubits_refuted, C08_invert_wavefunction, C16_weight, C25_consistent, C25_defined, C25_layers, C27_names, C27_names_alltoall, C40_batch, C43_chain, C48_terms, C48_terms_refuted, C52_layout, C52_loop_drops_rows_refuted, C52_pyq_shape_refuted, C63_ala_depth_refuted, C63_ala_operations_refuted, C63_ansatz, C63_iia_sdaqc_refuted, C63_names, C63_parameters, C63_prefix_refuted, C65_scalar_refuted, C67_pattern, C68_cloud_refuted, C68_empty_refuted, C68_expectation, C68_history, C68_noise_refuted, C68_noisy, C68_refused, C68_run, C68_sample, C69_names, C70_contains_refuted, C70_factor_refuted, C71_batch_sizes, C71_little_endian_refuted, C71_state_batch, C74_evaluate, C74_evaluate_fails, C74_evaluate_torch, C74_same_name_refuted, C77_matrix_refuted, C79_before, C79_gradients, C79_loss_metric_refuted, C87_lost_refuted, C92_zero_sum_refuted, C97_default_refuted.
* **`ClassicalDedekindReals.sig_forall_dec`, `FunctionalExtensionality.functional_extensionality_dep`** (97): C05_truediv_total, C14_bounds, C14_shots, C14_unequal_refuted, C14_value, C16_estimators, C16_median, C16_remainder, C16_too_few, C17_fixpoint, C17_mle, C18_counts, C18_few_shots_refuted, C18_mitigated_counter, C18_mitigation, C18_total, C19_degree_refuted, C19_zne, C22_gaps, C26_range, C28_four_singular, C28_solvable, C34_cyclic, C34_cyclic_bounds, C34_cyclic_extremes, C34_cyclic_groups, C34_cyclic_period, C34_step_decay, C40_counts_ancilla, C40_counts_uncompute, C43_kron, C43_kron_result, C43_nested_global_refuted, C46_area_refuted, C46_from_area, C46_from_duration, C46_negative_refuted, C51_scale_expression, C60_sampling, C65_discretize, C65_probabilities, C68_initial_state_refuted, C68_pattern_refuted, C69_detuning, C69_detuning_refuted, C69_feature_defined, C69_feature_kron, C69_feature_rotations, C69_rebuild_other, C69_tower, C69_tower_defined, C70_circuit, C70_circuit_reflexive, C70_circuit_u_refuted, C70_register_refuted, C72_purity, C72_purity_pure, C74_attributes, C74_copy_refuted, C74_distinct, C74_evicted_refuted, C74_frame, C74_load_refuted, C74_none, C74_reachable_good, C74_round_trip, C74_same_object, C74_strings, C74_time_refuted, C74_value_refuted, C74_zero_value, C77_late_refuted, C77_result, C77_short_refuted, C77_time, C77_zero, C79_after_refuted, C79_broadcast_refuted, C79_epoch, C79_last_refuted, C79_missing, C79_mse, C79_samples, C79_samples_refuted, C83_jax, C83_jax_settings_refuted, C85_alone, C85_batches_refuted, C85_deterministic, C85_integer_refuted, C85_interrupt_refuted, C85_mean, C85_order_refuted, C85_stop, C85_together, C97_outside, C98_constraints.
* **`ClassicalDedekindReals.sig_forall_dec`, `ClassicalDedekindReals.sig_not_dec`, `FunctionalExtensionality.functional_extensionality_dep`** (328): C03_block_to_tensor, C03_block_to_tensor_refuted, C03_block_to_tensor_support, C03_entries, C04_dagger_involutive, C04_dagger_is_adjoint, C04_dagger_refuted, C05_add, C05_iadd, C05_imatmul, C05_imul, C05_isub, C05_matmul, C05_mul, C05_neg, C05_pow, C05_pow_zero_refuted, C05_scale, C05_sub, C05_truediv, C06_flatten, C07_empty_chain_refuted, C07_scale_primitive_blocks_only, C07_with_scale, C08_invert_block, C08_invert_consistent, C08_invert_evolution_refuted, C08_reassign, C09_chain_single_qubit_ops, C09_shared_layer_refuted, C10_fill_circuit, C10_fill_identities, C10_fill_identities_total, C10_validate, C10_validate_evolution_refuted, C13_bitstring, C13_blocks, C13_density, C13_empty_refuted, C13_ghz, C13_ghz_block, C13_is_normalized, C13_normalize, C13_pmf, C13_product_block, C13_random_haar, C13_random_product, C13_random_rotations, C13_uniform, C13_zero_one, C14_exact, C14_pauli_z, C15_identity_factor_refuted, C15_inner_scale_refuted, C15_little_refuted, C15_nested_refuted, C15_number_refuted, C15_repeated_refuted, C15_terms, C15_tomography, C16_deviation, C16_eigenstate, C16_exact, C16_little_refuted, C16_order_refuted, C16_random, C16_unbiased, C16_variance, C21_zero_denominator_refuted, C22_defined, C23_default, C23_inverse, C23_matrix, C23_sdaqc_exact, C23_sdaqc_refused, C23_size, C25_identity, C25_name_clash_refuted, C26_chebyshev_domain, C26_empty_range, C26_end_point_refuted, C26_scaling, C27_defined, C27_ising_config, C27_ising_config_refuted, C27_ising_hamiltonian, C27_meaning, C27_named_defined, C27_names_refuted, C27_observable, C27_total_magnetization, C27_zz_hamiltonian, C28_default, C28_error, C28_exact, C28_incompatible, C28_rejects, C28_total, C34_cosine_bounds, C34_cosine_one_call_partial, C34_cosine_product, C34_cosine_refuted, C38_distance, C38_line, C38_min_distance, C38_rectangular, C38_rescale, C38_rescale_compose, C38_round_trip_partial, C38_round_trip_refuted, C38_round_trip_rescales, C38_spacing, C39_norm_partial, C39_norm_refuted, C40_compute_uncompute, C40_counts_exact, C40_exact, C40_hadamard_test, C40_methods_agree, C40_narrow_refuted, C40_shared_feature_refuted, C40_swap_test, C41_any_string, C41_first_order, C41_term, C42_accepted, C42_full_weight_refuted, C42_unknown_qubit_refuted, C47_complete_refuted, C47_expansion_commutes, C47_sound, C48_sum, C49_dagger_inverse, C49_hermitian, C49_projector_refuted, C49_real_expectation, C49_unitary, C51_circuit, C51_convert, C51_imaginary_refuted, C51_n_state_refuted, C51_negative_scale_refuted, C51_observable, C51_reserved_name_refuted, C51_time_dependent_refuted, C52_end_to_end, C52_expectation, C52_little_state_refuted, C52_looped, C52_one_qubit_permuted_refuted, C52_one_qubit_truncated_refuted, C52_run, C52_run_default, C52_sample, C53_analog_rot, C53_defined, C53_determined, C53_digital, C53_drive, C53_durations_add, C53_interaction, C53_interaction_defined, C53_kron_one_drive, C53_mixed_kron_refuted, C53_nested_kron_refuted, C53_parallel_refuted, C53_pattern, C53_rotations, C53_translation, C53_unitary, C53_wait_kron_refuted, C54_keys, C54_scaled_cz_refuted, C57_equal, C57_multiples, C57_probabilities, C57_swap, C58_analog_zne, C58_extrapolates, C58_ideal, C58_interacting_refuted, C58_kron_refuted, C58_stretch, C58_wait_refuted, C60_autograd, C64_observable, C65_derivative_values, C65_derivatives, C67_accepts, C67_analog_rot, C67_digital_xy, C67_digital_z, C67_entanglement, C67_entanglement_refuted, C67_interaction, C67_interaction_refuted, C67_order, C67_parallel_refuted, C67_phase_refuted, C67_pulses, C67_rotation, C67_rotation_configured, C67_sequence, C67_sign_refuted, C67_twice_refuted, C69_diagonal, C69_feature_effect, C69_feature_translated, C69_hea, C69_hea_defined, C69_interaction_refuted, C69_layer, C69_layer_defined, C69_prefix_refuted, C70_evolution_refuted, C70_matrix_refuted, C70_nested_refuted, C70_parameter_refuted, C70_projector_refuted, C70_sound, C70_sum_refuted, C71_backend, C71_circuit, C71_expectation_batch, C71_expectation_single, C71_generator, C71_generator_refuses, C71_observable, C71_projector_refuted, C71_refuses, C72_equivalent_phase, C72_equivalent_state, C72_fidelity, C72_fidelity_pure, C72_fidelity_roots, C72_fidelity_self, C72_fidelity_short_batch, C72_fidelity_symmetric, C73_circle, C73_line, C73_new_frame, C73_new_none, C73_rectangular, C73_rescale, C73_shared_graph_refuted, C73_square, C73_square_one_refuted, C74_eq_laws, C74_hash_refuted, C74_order_refuted, C74_transitive_refuted, C75_chain_refuted, C75_domain, C75_from, C75_identity_refuted, C75_round_trip, C75_small_refuted, C75_to, C75_to_commuting, C75_values_refuted, C75_width, C75_zero_refuted, C82_average, C82_exact, C82_identity_term_refuted, C82_refused, C82_unequal_refuted, C83_adjoint, C83_adjoint_layout, C83_adjoint_settings_refuted, C83_adjoint_shape_refuted, C83_measured, C83_measured_backend_refuted, C83_missing_parameter_refuted, C83_modes, C83_single, C83_value, C86_batch_refuted, C86_endianness_refuted, C86_entries, C86_refused, C86_same_as_dense, C86_support_refuted, C89_coordinates, C89_rectangular, C89_rows_refuted, C89_square, C90_dagger, C90_digital, C90_register_refuted, C90_rotate, C91_cswap_refuted, C91_eigenvalues, C91_evolution, C91_generates, C91_generator, C91_generator_refuted, C91_phase_refuted, C91_refused, C91_scale, C91_scale_refuted, C91_swap_refuted, C92_large_refuted, C92_operations, C92_reads, C92_state_refuted, C92_symbols, C92_zero_refuted, C94_all_to_all, C94_honeycomb, C94_rows_refuted, C94_triangular, C95_composite_refuted, C95_parameter_refuted, C95_scale_refuted, C95_sound, C95_state_refuted, C97_expand, C98_bounds, C98_estimate, C98_fallback, C98_no_worse, C98_optimum, C98_order_refuted, C98_proportional, C98_variance, C98_variance_refuted, C98_zero_bound_refuted.
* **`ClassicalDedekindReals.sig_forall_dec`, `ClassicalDedekindReals.sig_not_dec`, `Classical_Prop.classic`, `FunctionalExtensionality.functional_extensionality_dep`** (110): C12_basis_to_int, C12_default_width, C12_int_to_basis, C12_negative_refuted, C12_nqubits_to_basis, C12_too_large, C16_budget_refuted, C16_guarantee, C16_samples, C21_jax_refuted, C21_jax_rotation, C21_rotation, C21_single_gap, C22_controlled_rotation, C22_evolution, C22_multi_gap, C22_no_gap_refuted, C22_rounding_refuted, C23_sdaqc, C23_sdaqc_default, C23_sdaqc_matrix, C26_chebyshev_tower, C26_exp_fourier, C26_fourier_default, C26_gates, C28_order_refuted, C39_js, C39_js_disjoint, C40_jensen_shannon, C41_commuting_exact, C41_digital_exact, C41_digital_first_order, C41_fourth_order, C41_fourth_order_fractions, C41_gap_refuted, C41_identity_refuted, C41_number_refuted, C41_odd_y_refuted, C41_order_ignored_refuted, C41_requested_order, C41_second_order, C41_single_kron_refuted, C42_inside, C42_local, C42_total, C42_weights, C45_count_bitstrings, C54_composite_refuted, C54_gates, C54_generator_refuted, C54_gradient, C54_higher, C54_higher_gates, C54_partial_derivative, C54_scale_refuted, C54_shared_refuted, C56_digital, C56_exact, C56_gap_refuted, C56_nested_refuted, C56_term_by_term, C56_unchanged, C60_agree, C60_default, C60_eps_refuted, C60_error, C60_finitediff, C60_refused, C60_sampling_refuted, C63_ala_reupload_refuted, C63_circuit, C63_fits, C63_fm_defined, C63_no_features, C63_operation_refuted, C63_parallel, C63_rydberg, C63_series, C64_circuit, C64_defined, C64_feature_map, C64_feature_map_defined, C64_fits, C64_parameters, C64_pooling, C64_second_layer_refuted, C65_bounds_refuted, C65_flat, C65_grad_bounds, C65_information, C65_max, C65_q, C65_scale, C65_sensitivity, C65_sensitivity_bound, C65_sensitivity_defined, C65_sensitivity_refuted, C65_sign, C67_axes, C67_configured_refuted, C69_analog, C71_no_parameters_refuted, C71_run, C71_sample, C72_basis_change, C72_entropy, C72_entropy_exact, C72_entropy_pure_refuted, C90_new_register, C90_same.
