{
 "claims": [
  {
   "property": "C01",
   "status": "proved",
   "theorems": [
    "C01_new_ints",
    "C01_new_sound",
    "C01_new_global",
    "C01_sum_is_union",
    "C01_add_idempotent",
    "C01_add_global",
    "C01_add_empty",
    "C01_disjoint",
    "C01_global_associativity_refuted"
   ],
   "note": "associativity of + fails when mixing 'global' with local supports (refuted with witness)"
  },
  {
   "property": "C02",
   "status": "proved",
   "theorems": [
    "C02_support_is_leaf_qubits",
    "C02_nqubits_composite",
    "C02_kron_accepts_exactly_disjoint",
    "C02_nqubits_refuted"
   ],
   "note": "n_qubits is wrong for some leaf gates (refuted with witnesses)"
  },
  {
   "property": "C03",
   "status": "proved",
   "theorems": [
    "C03_entries",
    "C03_block_to_tensor",
    "C03_block_to_tensor_support",
    "C03_block_to_tensor_refuted"
   ],
   "note": "entries equal the textbook operator for all trees whose multi-qubit leaf matrices sit on consecutive qubits; Projector with ket<>bra, N(state=0), TDagger and MatrixBlock on unordered or non-consecutive qubits are refuted with witnesses"
  },
  {
   "property": "C04",
   "status": "proved",
   "theorems": [
    "C04_dagger_is_adjoint",
    "C04_dagger_involutive",
    "C04_dagger_refuted"
   ],
   "note": "adjoint proved for all blocks except U with different outer angles, non-Hermitian MatrixBlock/generators and projectors |k><b| with k<>b, where it is refuted with witnesses"
  },
  {
   "property": "C05",
   "status": "proved",
   "theorems": [
    "C05_mul",
    "C05_scale",
    "C05_truediv",
    "C05_truediv_total",
    "C05_neg",
    "C05_add",
    "C05_sub",
    "C05_imul",
    "C05_iadd",
    "C05_isub",
    "C05_pow",
    "C05_pow_zero_refuted",
    "C05_matmul",
    "C05_imatmul"
   ],
   "note": "Zero()**0 refuted"
  },
  {
   "property": "C06",
   "status": "proved",
   "theorems": [
    "C06_flatten"
   ],
   "note": "flatten keeps operator, qubits and gate order, and leaves no nested composite of the same kind; evaluated for every block whose krons are on disjoint qubits."
  },
  {
   "property": "C07",
   "status": "proved",
   "theorems": [
    "C07_scale_primitive_blocks_only",
    "C07_with_scale",
    "C07_empty_chain_refuted"
   ],
   "note": "operator kept and scales only around gates, for blocks without empty chains; C07_empty_chain_refuted is the counterexample for an empty chain (finding)."
  },
  {
   "property": "C08",
   "status": "proved",
   "theorems": [
    "C08_reassign",
    "C08_invert_block",
    "C08_invert_wavefunction",
    "C08_invert_counter",
    "C08_invert_consistent",
    "C08_invert_evolution_refuted"
   ],
   "note": "HamEvo generators are not renamed (refuted with witness); everything else proved."
  },
  {
   "property": "C09",
   "status": "proved",
   "theorems": [
    "C09_chain_single_qubit_ops",
    "C09_shared_layer_refuted"
   ],
   "note": "operator kept when the layers are distinct objects; when the same kron object occurs twice the operator changes (refuted with witness)."
  },
  {
   "property": "C10",
   "status": "proved",
   "theorems": [
    "C10_fill_identities",
    "C10_fill_identities_total",
    "C10_fill_identities_refuted",
    "C10_fill_circuit",
    "C10_validate",
    "C10_validate_evolution_refuted",
    "C10_validate_kron"
   ],
   "note": "operator kept and full range covered for blocks without empty composites; fill_identities raises for krons whose parts have gaps and validate changes HamEvo blocks (both refuted with witnesses)."
  },
  {
   "property": "C11",
   "status": "proved",
   "theorems": [
    "C11_set_trainable",
    "C11_not_inplace",
    "C11_control_refuted",
    "C11_variational_fixed"
   ],
   "note": "exactly the parameters of the blocks (restricted by name) change, for blocks whose plain controls hold no parameters; parameters inside a plain ControlBlock are missed (refuted with witness)."
  },
  {
   "property": "C12",
   "status": "proved",
   "theorems": [
    "C12_int_to_basis",
    "C12_basis_to_int",
    "C12_too_large",
    "C12_negative_refuted",
    "C12_default_width",
    "C12_nqubits_to_basis",
    "C12_zero_qubits_refuted",
    "C12_samples_to_integers",
    "C12_samples_mixed_lengths_refuted",
    "C12_minus"
   ],
   "note": "negative integers are accepted, zero qubits gives a one-character string, and samples of different lengths collide (refuted with witnesses)."
  },
  {
   "property": "C13",
   "status": "proved",
   "theorems": [
    "C13_bitstring",
    "C13_zero_one",
    "C13_uniform",
    "C13_ghz",
    "C13_product_block",
    "C13_blocks",
    "C13_ghz_block",
    "C13_normalize",
    "C13_is_normalized",
    "C13_pmf",
    "C13_density",
    "C13_random_haar",
    "C13_random_product",
    "C13_random_rotations",
    "C13_empty_refuted"
   ],
   "note": "Vectors, the blocks that prepare them, random states for every draw, normalize, pmf, density matrices. Zero qubits raise (C13_empty_refuted), except ghz_block(0), which still acts on qubit 0. Random generators are modelled by their draws; rand_haar by QR is not modelled."
  },
  {
   "property": "C14",
   "status": "proved",
   "theorems": [
    "C14_value",
    "C14_shots",
    "C14_bounds",
    "C14_pauli_z",
    "C14_exact",
    "C14_unequal_refuted"
   ],
   "note": "Counts may be any non-negative reals. C14_unequal_refuted: histograms with different totals."
  },
  {
   "property": "C15",
   "status": "proved",
   "theorems": [
    "C15_terms",
    "C15_tomography",
    "C15_identity_factor_refuted",
    "C15_number_refuted",
    "C15_nested_refuted",
    "C15_inner_scale_refuted",
    "C15_little_refuted",
    "C15_repeated_refuted"
   ],
   "note": "Sampling is external: exact_sampler assumes Born frequencies. The _refuted theorems record the observables that are measured wrongly."
  },
  {
   "property": "C16",
   "status": "proved",
   "theorems": [
    "C16_estimators",
    "C16_unbiased",
    "C16_random",
    "C16_eigenstate",
    "C16_median",
    "C16_exact",
    "C16_weight",
    "C16_samples",
    "C16_variance",
    "C16_deviation",
    "C16_guarantee",
    "C16_remainder",
    "C16_too_few",
    "C16_one_qubit",
    "C16_ascending",
    "C16_order_refuted",
    "C16_little_refuted",
    "C16_budget_refuted"
   ],
   "note": "Shots are Born distributed (backend sampling is assumed). Findings: one-qubit circuits raise; kron factors out of support order are mixed up; little-endian runs do not reverse the basis rows; fewer rows than groups returns 0; the budget N is split over the K groups instead of being taken per group, so the documented accuracy is not guaranteed (C16_guarantee states what is)."
  },
  {
   "property": "C17",
   "status": "proved",
   "theorems": [
    "C17_mle",
    "C17_fixpoint"
   ],
   "note": "for every vector with sum one, strictly closest among all probability vectors, for every argsort meeting its specification."
  },
  {
   "property": "C18",
   "status": "proved",
   "theorems": [
    "C18_mitigation",
    "C18_mitigated_counter",
    "C18_counts",
    "C18_total",
    "C18_few_shots_refuted"
   ],
   "note": "whole pipeline (Kronecker product of the inverses, MLE, rounding, renormalisation, counter) for enough shots; finding: with few shots 0/0."
  },
  {
   "property": "C19",
   "status": "proved",
   "theorems": [
    "C19_zne",
    "C19_degree_refuted"
   ],
   "note": "exact for every set of distinct noise levels and every polynomial with at most that many coefficients, for every least-squares polyfit; higher degree refuted (expected limit)."
  },
  {
   "property": "C20",
   "status": "proved",
   "theorems": [
    "C20_gate_level",
    "C20_defined",
    "C20_constants",
    "C20_expression_level",
    "C20_initial_params",
    "C20_constants_refuted",
    "C20_dot_refuted"
   ],
   "note": "Exact definedness, gate-level and expression-level values, stored constants; findings: hash(-1)=hash(-2) makes constant angles -1 and -2 collide, and a dot in a parameter name collides with an underscore. sympy (free symbols, printing, compiled functions) enters as arbitrary functions."
  },
  {
   "property": "C21",
   "status": "proved",
   "theorems": [
    "C21_single_gap",
    "C21_rotation",
    "C21_jax_rotation",
    "C21_zero_denominator_refuted",
    "C21_jax_refuted"
   ],
   "note": "for every observable, state and single-gap generator with gaps on the 1e-4 grid the code rounds to and a non-zero denominator; unconditional for every rotation gate in every circuit. Findings: default settings divide by zero for gap 8; the JAX rule is wrong for controlled rotations."
  },
  {
   "property": "C22",
   "status": "proved",
   "theorems": [
    "C22_gaps",
    "C22_multi_gap",
    "C22_defined",
    "C22_evolution",
    "C22_controlled_rotation",
    "C22_no_gap_refuted",
    "C22_rounding_refuted"
   ],
   "note": "for all numbers of gaps whenever the rule returns a value, which is exactly when its system is non-singular; unconditional for controlled rotations. Findings: fails for gap-free generators and for gaps below the rounding grid."
  },
  {
   "property": "C23",
   "status": "proved",
   "theorems": [
    "C23_matrix",
    "C23_inverse",
    "C23_size",
    "C23_default",
    "C23_sdaqc",
    "C23_sdaqc_exact",
    "C23_sdaqc_default",
    "C23_sdaqc_matrix",
    "C23_sdaqc_refused"
   ],
   "note": "DFT matrix for every n, support, reverse_in and swaps flag; the inverse flag gives the two-sided inverse and conjugate transpose; any other support length fails. sDAQC strategy: within an explicit bound of the digital circuit for every n other than 4 and every fully coupled Ising build Hamiltonian, equal to it when the cut-off drops no slice; n = 4 and other supports are refused."
  },
  {
   "property": "C24",
   "status": "proved",
   "theorems": [
    "C24_layout",
    "C24_names",
    "C24_defined",
    "C24_sdaqc",
    "C24_periodic_odd_refuted",
    "C24_single_qubit_refuted"
   ],
   "note": "Digital layout (all rotations, neighbour pairs, closing pair), distinct names, exact condition for construction, digital-analog variant. Findings: periodic with odd n never closes the ring; n = 1 raises."
  },
  {
   "property": "C25",
   "status": "proved",
   "theorems": [
    "C25_identity",
    "C25_defined",
    "C25_consistent",
    "C25_name_clash_refuted",
    "C25_layers"
   ],
   "note": "Identity for every assignment with the recorded initial values; exact construction condition; consistency of the initial values for depth <= 11 or n*|ops| <= 10. Finding: layer 1 / index 10 and layer 11 / index 0 share the name suffix 110, and with 11 qubits and 12 layers the ansatz can differ from the identity."
  },
  {
   "property": "C26",
   "status": "proved",
   "theorems": [
    "C26_scaling",
    "C26_range",
    "C26_empty_range",
    "C26_gates",
    "C26_fourier_default",
    "C26_chebyshev_tower",
    "C26_chebyshev_domain",
    "C26_exp_fourier",
    "C26_end_point_refuted"
   ],
   "note": "affine map up to the code's 1e-9 tolerance on the factor (exact otherwise); gates of every feature map; Chebyshev tower and exponential Fourier angles."
  },
  {
   "property": "C27",
   "status": "proved",
   "theorems": [
    "C27_meaning",
    "C27_defined",
    "C27_total_magnetization",
    "C27_zz_hamiltonian",
    "C27_ising_hamiltonian",
    "C27_named_defined",
    "C27_observable",
    "C27_ising_config",
    "C27_ising_config_refuted",
    "C27_names",
    "C27_names_alltoall",
    "C27_names_refuted",
    "C27_all_node_pairs"
   ],
   "note": "Operator of every constructed Hamiltonian, exact definedness condition, named Hamiltonians, observables, parameter names; findings: edge names collide at (1,112)/(11,12), Ising configuration misses Z(0) on two qubits. The order of networkx edges on 3 qubits is taken lexicographic; block_is_qubit_hamiltonian is an arbitrary predicate here."
  },
  {
   "property": "C28",
   "status": "proved",
   "theorems": [
    "C28_error",
    "C28_exact",
    "C28_solvable",
    "C28_four_singular",
    "C28_total",
    "C28_rejects",
    "C28_incompatible",
    "C28_default",
    "C28_order_refuted"
   ],
   "note": "torch.linalg.solve is an argument, specified to answer the uniquely solvable system of the code with its solution (an explicit instance is given). Needs increasing set order (true of CPython up to 8 qubits); C28_order_refuted shows the failure at 9 qubits. Strengths that are a bare parameter raise and are outside two_body."
  },
  {
   "property": "C29",
   "status": "proved",
   "theorems": [
    "C29_verify",
    "C29_invariant",
    "C29_atomic",
    "C29_append",
    "C29_filter",
    "C29_round_trip",
    "C29_eq_same_length",
    "C29_eq_refuted",
    "C29_shared_list_refuted",
    "C29_class_object_refuted"
   ],
   "note": "rules hold after any history of calls; equality only compares the common prefix, the caller's lists are shared, and the enumeration class itself is accepted as a protocol (refuted with witnesses)."
  },
  {
   "property": "C30",
   "status": "proved",
   "theorems": [
    "C30_run",
    "C30_brackets",
    "C30_stop",
    "C30_end",
    "C30_epoch_count_refuted"
   ],
   "note": "exact shape of every run, stop requests and interrupts at any point; the number of epochs is max_iter + 1 instead of max_iter (refuted for every configuration)."
  },
  {
   "property": "C31",
   "status": "proved",
   "theorems": [
    "C31_run_callbacks",
    "C31_end_sees_current",
    "C31_epoch_end_run",
    "C31_epoch_start_refuted"
   ],
   "note": "firing rule and order for every stage; over whole runs for end-of-epoch callbacks; start-of-epoch callbacks look at the previous epoch (refuted with witness)."
  },
  {
   "property": "C32",
   "status": "proved",
   "theorems": [
    "C32_early_stopping",
    "C32_first_request",
    "C32_missing_metric",
    "C32_mode_refuted"
   ],
   "note": "for every mode, patience and history (including NaN and infinities); an unknown mode is accepted and stops after patience evaluations (refuted)."
  },
  {
   "property": "C33",
   "status": "proved",
   "theorems": [
    "C33_latest",
    "C33_resume",
    "C33_crash_refuted",
    "C33_torn_write_refuted",
    "C33_single_file_refuted",
    "C33_class_name_refuted"
   ],
   "note": "largest iteration is chosen and complete checkpoints resume consistently, in any listing order; crash points between or inside the two writes mix iterations, a single file is taken for any device, and class names containing the type confuse the choice (refuted with witnesses)."
  },
  {
   "property": "C34",
   "status": "proved",
   "theorems": [
    "C34_step_decay",
    "C34_cyclic",
    "C34_cyclic_bounds",
    "C34_cyclic_period",
    "C34_cyclic_extremes",
    "C34_cyclic_groups",
    "C34_cosine_product",
    "C34_cosine_one_call_partial",
    "C34_cosine_bounds",
    "C34_cosine_refuted"
   ],
   "note": "step decay and cyclic exact; cosine annealing compounds (closed form proved, documented curve refuted from the second call on)."
  },
  {
   "property": "C35",
   "status": "proved",
   "theorems": [
    "C35_every_pass",
    "C35_first_pass",
    "C35_size_check",
    "C35_two_iterators_refuted",
    "C35_empty_refuted"
   ],
   "note": "every window of one pass length, after any history and interleaving with started iterators; starting a second iterator reshuffles the first one's order, and an empty dataset loops forever (refuted with witnesses)."
  },
  {
   "property": "C36",
   "status": "proved",
   "theorems": [
    "C36_set_get",
    "C36_get_set",
    "C36_frame",
    "C36_too_short",
    "C36_num_parameters",
    "C36_partial_write_refuted",
    "C36_surplus_refuted",
    "C36_num_parameters_refuted"
   ],
   "note": "round trips and framing for every module; a too short vector fails after overwriting earlier parameters, surplus entries are ignored (refuted with witnesses)."
  },
  {
   "property": "C37",
   "status": "proved",
   "theorems": [
    "C37_support_arrays",
    "C37_exactly_one",
    "C37_series",
    "C37_errors",
    "C37_fm_qubits_partial",
    "C37_fm_qubits_refuted",
    "C37_fm_qubits"
   ],
   "note": "support arrays partition the qubits; get_fm_qubits does so exactly when the number of features divides the number of qubits and otherwise leaves the last qubit out (refuted)."
  },
  {
   "property": "C38",
   "status": "proved",
   "theorems": [
    "C38_distance",
    "C38_pairs",
    "C38_min_distance",
    "C38_rescale",
    "C38_rescale_compose",
    "C38_spacing",
    "C38_line",
    "C38_rectangular",
    "C38_round_trip_partial",
    "C38_round_trip_rescales",
    "C38_round_trip_refuted"
   ],
   "note": "all registers; lattices line and rectangular; finding: reading back a register rescales it to spacing one."
  },
  {
   "property": "C39",
   "status": "proved",
   "theorems": [
    "C39_js",
    "C39_js_disjoint",
    "C39_norm_partial",
    "C39_norm_refuted"
   ],
   "note": "for all measured counters; norm_difference is a metric only for counters with the same outcome order (finding: it ignores the outcomes)."
  },
  {
   "property": "C40",
   "status": "proved",
   "theorems": [
    "C40_exact",
    "C40_compute_uncompute",
    "C40_swap_test",
    "C40_hadamard_test",
    "C40_methods_agree",
    "C40_counts_uncompute",
    "C40_counts_ancilla",
    "C40_counts_exact",
    "C40_batch",
    "C40_jensen_shannon",
    "C40_shared_feature_refuted",
    "C40_narrow_refuted"
   ],
   "note": "Operators of the circuits built by each method, on arbitrary qubit numbers; movable excludes Hamiltonian evolution (reassign leaves its generator in place, see C08) and wide excludes circuits whose reported number of qubits is too small. Findings: C40_shared_feature_refuted, C40_narrow_refuted."
  },
  {
   "property": "C41",
   "status": "proved",
   "theorems": [
    "C41_term",
    "C41_first_order",
    "C41_commuting_exact",
    "C41_second_order",
    "C41_fourth_order",
    "C41_digital_exact",
    "C41_requested_order",
    "C41_digital_first_order",
    "C41_any_string",
    "C41_gap_refuted",
    "C41_identity_refuted",
    "C41_single_kron_refuted",
    "C41_number_refuted",
    "C41_odd_y_refuted",
    "C41_order_ignored_refuted",
    "C41_fourth_order_fractions"
   ],
   "note": "Exactness per term, product formulas of all three orders, exactness for commuting terms and of digital_decomposition; complete description of what is built for any Pauli string; six refuted cases recorded as findings."
  },
  {
   "property": "C42",
   "status": "proved",
   "theorems": [
    "C42_weights",
    "C42_local",
    "C42_total",
    "C42_inside",
    "C42_accepted",
    "C42_unknown_qubit_refuted",
    "C42_full_weight_refuted"
   ],
   "note": "Local and global limits, weights in [0,1], exact acceptance condition, identity inside the limits. Findings: weights for non-existing qubits are accepted and dropped; a value exactly at a limit is halved."
  },
  {
   "property": "C43",
   "status": "proved",
   "theorems": [
    "C43_chain",
    "C43_chain_complete",
    "C43_kron",
    "C43_kron_result",
    "C43_nested_global_refuted"
   ],
   "note": "Tree of analog blocks with evaluated durations; kron acceptance characterised exactly; numpy.isclose tolerance is part of the statement; finding: a chain hides a global part from kron."
  },
  {
   "property": "C44",
   "status": "proved",
   "theorems": [
    "C44_expression",
    "C44_expression_only",
    "C44_block",
    "C44_exact",
    "C44_circuit",
    "C44_raises",
    "C44_json",
    "C44_json_noise_refuted",
    "C44_tags_refuted",
    "C44_parameter",
    "C44_time_refuted",
    "C44_kron_refused",
    "C44_empty_noise"
   ],
   "note": "Full round trip for the restorable classes; every tree with another class raises; inner tags and JSON noise are lost (refuted theorems). Register round trip is a hypothesis of C44_circuit; sympy srepr/eval are modelled."
  },
  {
   "property": "C45",
   "status": "proved",
   "theorems": [
    "C45_count_bitstrings",
    "C45_to_list_of_dicts",
    "C45_wrong_sizes_refuted",
    "C45_plain_values_refuted",
    "C45_infer_batchsize",
    "C45_validate"
   ],
   "note": "batches with sizes m and 1 are split correctly; other sizes are accepted silently and plain values are dropped (refuted with witnesses)."
  },
  {
   "property": "C46",
   "status": "proved",
   "theorems": [
    "C46_from_area",
    "C46_from_duration",
    "C46_area_refuted",
    "C46_negative_refuted"
   ],
   "note": "Amplitude, clock, minimal duration and area bounds for from_area (the refinement loop is shown never to iterate); from_duration exact for 0 or >= 1e-10. Findings: area only up to the resolution; negative values multiplied by ~1000."
  },
  {
   "property": "C47",
   "status": "proved",
   "theorems": [
    "C47_hamiltonian",
    "C47_exact",
    "C47_sound",
    "C47_expansion_commutes",
    "C47_complete_refuted"
   ],
   "note": "Exact characterisation of the answer and soundness for operators; C47_complete_refuted records that the check is incomplete."
  },
  {
   "property": "C48",
   "status": "proved",
   "theorems": [
    "C48_sum",
    "C48_terms",
    "C48_terms_refuted"
   ],
   "note": "Weighted sum equals the operator; terms are not sums. C48_terms_refuted: directly nested ScaleBlocks hide a sum."
  },
  {
   "property": "C49",
   "status": "proved",
   "theorems": [
    "C49_unitary",
    "C49_dagger_inverse",
    "C49_hermitian",
    "C49_real_expectation",
    "C49_projector_refuted"
   ],
   "note": "By induction over blocks; evolutions through exp(A)exp(-A)=1 proved from the power series (L_ExpMul, L_ExpOp). Projectors and the number operator are not gates (C49_projector_refuted)."
  },
  {
   "property": "C50",
   "status": "proved",
   "theorems": [
    "C50_parse",
    "C50_exact",
    "C50_unambiguous",
    "C50_no_operators",
    "C50_called",
    "C50_injection_refuted"
   ],
   "note": "The PEG parser accepts exactly the grammar; C50_injection_refuted records that any built-in function name can still be called."
  },
  {
   "property": "C51",
   "status": "proved",
   "theorems": [
    "C51_scale_expression",
    "C51_convert",
    "C51_circuit",
    "C51_observable",
    "C51_n_state_refuted",
    "C51_tdagger_refuted",
    "C51_imaginary_refuted",
    "C51_reserved_name_refuted",
    "C51_negative_scale_refuted",
    "C51_time_dependent_refuted"
   ],
   "note": "Compilation to the pyqtorch backend; the native operations are specified externally in S_Native. Deviations are proved as _refuted theorems."
  },
  {
   "property": "C52",
   "status": "proved",
   "theorems": [
    "C52_layout",
    "C52_run",
    "C52_run_default",
    "C52_expectation",
    "C52_looped",
    "C52_sample",
    "C52_end_to_end",
    "C52_one_qubit_truncated_refuted",
    "C52_one_qubit_permuted_refuted",
    "C52_little_state_refuted",
    "C52_pyq_shape_refuted",
    "C52_loop_drops_rows_refuted"
   ],
   "note": "Full pipeline from the block to the returned tensors, with tensors as shape plus row-major entries. The pyqtorch calls (run, expectation, sample, init_state) are specified in S_Tensor.v; the compiled operator is that of C51 (C52_end_to_end). The five refuted theorems are the exceptions named in the statement. Noise and measurement protocols are covered by C14-C18, not here."
  },
  {
   "property": "C53",
   "status": "proved",
   "theorems": [
    "C53_drive",
    "C53_pattern",
    "C53_interaction",
    "C53_interaction_defined",
    "C53_translation",
    "C53_determined",
    "C53_no_device",
    "C53_analog_rot",
    "C53_defined",
    "C53_digital",
    "C53_durations_add",
    "C53_rotations",
    "C53_unitary",
    "C53_kron_one_drive",
    "C53_parallel_refuted",
    "C53_nested_kron_refuted",
    "C53_wait_kron_refuted",
    "C53_mixed_kron_refuted"
   ],
   "note": "Parameters stand for their values; AnalogEntanglement and scaled analog blocks are not modelled. The AnalogKron semantics (one after the other) is the one the code comments state; the four refuted theorems record where it departs from the user documentation."
  },
  {
   "property": "C54",
   "status": "proved",
   "theorems": [
    "C54_gradient",
    "C54_partial_derivative",
    "C54_keys",
    "C54_gates",
    "C54_higher",
    "C54_higher_gates",
    "C54_shared_refuted",
    "C54_scale_refuted",
    "C54_generator_refuted",
    "C54_composite_refuted",
    "C54_scaled_cz_refuted"
   ],
   "note": "Circuits at gate level (every gate parameter is a dictionary entry under its identifier), one batch element, real spectra, exact arithmetic. torch.linalg.solve and torch.linalg.eigvals are function arguments: the solver is required to solve solvable systems of the sizes that occur, and the eigenvalues of a differentiated generator to diagonalise it with gaps that survive rounding to four decimals. Higher derivatives assume that the nested backward pass applies the rules to the shifted expectation values."
  },
  {
   "property": "C55",
   "status": "proved",
   "theorems": [
    "C55_layout",
    "C55_names",
    "C55_defined",
    "C55_one_block_refuted",
    "C55_two_qubits_refuted"
   ],
   "note": "Layout of every layer, distinctness of the parameters, and the exact conditions under which the ansatz is constructed. Only the digital strategy exists in the code."
  },
  {
   "property": "C56",
   "status": "proved",
   "theorems": [
    "C56_digital",
    "C56_term_by_term",
    "C56_exact",
    "C56_unchanged",
    "C56_nested_refuted",
    "C56_gap_refuted"
   ],
   "note": "For blocks; the circuit version rebuilds the circuit on the same number of qubits and loses its register."
  },
  {
   "property": "C57",
   "status": "proved",
   "theorems": [
    "C57_swap",
    "C57_probabilities",
    "C57_multiples",
    "C57_equal"
   ],
   "note": "In exact arithmetic: the code uses the floating point values of the coefficients."
  },
  {
   "property": "C58",
   "status": "proved",
   "theorems": [
    "C58_stretch",
    "C58_extrapolates",
    "C58_ideal",
    "C58_analog_zne",
    "C58_wait_refuted",
    "C58_kron_refuted",
    "C58_interacting_refuted"
   ],
   "note": "C58_stretch: exact relation between the stretched and the original program. C58_extrapolates, C58_ideal, C58_analog_zne: the mitigated value. Findings: C58_wait_refuted (programs with a free evolution raise AttributeError), C58_kron_refuted (pulses in an AnalogKron are not stretched), C58_interacting_refuted (bias without noise: exact value 1, result 2)."
  },
  {
   "property": "C59",
   "status": "proved",
   "theorems": [
    "C59_asking",
    "C59_reset",
    "C59_evaluation",
    "C59_evaluation_expr",
    "C59_set",
    "C59_history",
    "C59_needs",
    "C59_inputs",
    "C59_noise_refuted",
    "C59_training_refuted",
    "C59_fixed_refuted",
    "C59_inputs_refuted",
    "C59_form"
   ],
   "note": "Proved over arbitrary histories of calls, for any backend, with the embedding of C20 and the heap of parameter objects of C11. Hypotheses: identifiers name one expression, plain controls hold no parameters (C11), in the expression mode distinct expressions print differently, and no parameter is named like a constant. Findings as _refuted theorems: noise sticks, fixing loses training, fixed parameters become inputs, inputs are stale."
  },
  {
   "property": "C60",
   "status": "proved",
   "theorems": [
    "C60_finitediff",
    "C60_error",
    "C60_default",
    "C60_autograd",
    "C60_agree",
    "C60_refused",
    "C60_sampling",
    "C60_eps_refuted",
    "C60_sampling_refuted"
   ],
   "note": "Numbers are reals (no rounding). torch.autograd.grad is an argument with its specification (derivative of the total); an instance is exhibited. Findings: the given spacing is not passed on; finitediff_sampling ignores eps and num_samples."
  },
  {
   "property": "C61",
   "status": "proved",
   "theorems": [
    "C61_columns",
    "C61_constructor",
    "C61_history",
    "C61_forward",
    "C61_evaluation",
    "C61_as_model",
    "C61_refused",
    "C61_defined",
    "C61_order",
    "C61_names_refuted",
    "C61_duplicate_refuted",
    "C61_observable_refuted",
    "C61_no_values"
   ],
   "note": "Findings: only the number of inputs is checked (C61_names_refuted), a repeated name drops a column (C61_duplicate_refuted), observable and mitigation arguments of QNN.expectation are ignored (C61_observable_refuted). C61_evaluation and C61_order at gate level; C61_defined at both levels."
  },
  {
   "property": "C62",
   "status": "proved",
   "theorems": [
    "C62_load_params",
    "C62_resume",
    "C62_loadable",
    "C62_loaded",
    "C62_qnn",
    "C62_default_refuted",
    "C62_constants_refuted",
    "C62_observable_refuted",
    "C62_measurement_refuted",
    "C62_mode_refuted"
   ],
   "note": "Blocks, parameter objects and noise are taken to come back as saved (C44 says when). Findings: load without as_torch restores initial values (C62_default_refuted), with as_torch constants become trainable (C62_constants_refuted), models without observable (C62_observable_refuted) or with a measurement protocol (C62_measurement_refuted) cannot be loaded, the input differentiation mode is lost (C62_mode_refuted)."
  },
  {
   "property": "C63",
   "status": "proved",
   "theorems": [
    "C63_config",
    "C63_config_defined",
    "C63_upload_count",
    "C63_series",
    "C63_parallel",
    "C63_fm_defined",
    "C63_circuit",
    "C63_no_features",
    "C63_fits",
    "C63_ansatz",
    "C63_names",
    "C63_parameters",
    "C63_weights",
    "C63_ala_depth_refuted",
    "C63_ala_operations_refuted",
    "C63_ala_reupload_refuted",
    "C63_iia_sdaqc_refuted",
    "C63_operation_refuted",
    "C63_prefix_refuted",
    "C63_rydberg"
   ],
   "note": "The documented behaviour fails in six places, stated as _refuted theorems: depth and operations of an alternating layer ansatz are ignored, such an ansatz cannot be used with more than one upload, the sDAQC identity initialized ansatz has no usable default entangler, an operation that does not fit the strategy does not take precedence, and a prefix fm_0 shares parameters with a layer."
  },
  {
   "property": "C64",
   "status": "proved",
   "theorems": [
    "C64_circuit",
    "C64_feature_map",
    "C64_feature_map_defined",
    "C64_pooling",
    "C64_coverage",
    "C64_alternation",
    "C64_defined",
    "C64_fits",
    "C64_parameters",
    "C64_correlated",
    "C64_observable",
    "C64_second_layer_refuted",
    "C64_alternation_refuted",
    "C64_odd_refuted",
    "C64_correlated_refuted"
   ],
   "note": "Findings: the second layer cannot be repeated with fewer than eight qubits; pairs do not alternate from the third layer on; a layer with an odd number of qubits leaves one out; correlated parameters are not shared by corresponding gates of different cells."
  },
  {
   "property": "C65",
   "status": "proved",
   "theorems": [
    "C65_variations",
    "C65_scalar",
    "C65_derivatives",
    "C65_derivative_values",
    "C65_counts",
    "C65_losses",
    "C65_discretize",
    "C65_transitions",
    "C65_probabilities",
    "C65_information",
    "C65_flat",
    "C65_scale",
    "C65_sign",
    "C65_max",
    "C65_sensitivity",
    "C65_sensitivity_defined",
    "C65_q",
    "C65_grad_bounds",
    "C65_bounds_refuted",
    "C65_sensitivity_bound",
    "C65_sensitivity_refuted",
    "C65_scalar_refuted",
    "C65_rows"
   ],
   "note": "The random numbers, the loss function, floating point and NormalDist.inv_cdf are outside the model: the walk and the losses are arbitrary, real arithmetic is exact, and inv_cdf is any increasing function on (0,1) that vanishes at 1/2. Three deviations are refuted with witnesses."
  },
  {
   "property": "C66",
   "status": "proved",
   "theorems": [
    "C66_run",
    "C66_sample",
    "C66_expectation",
    "C66_circuit",
    "C66_forms_run",
    "C66_forms_sample",
    "C66_forms_expectation",
    "C66_refused",
    "C66_model_run",
    "C66_model_sample",
    "C66_model_expectation",
    "C66_model_defaults",
    "C66_factory",
    "C66_list_refuted",
    "C66_block_values_refuted",
    "C66_order_refuted",
    "C66_composition_refuted",
    "C66_shared_refuted",
    "C66_composition",
    "C66_composition_kept"
   ],
   "note": "The backends' convert, run, sample and expectation, the embedding and registers are arguments of the model; the embedding is assumed not to depend on the order of a ParameterDict. Dictionaries as configuration are modelled but excluded from C66_factory. Five deviations are refuted with witnesses."
  },
  {
   "property": "C67",
   "status": "proved",
   "theorems": [
    "C67_accepts",
    "C67_order",
    "C67_pulses",
    "C67_digital_xy",
    "C67_digital_z",
    "C67_rotation",
    "C67_rotation_configured",
    "C67_analog_rot",
    "C67_interaction",
    "C67_entanglement",
    "C67_pattern",
    "C67_sequence",
    "C67_sign_refuted",
    "C67_phase_refuted",
    "C67_configured_refuted",
    "C67_interaction_refuted",
    "C67_parallel_refuted",
    "C67_entanglement_refuted",
    "C67_twice_refuted",
    "C67_axes"
   ],
   "note": "Acceptance, order, one pulse per gate, areas and durations up to the resolution, entanglement, addressing patterns and devices. Findings: the sign of angles and phases is lost; a configured amplitude changes the angle; interactions on some qubits play nothing; rotations side by side are played in sequence; a local entanglement is global; a parametrised block used twice declares a variable twice."
  },
  {
   "property": "C68",
   "status": "proved",
   "theorems": [
    "C68_run",
    "C68_refused",
    "C68_history",
    "C68_sample",
    "C68_expectation",
    "C68_noisy",
    "C68_noise_refuted",
    "C68_empty_refuted",
    "C68_cloud_refuted",
    "C68_initial_state_refuted",
    "C68_pattern_refuted"
   ],
   "note": "History independence of noiseless calls with values, rows, refusals, samples, expectations and noisy runs. Findings: the noise of a noisy run stays in the configuration and reaches later noiseless calls; a run with an empty dictionary measures the native sequence so a second one is refused; noisy runs neither reverse the initial state nor apply the addressing pattern; cloud samples ignore the initial state."
  },
  {
   "property": "C69",
   "status": "proved",
   "theorems": [
    "C69_layer",
    "C69_layer_defined",
    "C69_hea",
    "C69_hea_defined",
    "C69_names",
    "C69_diagonal",
    "C69_prefix_refuted",
    "C69_interaction_refuted",
    "C69_feature_rotations",
    "C69_feature_defined",
    "C69_feature_kron",
    "C69_feature_effect",
    "C69_feature_translated",
    "C69_detuning",
    "C69_detuning_refuted",
    "C69_tower",
    "C69_tower_defined",
    "C69_analog",
    "C69_rebuild_other"
   ],
   "note": "Parameters are identified by names. The order of Python sets is an argument; the scale pass of the backend rebuilds the kron as an analog one, which is modelled by rebuild_kron."
  },
  {
   "property": "C70",
   "status": "proved",
   "theorems": [
    "C70_sound",
    "C70_total",
    "C70_contains",
    "C70_reflexive",
    "C70_order",
    "C70_chain",
    "C70_gates",
    "C70_rotations",
    "C70_scaled",
    "C70_controlled",
    "C70_evolution_refuted",
    "C70_projector_refuted",
    "C70_matrix_refuted",
    "C70_parameter_refuted",
    "C70_sum_refuted",
    "C70_nested_refuted",
    "C70_u_refuted",
    "C70_circuit_contains",
    "C70_circuit_contains_gate",
    "C70_circuit_u_refuted",
    "C70_contains_refuted",
    "C70_circuit",
    "C70_circuit_reflexive",
    "C70_register_refuted",
    "C70_parameter_sound",
    "C70_parameter_complete",
    "C70_factor_refuted",
    "C70_circuit_parameter"
   ],
   "note": "Comparison and membership of blocks, registers and circuits as the recursive methods of the code; sympy's == and equals on larger expressions are arguments assumed sound. Ten refuted forms with witnesses."
  },
  {
   "property": "C71",
   "status": "proved",
   "theorems": [
    "C71_generator",
    "C71_generator_refuses",
    "C71_circuit",
    "C71_observable",
    "C71_refuses",
    "C71_run",
    "C71_state_batch",
    "C71_expectation_batch",
    "C71_expectation_single",
    "C71_batch_sizes",
    "C71_backend",
    "C71_sample",
    "C71_no_parameters_refuted",
    "C71_little_endian_refuted",
    "C71_projector_refuted"
   ],
   "note": "Converted programs denote the block (C71_circuit, C71_observable), unsupported gates are refused (C71_refuses), run/expectation/sample on all inputs. Findings: no expectation without any parameter; little-endian expectation always fails; non-symmetric projectors are transposed in generators. What horqrux operations, vmap and random.choice do is trusted."
  },
  {
   "property": "C72",
   "status": "proved",
   "theorems": [
    "C72_purity",
    "C72_purity_pure",
    "C72_entropy",
    "C72_entropy_exact",
    "C72_entropy_pure_refuted",
    "C72_fidelity",
    "C72_fidelity_roots",
    "C72_fidelity_short_batch",
    "C72_fidelity_symmetric",
    "C72_fidelity_self",
    "C72_fidelity_pure",
    "C72_basis_change",
    "C72_equivalent_state",
    "C72_equivalent_phase"
   ],
   "note": "eigh and eigvalsh of torch.linalg are arguments with the spectral theorem as contract (met in closed form for every Hermitian matrix of dimension two). The entropy of a pure state is refuted to be zero. partial_trace is a pyqtorch call and not modelled."
  },
  {
   "property": "C73",
   "status": "proved",
   "theorems": [
    "C73_line",
    "C73_square",
    "C73_square_one_refuted",
    "C73_circle",
    "C73_rectangular",
    "C73_shared_graph_refuted",
    "C73_new_frame",
    "C73_new_none",
    "C73_rescale"
   ],
   "note": "Positions of circular_layout are an argument with the contract polygon (a regular polygon). A square with one qubit on its side has no qubit (refuted); two registers made from one graph object share the last spacing (refuted). The triangular and honeycomb lattices and the spring layout of all_to_all are not modelled."
  },
  {
   "property": "C74",
   "status": "proved",
   "theorems": [
    "C74_reachable_good",
    "C74_frame",
    "C74_distinct",
    "C74_same_object",
    "C74_attributes",
    "C74_strings",
    "C74_value_refuted",
    "C74_none",
    "C74_zero_value",
    "C74_copy_refuted",
    "C74_order_refuted",
    "C74_hash_refuted",
    "C74_eq_laws",
    "C74_transitive_refuted",
    "C74_round_trip",
    "C74_time_refuted",
    "C74_load_refuted",
    "C74_evicted_refuted",
    "C74_evaluate",
    "C74_evaluate_fails",
    "C74_evaluate_torch",
    "C74_same_name_refuted"
   ],
   "note": "sympy's cached Symbol constructor (key: class, name, assumptions as booleans in the given order; least recently used, 1000 entries) and the hash of a symbol are part of the model. Values are complex numbers. Findings: value, copy, order, hash, transitive, time, load, evicted, same_name (refuted)."
  },
  {
   "property": "C75",
   "status": "proved",
   "theorems": [
    "C75_to",
    "C75_to_commuting",
    "C75_domain",
    "C75_from",
    "C75_width",
    "C75_identity_refuted",
    "C75_zero_refuted",
    "C75_round_trip",
    "C75_chain_refuted",
    "C75_values_refuted",
    "C75_small_refuted"
   ],
   "note": "QubitOperator is a record of operations with a contract (met by the reference implementation in P_OpenFermion.v); additions that drop a non-zero coefficient are excluded from the positive theorems and treated by C75_small_refuted; analog blocks are not represented"
  },
  {
   "property": "C76",
   "status": "proved",
   "theorems": [
    "C76_set_noise",
    "C76_make",
    "C76_frame",
    "C76_history",
    "C76_quiet",
    "C76_leak_refuted",
    "C76_sticky_refuted",
    "C76_readout_refuted",
    "C76_dropout_refuted",
    "C76_scaled_refuted",
    "C76_append_refuted"
   ],
   "note": "programs are recorded as sequences of native leaf operations; scaled blocks contain one gate; analog blocks are left out"
  },
  {
   "property": "C77",
   "status": "proved",
   "theorems": [
    "C77_result",
    "C77_time",
    "C77_zero",
    "C77_short_refuted",
    "C77_late_refuted",
    "C77_values",
    "C77_values_accepted",
    "C77_matrix_refuted",
    "C77_empty_refuted",
    "C77_valid",
    "C77_submit",
    "C77_trained_refuted",
    "C77_client",
    "C77_explicit",
    "C77_refusal",
    "C77_again",
    "C77_five",
    "C77_variables_refuted",
    "C77_environment_refuted"
   ],
   "note": "remote status is a function of time; requests take no time; text encodings are arguments assumed injective in C77_submit"
  },
  {
   "property": "C78",
   "status": "proved",
   "theorems": [
    "C78_per_run",
    "C78_one_folder",
    "C78_collision_refuted",
    "C78_dot_refuted",
    "C78_forgotten_refuted",
    "C78_crash",
    "C78_continue",
    "C78_frame",
    "C78_history",
    "C78_memory",
    "C78_lost_refuted",
    "C78_best_refuted",
    "C78_stale_refuted"
   ],
   "note": "single process; checkpoint names abstracted to their numbers (C33); an epoch is an arbitrary function on the parameters; C78_continue and C78_history require that no best-checkpoint is kept in the folder (C78_best_refuted)"
  },
  {
   "property": "C79",
   "status": "proved",
   "theorems": [
    "C79_gradients",
    "C79_before",
    "C79_after_refuted",
    "C79_no_loss_refuted",
    "C79_told",
    "C79_succeeds",
    "C79_newest",
    "C79_last_refuted",
    "C79_metrics",
    "C79_loss_metric_refuted",
    "C79_epoch",
    "C79_missing",
    "C79_samples",
    "C79_samples_refuted",
    "C79_mse",
    "C79_broadcast_refuted"
   ],
   "note": "torch optimisers as decision trees of closure evaluations; autograd as an exact gradient function; nevergrad's tell and ask as functions, ask giving vectors of the model's size; after a gradient-free fit the model holds an untested suggestion, an optimiser's loss is that before the update, unequal batches are not weighted, and (n,1) outputs against (n,) targets broadcast"
  },
  {
   "property": "C80",
   "status": "proved",
   "theorems": [
    "C80_epoch",
    "C80_max",
    "C80_drop_last",
    "C80_infinite",
    "C80_no_loader",
    "C80_other_refuted",
    "C80_dict",
    "C80_dict_refuted",
    "C80_history",
    "C80_test",
    "C80_test_refuted",
    "C80_own_test_refuted",
    "C80_processes",
    "C80_nodes_refuted",
    "C80_reshuffle_refuted",
    "C80_drop_last_refuted"
   ],
   "note": "torch's DataLoader, BatchSampler and DistributedSampler modelled after their documentation; findings: test ignores the trainer's own test loader and stops after the number of training batches, datasets of other classes are used for one batch only, the first of several loaders decides, local ranks over several nodes leave samples out, shuffling and drop_last are lost with several processes"
  },
  {
   "property": "C81",
   "status": "proved",
   "theorems": [
    "C81_alone",
    "C81_many",
    "C81_single",
    "C81_sticky_refuted",
    "C81_strangers_refuted",
    "C81_gpu_after_cpu_refuted",
    "C81_cluster",
    "C81_fewer_refuted",
    "C81_cpu_refuted",
    "C81_rest_refuted",
    "C81_torchrun",
    "C81_torchrun_cpu_refuted",
    "C81_port",
    "C81_one_port"
   ],
   "note": "processes up to the creation of the process group; os.environ as a record of the variables read and written, copied to spawned processes; findings: a single-process fit makes all later trainers single-process, trainers made before it start processes that do not know each other, CPU then GPU fails, ranks clash or are out of range on clusters that do not have one process per GPU, and under torchrun on CPUs"
  },
  {
   "property": "C82",
   "status": "proved",
   "theorems": [
    "C82_average",
    "C82_exact",
    "C82_refused",
    "C82_identity_term_refuted",
    "C82_unequal_refuted"
   ],
   "note": "Estimates are the mean over the shots of the observable's value in the state read; exact frequencies give exact values; whatever is accepted is diagonal. Findings: an identity term inside an observable is estimated as Z; with unequal numbers of shots everything is divided by the first."
  },
  {
   "property": "C83",
   "status": "proved",
   "theorems": [
    "C83_value",
    "C83_measured",
    "C83_single",
    "C83_jax",
    "C83_adjoint",
    "C83_adjoint_layout",
    "C83_modes",
    "C83_sample_run",
    "C83_guards",
    "C83_convert",
    "C83_adjoint_shape_refuted",
    "C83_adjoint_settings_refuted",
    "C83_jax_settings_refuted",
    "C83_measured_backend_refuted",
    "C83_missing_parameter_refuted",
    "C83_convert_refuted"
   ],
   "note": "Proved for torch AD and GPSR (parameters with rules), one observable in adjoint mode, jax in all modes, sampling, running, guards and conversion. Findings: adjoint and jax ignore measurement, noise, mitigation and endianness; adjoint stacks several observables into one column; GPSR runs measurement protocols on the default backend and drops parameters without rules; convert() has none of the guards."
  },
  {
   "property": "C84",
   "status": "proved",
   "theorems": [
    "C84_metrics",
    "C84_one_value",
    "C84_figures",
    "C84_once",
    "C84_rank",
    "C84_mlflow",
    "C84_printed",
    "C84_signature",
    "C84_dict_refuted",
    "C84_end_refuted",
    "C84_plot_disabled_refuted",
    "C84_resume_validation_refuted",
    "C84_refit_refuted",
    "C84_interrupted_refuted",
    "C84_mlflow_figures_refuted",
    "C84_mlflow_resume_refuted",
    "C84_mlflow_failure_refuted",
    "C84_hyperparameters",
    "C84_capitals"
   ],
   "note": "Refuted: metrics are not written at the end when write_every = 0; plot_every = 0 still plots at the start; resumed and repeated fits misplace the first validation; a keyboard interrupt writes metrics of the epoch before; MLflow keeps only the last figure of a name, splits resumed trainings and stays active after a failure; models of named data cannot be logged."
  },
  {
   "property": "C85",
   "status": "proved",
   "theorems": [
    "C85_deterministic",
    "C85_mean",
    "C85_together",
    "C85_stop",
    "C85_alone",
    "C85_batch",
    "C85_order_refuted",
    "C85_integer_refuted",
    "C85_interrupt_refuted",
    "C85_batches_refuted",
    "C85_nested_tuple_refuted",
    "C85_other_refuted",
    "C85_labels_refuted"
   ],
   "note": "Refuted: metrics in different orders are mixed, integer metrics raise, an interrupted process or different numbers of batches keep the processes from ending together when metrics are aggregated, nested tuples in a batch are refused, other batches are replaced by None, integer labels are cast"
  },
  {
   "property": "C86",
   "status": "proved",
   "theorems": [
    "C86_same_as_dense",
    "C86_entries",
    "C86_refused",
    "C86_endianness_refuted",
    "C86_support_refuted",
    "C86_batch_refuted"
   ],
   "note": "For parameters with one value. Refuted: the endianness is ignored for composite and scaled blocks, the support asked for is ignored by the sparse form, a batch of values is multiplied along the diagonal"
  },
  {
   "property": "C87",
   "status": "proved",
   "theorems": [
    "C87_restored",
    "C87_inside",
    "C87_refused",
    "C87_handover",
    "C87_suits",
    "C87_class_flag",
    "C87_class_flag_refuted",
    "C87_lost_refuted",
    "C87_exception"
   ],
   "note": "Refuted: after the first context set_use_grad of the class no longer reaches the trainer; changing the flag while an optimiser of the other kind is held is not noticed, and a context then loses the optimiser"
  },
  {
   "property": "C88",
   "status": "proved",
   "theorems": [
    "C88_by_tag",
    "C88_reassign",
    "C88_dagger",
    "C88_dagger_refuted",
    "C88_flatten",
    "C88_flatten_refuted",
    "C88_hidden_refuted",
    "C88_scale",
    "C88_scale_refuted",
    "C88_draw",
    "C88_draw_refuted",
    "C88_erase",
    "C88_dagger_operation"
   ],
   "note": "M_Tags.v, P_Tags.v. Refuted readings: a tag inside a scaled or controlled block is not found, dagger and flattening lose tags of compositions, scaling hides tags, drawing removes tags from the block of the user."
  },
  {
   "property": "C89",
   "status": "proved",
   "theorems": [
    "C89_coordinates",
    "C89_rectangular",
    "C89_rows_refuted",
    "C89_around",
    "C89_square"
   ],
   "note": "M_Lattice.v, P_Lattice.v. Refuted: the qubits of a rectangular lattice that lie in a row (same second coordinate) are qubits_col many, not qubits_row."
  },
  {
   "property": "C90",
   "status": "proved",
   "theorems": [
    "C90_transpile",
    "C90_digital",
    "C90_new_register",
    "C90_same",
    "C90_rotate",
    "C90_dagger",
    "C90_register_refuted"
   ],
   "note": "M_Circuits.v, P_Circuits.v. Refuted: flatten, fill_identities and the shadow circuits of an analog circuit use the default register with spacing 1 and the default device, so the operator changes."
  },
  {
   "property": "C91",
   "status": "proved",
   "theorems": [
    "C91_eigenvalues",
    "C91_generator",
    "C91_evolution",
    "C91_generates",
    "C91_scale",
    "C91_refused",
    "C91_generator_refuted",
    "C91_scale_refuted",
    "C91_phase_refuted",
    "C91_swap_refuted",
    "C91_cswap_refuted"
   ],
   "note": "M_Spectra.v, P_Spectra.v; eigenvalues of matrices found by torch are a parameter. Refuted for scaled blocks, S and T and their daggers, PHASE, SWAP and CSWAP; MCZ, CZ and U refuse."
  },
  {
   "property": "C92",
   "status": "proved",
   "theorems": [
    "C92_reads",
    "C92_operations",
    "C92_symbols",
    "C92_observables",
    "C92_name_refuted",
    "C92_tag_refuted",
    "C92_zero_refuted",
    "C92_zero_sum_refuted",
    "C92_large_refuted",
    "C92_state_refuted",
    "C92_chain_refuted",
    "C92_observables_refuted",
    "C92_keys",
    "C92_numerals"
   ],
   "note": "read back for all nestings of sums, tensor products and coefficients; names or tags with mul, zero and long coefficients, states of N, chains and several untagged observables are refuted"
  },
  {
   "property": "C93",
   "status": "proved",
   "theorems": [
    "C93_uuid",
    "C93_expression",
    "C93_duplicates",
    "C93_control_refuted"
   ],
   "note": "uuids are numbers; expressions compared by form, parameters by identity"
  },
  {
   "property": "C94",
   "status": "proved",
   "theorems": [
    "C94_triangular",
    "C94_triangular_size",
    "C94_honeycomb",
    "C94_honeycomb_size",
    "C94_all_to_all",
    "C94_rows_refuted"
   ],
   "note": "the generators of networkx are written out in the model; all-to-all registers of more than three qubits (spring layout) are not modelled"
  },
  {
   "property": "C95",
   "status": "proved",
   "theorems": [
    "C95_sound",
    "C95_reflexive",
    "C95_support",
    "C95_composite_refuted",
    "C95_scale_refuted",
    "C95_state_refuted",
    "C95_parameter_refuted",
    "C95_dagger"
   ],
   "note": "Classes, supports and comparison of expressions as for C70; sympy's == on larger expressions is an argument, assumed sound; four refuted forms with witnesses."
  },
  {
   "property": "C96",
   "status": "proved",
   "theorems": [
    "C96_runs",
    "C96_tensorboard",
    "C96_mlflow",
    "C96_writer",
    "C96_history_refuted",
    "C96_writer_refuted"
   ],
   "note": "One process, trainings reach their end; what the tools do with the dictionary is not modelled."
  },
  {
   "property": "C97",
   "status": "proved",
   "theorems": [
    "C97_made",
    "C97_size_refuted",
    "C97_expand",
    "C97_outside",
    "C97_default_refuted"
   ],
   "note": "Checks that only warn are left out; the logarithm is exact; supports that are not consecutive and ascending are refuted in C03."
  },
  {
   "property": "C98",
   "status": "proved",
   "theorems": [
    "C98_estimate",
    "C98_variance",
    "C98_proportional",
    "C98_variance_refuted",
    "C98_order_refuted",
    "C98_constraints",
    "C98_bounds",
    "C98_zero_bound_refuted",
    "C98_optimum",
    "C98_no_worse",
    "C98_fallback"
   ],
   "note": "the shape of the variance is proved for every solver; torch.linalg.solve, pinv and the optimiser are function arguments; two findings"
  }
 ]
}