{
 "claims": [
  {
   "property": "C01",
   "status": "proved",
   "theorems": [
    "C01_standard_order",
    "C01_args",
    "C01_refuted_far_modes"
   ],
   "note": "Proved for every mode set whose modes lie within 20000 of each other; the unrestricted claim is false of the code (C01_refuted_far_modes: indices come out as (1,0))."
  },
  {
   "property": "C02",
   "status": "proved",
   "theorems": [
    "C02_compose",
    "C02_permutation",
    "C02_refuted_classical"
   ],
   "note": "Full claim proved for objects whose result has no quantum and classical wire on the same mode and direction; otherwise the code raises AttributeError (C02_refuted_classical). Hypothesis: equal wires of the operands carry the same representation tag, ids are distinct."
  },
  {
   "property": "C03",
   "status": "proved",
   "theorems": [
    "C03_contraction_labels",
    "C03_refuted_classical"
   ],
   "note": "Proved for quantum wires; joined classical wires are consumed by @ but get different labels (C03_refuted_classical)."
  },
  {
   "property": "C04",
   "status": "proved",
   "theorems": [
    "C04_assoc",
    "C04_assoc_defined",
    "C04_refuted"
   ],
   "note": "When both bracketings are defined they are equal; definedness is equivalent when the middle object has inputs and outputs on the same wires; in general definedness is not associative (C04_refuted), so the literal claim is false of the code."
  },
  {
   "property": "C06",
   "status": "proved",
   "theorems": [
    "C06_overlap_rejected",
    "C06_refuted_stale_hash",
    "C06_refuted_stale_hash_dual",
    "C06_refuted_other_repr"
   ],
   "note": "Proved for sets with up-to-date hashes and equal representation tags; false of the code after adjoint/dual (stale stored hashes) and for different tags."
  },
  {
   "property": "C05",
   "status": "proved",
   "theorems": [
    "C05_adjoint_wires",
    "C05_dual_wires",
    "C05_involutions_commute",
    "C05_component_adjoint",
    "C05_component_dual",
    "C05_component_adjoint_involution"
   ],
   "note": "Wires and (Fock-array) component level. Hypotheses: distinct wires, no classical wires, modes within 20000 of each other."
  },
  {
   "property": "C07",
   "status": "proved",
   "theorems": [
    "C07_contract",
    "product_assoc"
   ],
   "note": "Every contraction of two Fock-array components; also associativity of the contraction rule. Hypotheses: no classical wires, modes within 20000 of each other, fresh wire ids."
  },
  {
   "property": "C08",
   "status": "proved",
   "theorems": [
    "C08_plan",
    "C08_refuses",
    "C08_direct",
    "C08_self_twice",
    "C08_other_twice"
   ],
   "note": "Components without __custom_rrshift__; scalars and batch axes not modelled."
  },
  {
   "property": "C09",
   "status": "proved",
   "theorems": [
    "C09_any_adjacent_path",
    "C09_wrong_length",
    "C09_refuted_skipping_path",
    "C09_refuted_scalar"
   ],
   "note": "Proved for every path that joins neighbours, on circuits whose components are all one-sided or all two-sided, where consecutive components on a line meet (output to input) and no proper block closes to a scalar. False of the code for paths that skip a component (C09_refuted_skipping_path) and when a block closes to a scalar (C09_refuted_scalar)."
  },
  {
   "property": "C10",
   "status": "proved",
   "theorems": [
    "C10_optimal",
    "C10_terminates",
    "C10_solution",
    "C10_refuted_skipping_path",
    "C10_refuted_crash"
   ],
   "note": "The search terminates and, whenever it returns, returns a cheapest full contraction, for every random first solution, every initial candidate list and every queue order. False of the code: the returned path may skip a component (C10_refuted_skipping_path) and the search can crash on a disconnected/fused graph (C10_refuted_crash)."
  },
  {
   "property": "C11",
   "status": "proved",
   "theorems": [
    "C11_fock_shapes"
   ],
   "note": "The iteration terminates and returns the largest consistent assignment below the initial shapes. Hypotheses: positive shapes and beam splitters with four indices."
  },
  {
   "property": "C12",
   "status": "proved",
   "theorems": [
    "C12_reduce_first",
    "C12_heuristic",
    "C12_refuted_never_fires"
   ],
   "note": "The reduction rules are sound where they apply, but their name test never matches the ansatz names the code stores, so they never fire (C12_refuted_never_fires)."
  },
  {
   "property": "C19",
   "status": "proved",
   "theorems": [
    "C19_taylor",
    "C19_recurrence"
   ],
   "note": "Exact arithmetic over any field of characteristic 0 with square roots of naturals (instance: complex numbers, C19_complex); positive shapes, symmetric A; any content of the `out` array."
  },
  {
   "property": "C20",
   "status": "proved",
   "theorems": [
    "C20_stable",
    "C20_batch"
   ],
   "note": "Exact arithmetic; positive shapes, symmetric A. vanilla_step is covered by C24/C28 theorems."
  },
  {
   "property": "C21",
   "status": "proved",
   "theorems": [
    "C21_vjp",
    "C21_complex"
   ],
   "note": "For every differentiable change of symmetric A, b, c (c nonzero) and any loss weights; C21_complex instantiates complex differentiation (Coquelicot is_derive)."
  },
  {
   "property": "C22",
   "status": "proved",
   "theorems": [
    "C22_cutoff"
   ],
   "note": "Fast and stable strategies."
  },
  {
   "property": "C24",
   "status": "proved",
   "theorems": [
    "C24_enumeration",
    "C24_by_weight",
    "C24_schedule_free",
    "C24_default_fills",
    "C24_early_stop_agrees",
    "C24_dict",
    "C24_dict_default_refuted",
    "C24_numba_default_refuted",
    "C24_top_nonzero",
    "C24_example"
   ],
   "note": "Every store (array, dict), schedule, cache and stopping rule. The documented default of binomial_dict/binomial_numba (sum-len instead of sum-len+1) is refuted: the top pattern is never computed."
  },
  {
   "property": "C28",
   "status": "proved",
   "theorems": [
    "C28_first_available_pivot",
    "C28_smallest_pivot",
    "C28_all_pivots",
    "C28_lower_neighbors",
    "C28_upper_neighbors",
    "C28_all_neighbors",
    "C28_bitstring_neighbors",
    "C28_neighbors_once",
    "C24_enumeration",
    "C28_row_major",
    "C28_example"
   ],
   "note": "All index tuples, all shapes."
  },
  {
   "property": "C25",
   "status": "proved",
   "theorems": [
    "C25_stable",
    "C25_beamsplitter",
    "C25_conservation",
    "C25_refuted_wide_input",
    "C25_refuted_wide_input_value",
    "C25_refuted_example",
    "C25_example",
    "C25_schwinger_square",
    "C25_schwinger_refuted_error",
    "C25_schwinger_refuted_missing",
    "C25_sector_idx",
    "C25_sector_refuted",
    "C25_schwinger",
    "C25_eig_exists"
   ],
   "note": "stable_beamsplitter: every shape, every angle. beamsplitter: shapes with P <= N or M <= 1; false of the code otherwise (C25_refuted_wide_input: entries (m,n,m+n,0) with m+n >= N are never computed). Schwinger (C25_schwinger): equal to the stable strategy for square shapes, numpy.linalg.eig given by its contract, which C25_eig_exists shows can be met for all photon numbers and angles; for the other documented shapes IndexError or missing entries."
  },
  {
   "property": "C27",
   "status": "proved",
   "theorems": [
    "C27_squeezer",
    "C27_squeezed",
    "C27_displacement",
    "C27_corner",
    "C27_jacobian",
    "C27_displacement_complex",
    "C27_displacement_zero",
    "C27_squeezer_complex",
    "C27_jacobian_complex",
    "C27_example"
   ],
   "note": "squeezer, squeezed, displacement, jacobian_displacement for every rectangular shape and every parameter, equal to the Bargmann recursion on the gate's triple; for 0 < |alpha| <= tol math.displacement returns the identity by design (C27_displacement_zero covers alpha = 0). Exponentials of sums of logarithms are modelled by products."
  },
  {
   "property": "C26",
   "status": "proved",
   "theorems": [
    "C26_weights",
    "C26_correct",
    "C26_refuted_small_cutoff",
    "C26_example"
   ],
   "note": "Correct for every shape with 2*output_cutoff greater than the number of modes (the weight loop then reaches every entry); otherwise the loop stops early and entries stay 0 (C26_refuted_small_cutoff)."
  },
  {
   "property": "C23",
   "status": "proved",
   "theorems": [
    "C23_bounds",
    "C23_upper",
    "C23_first",
    "C23_probability",
    "C23_centred",
    "C23_real",
    "C23_refuted",
    "C23_example"
   ],
   "note": "Bounds, termination and first-stop minimality for every input; that the accumulated sum is the photon-number probability for states without displacement and for real states; false of the code for displaced complex states (C23_refuted: buf2 is multiplied with its two entries exchanged). The single-mode triples (numpy.linalg) are given."
  },
  {
   "property": "C29",
   "status": "proved",
   "theorems": [
    "C29_argsort",
    "C29_integers",
    "before_total",
    "C29_refuted_infinity",
    "C29_example"
   ],
   "note": "Every finite collection of finite rows over any totally ordered values (C29_integers instantiates integers); rows that contain infinity are returned in the wrong order (C29_refuted_infinity)."
  },
  {
   "property": "C30",
   "status": "proved",
   "theorems": [
    "C30_simplify",
    "C30_refuted_tolerance",
    "C30_example"
   ],
   "note": "Exact comparison of A and b: same function, no duplicate pair left. With the code's tolerance the represented function changes (C30_refuted_tolerance)."
  },
  {
   "property": "C31",
   "status": "proved",
   "theorems": [
    "C31_pairing",
    "C31_components",
    "C31_refuted",
    "C31_example"
   ],
   "note": "The exact pairing computed for every label list; it pairs equal labels iff the shared labels appear in the same order in both operands, which holds for every contraction of components (C31_components); otherwise variables with different labels are integrated together (C31_refuted)."
  },
  {
   "property": "C33",
   "status": "proved",
   "theorems": [
    "C33_kron",
    "C33_zip",
    "C33_lin_sup",
    "C33_reshape",
    "C33_refuted_order",
    "C33_refuted_no_args",
    "C33_example"
   ],
   "note": "Strings for all ranks; reshape of arguments for the orders the code produces; other orders are reshaped without a transpose (C33_refuted_order), evaluation without arguments raises (C33_refuted_no_args)."
  },
  {
   "property": "C51",
   "status": "proved",
   "theorems": [
    "C51_equality",
    "C51_refuted_broadcast",
    "C51_example"
   ],
   "note": "Exact comparison, equal number of terms; with different numbers of terms numpy broadcasting can return True (C51_refuted_broadcast)."
  },
  {
   "property": "C34",
   "status": "proved",
   "theorems": [
    "C34_roundtrip",
    "C34_modes_sorted",
    "C34_saves",
    "C34_history",
    "C34_cleanup",
    "C34_backend",
    "C34_example",
    "C34_refuted_superposition",
    "C34_refuted_trainable",
    "C34_refuted_converted",
    "C34_refuted_empty",
    "C34_refuted_same_name",
    "C34_refuted_backend_key"
   ],
   "note": "Every non-empty circuit of plain abstract components and of built-in components as their constructors build them, every later history of saves and loads under other names, both values of remove_after, backend mismatch. Not for: linear superpositions (flag not saved), trainable components whose constructor has no bounds argument, built-ins converted with to_fock, the empty circuit, re-use of a file name, user keys named backend (the C34_refuted theorems). Zip, npz and JSON encodings are modelled as lossless containers."
  },
  {
   "property": "C35",
   "status": "proved",
   "theorems": [
    "C35_history",
    "C35_duplicate",
    "C35_slice",
    "C35_refuted_reserved",
    "C35_refuted_order",
    "C35_example"
   ],
   "note": "Every history of additions with names other than the three internal field names (a parameter called _names makes the set unusable, C35_refuted_reserved); slices keep names, kinds and gathered values, but not the order of names when a variable precedes a constant (C35_refuted_order)."
  },
  {
   "property": "C36",
   "status": "proved",
   "theorems": [
    "C36_restore",
    "C36_unknown",
    "C36_sequence",
    "C36_nested_actual",
    "C36_refuted_nested",
    "C36_refuted_failing_setter",
    "C36_refuted_rng",
    "C36_example",
    "C36_example_hyps"
   ],
   "note": "Every body (assignments, exceptions, try) that does not itself evaluate settings(...); the exact effect of nested blocks is C36_nested_actual, and it does not restore the outer settings (C36_refuted_nested); a setter failing in the call and the random generator are not restored either."
  },
  {
   "property": "C37",
   "status": "proved",
   "theorems": [
    "C37_transparent",
    "C37_bounded",
    "C37_refuted_hbar",
    "C37_refuted_aliasing",
    "C37_example"
   ],
   "note": "Every history of calls and settings changes for functions whose value does not depend on the settings used; false for oscillator_eigenstate, which reads HBAR (C37_refuted_hbar), and after in-place changes of a returned array (C37_refuted_aliasing)."
  },
  {
   "property": "C38",
   "status": "proved",
   "theorems": [
    "C38_minimize",
    "C38_symplectic",
    "C38_symplectic_real",
    "C38_unitary",
    "C38_orthogonal",
    "C38_unbounded",
    "C38_example"
   ],
   "note": "Exact arithmetic; all sizes, cost functions, gradients, learning rates; expm is the power series (Expm.v). Gradients of real (symplectic) parameters are assumed real."
  },
  {
   "property": "C39",
   "status": "proved",
   "theorems": [
    "C39_rows",
    "C39_normalised",
    "C39_distribution",
    "C39_seed_one_mode",
    "C39_refuted_seed_two_modes",
    "C39_refuted_seed_zero",
    "C39_example"
   ],
   "note": "Shape, support and distribution for all states, counts and generators (numpy's Generator.choice by contract); the seed claim holds for one mode and nonzero seeds only (C39_refuted_seed_two_modes, C39_refuted_seed_zero)."
  },
  {
   "property": "C49",
   "status": "proved",
   "theorems": [
    "C49_metadata",
    "C49_exact",
    "C49_refuted"
   ],
   "note": "False of the code: bounds are stored and kept but never enforced; C49_exact says exactly when a trajectory stays inside."
  },
  {
   "property": "C13",
   "status": "proved",
   "theorems": [
    "C13_from_ansatz",
    "C13_from_bargmann",
    "C13_from_fock_actual",
    "C13_from_fock_same_modes",
    "C13_refuted_from_fock",
    "C13_unsorted"
   ],
   "note": "All mode lists. from_ansatz/from_bargmann are proved; from_fock exchanges the two mode lists (C13_from_fock_actual, C13_refuted_from_fock), so the claim holds for it only when they agree."
  },
  {
   "property": "C14",
   "status": "proved",
   "theorems": [
    "C14_actual",
    "C14_labelled_0_to_n",
    "C14_refuted_index",
    "C14_refuted_input_changed",
    "C14_refuted_wrong_mode"
   ],
   "note": "The code applies the noise to axes given by the mode number and writes into its input; proved where the modes are 0..n-1, refuted otherwise."
  },
  {
   "property": "C15",
   "status": "proved",
   "theorems": [
    "C15_getitem",
    "C15_getitem_error",
    "C15_refuted_keep_all",
    "C15_trace_out_same_order",
    "C15_two_steps",
    "C15_unique",
    "C15_probability",
    "traced_perm",
    "C15_refuted_set_order"
   ],
   "note": "All Fock density matrices, all mode subsets. Keeping every mode raises (C15_refuted_keep_all); trace_out is proved when the two Python sets are iterated in the same order (C15_refuted_set_order)."
  },
  {
   "property": "C16",
   "status": "proved",
   "theorems": [
    "C16_ket",
    "C16_general",
    "C16_separable_actual",
    "C16_separable_one_mode",
    "C16_refuted_separable"
   ],
   "note": "Kets and general density matrices are proved; the separable branch lists photon numbers in reversed mode order."
  },
  {
   "property": "C17",
   "status": "proved",
   "theorems": [
    "C17_increasing",
    "C17_actual",
    "C17_refuted",
    "C17_cxgate_rejects"
   ],
   "note": "Holds for increasing pairs; BSgate silently ignores the order of a decreasing pair and CXgate rejects it."
  },
  {
   "property": "C18",
   "status": "proved",
   "theorems": [
    "C18_default",
    "C18_refuted"
   ],
   "note": "Holds when the number of ancillas equals the number of modes; every other explicit m raises."
  },
  {
   "property": "C32",
   "status": "proved",
   "theorems": [
    "C32_reduce",
    "C32_defined",
    "C32_error",
    "C32_refuted_mixed",
    "C32_compose"
   ],
   "note": "All arrays and shapes; a shape larger in one direction and smaller in another is rejected (C32_refuted_mixed), so the claim holds for comparable shapes only."
  },
  {
   "property": "C52",
   "status": "proved",
   "theorems": [
    "C52_add",
    "C52_add_error",
    "C52_refuted_shape_of_self",
    "C52_eq",
    "C52_refuted_eq_trans",
    "C52_and",
    "C52_reorder",
    "C52_reorder_batch"
   ],
   "note": "Exact arithmetic, arbitrary commutative ring. Arrays with incomparable core shapes are rejected by + ; == is not transitive (it compares the common window only)."
  },
  {
   "property": "C40",
   "status": "proved",
   "theorems": [
    "C40_integral",
    "C40_twice",
    "C40_errors",
    "C40_total",
    "C40_example"
   ],
   "note": "Arbitrary field (exact arithmetic), any number of variables and pairs, any measure exponent: the result is the stationary value of the exponent, and successive integrations compose, with determinants multiplying and exponents adding. One batch element; nonnegative indices. The scalar prefactor is C41."
  },
  {
   "property": "C47",
   "status": "proved",
   "theorems": [
    "C47_full",
    "C47_path_independent",
    "C47_returns",
    "C47_union_paths",
    "C47_example",
    "C47_union_example",
    "C47_refuted_outer",
    "C47_refuted_single",
    "C47_refuted_equal_pair"
   ],
   "note": "Every network of Fock arrays (any ranks, batch labels, Fock dimensions) and every linear or union path whose contractions join operands by an index: the result is the full sum, whatever the path. False or different for: operands without a common index (the result leaves the Fock representation), a single operand, a pair of equal positions. The Bargmann operations are opaque; SSA paths (converted by opt_einsum) are not modelled."
  },
  {
   "property": "C48",
   "status": "proved",
   "theorems": [
    "C48",
    "C48_example",
    "C48_refuted_tall",
    "C48_refuted_wide"
   ],
   "note": "Exact complex arithmetic, every hbar, every array with as many rows as columns or one row: the result is the same polynomial. The claim is false for all other shapes, which is proved for every shape: with more rows than columns c_in_PS raises IndexError, with fewer (at least two rows) it returns another polynomial, because gamma_matrix multiplies the row number by c.shape[0] instead of c.shape[1]."
  },
  {
   "property": "C42",
   "status": "proved",
   "theorems": [
    "C42_passive",
    "C42_rotation",
    "C42_beamsplitter",
    "C42_displacement",
    "C42_squeezing",
    "C42_twomode",
    "C42_example",
    "identity_neutral",
    "C42_attenuator_XY",
    "C42_amplifier_XY",
    "C42_noise_XY",
    "C42_attenuators",
    "C42_amplifiers",
    "C42_noises",
    "C42_coherent_loss",
    "C55_trace_preserving",
    "C55_displaced_refuted"
   ],
   "note": "Gates: rotations, beamsplitters and squeezers along one axis add their parameters, displacements add with their phase (any number of modes), passive gates multiply, the identity is neutral for every triple; A, b and c exactly. Channels: attenuators multiply transmissivities, amplifiers multiply gains, random noises add, coherent states are attenuated, and every channel without displacement preserves the trace. Above the 1e-12 threshold on the determinant where the statement says so. A channel with displacement does not preserve the trace (C55_displaced_refuted)."
  },
  {
   "property": "C43",
   "status": "proved",
   "theorems": [
    "C43_cx",
    "C43_cz",
    "C43_p",
    "C43_realinterferometer",
    "C43_interferometer",
    "C43_mz",
    "C43_triples",
    "C43_symplectic",
    "C43_example"
   ],
   "note": "The matrices of symplectics.py and the symplectic matrices computed from the triples of the other gates (R, D, S, BS, S2) are real and symplectic, for all parameters and (interferometers) all numbers of modes."
  },
  {
   "property": "C44",
   "status": "proved",
   "theorems": [
    "C44_unitary",
    "C44_kernel",
    "C44_symplectic",
    "C44_example",
    "C44_channel",
    "C44_channel_physical"
   ],
   "note": "Unitaries of any number of modes, both directions, without an invertibility hypothesis (it is proved). Channels of any number of modes, all real X and all Y for which the formula has a value, in particular all positive semidefinite Y."
  },
  {
   "property": "C50",
   "status": "proved",
   "theorems": [
    "C50_unitary",
    "C50_unitary_left",
    "C50_dual",
    "C50_example",
    "C50_refuted",
    "from_symplectic_unitary",
    "displacement_unitary",
    "identity_unitary",
    "squeezers_unitary",
    "C50_transformation",
    "C50_transformation_returns",
    "C50_transformation_example",
    "C50_transformation_refuted"
   ],
   "note": "Unitary.inverse for every Gaussian unitary with any displacement and number of modes: A, b and c of u >> u.inverse() and u.inverse() >> u are those of the identity, as long as |det M| exceeds the 1e-12 threshold of the code; below it (28 modes squeezed by 9.5 dB) the result is infinite, which is proved. Transformation.inverse for any symmetric Gaussian triple with as many inputs as outputs (operators and, with bra and ket variables taken together, channels): it returns exactly when A and its output-input block are invertible and raises LinAlgError otherwise; the result composes to the identity on both sides and its inverse is the original, above the same threshold and off the branch cut of the root; on the cut the composite is proved to be minus the identity, with a squeezed thermal density matrix used as an operator as witness. Signed zeros of floats are not modelled, so on the cut the code may return either sign."
  },
  {
   "property": "C53",
   "status": "proved",
   "theorems": [
    "C53",
    "from_symplectic_unitary",
    "displacement_unitary",
    "squeezers_unitary",
    "C43_triples",
    "C50_example",
    "C50_refuted"
   ],
   "note": "All Gaussian unitaries with |det M| above the 1e-12 threshold of the code; below it the contraction returns infinities (C50_refuted)."
  },
  {
   "property": "C54",
   "status": "proved",
   "theorems": [
    "C54",
    "C42_attenuators",
    "C42_amplifiers",
    "C42_noises"
   ],
   "note": "All real X1, X2 and real positive semidefinite Y1, Y2, any number of modes: the composite is the channel of (X2 X1, X2 Y1 X2^T + Y2), A, b and c, exactly when the determinant exceeds the 1e-12 threshold of the code; otherwise the result is infinite. Channels without displacement, same modes in and out."
  },
  {
   "property": "C55",
   "status": "proved",
   "theorems": [
    "C55",
    "C55_trace_preserving",
    "C55_probability",
    "C55_displaced",
    "C55_displaced_refuted",
    "C55_thermal",
    "C55_thermal_probability_refuted",
    "C55_thermal_million",
    "C42_coherent_loss"
   ],
   "note": "Gaussian states given by (covariance, means) of any number of modes. False parts, proved: with a non-zero displacement d the channel has the wrong sign of b on its input and does not preserve the trace (a NumPy array d raises ValueError); a thermal state with a million photons or more has infinite probability (determinant threshold)."
  },
  {
   "property": "C45",
   "status": "proved",
   "theorems": [
    "C45_CP",
    "C45_positive",
    "C45_TP",
    "C45_TP_XY",
    "C45_TP_rank",
    "C45_attenuator",
    "XY_hermitian",
    "C45_TP_refuted",
    "C45_TP_refuted_scale",
    "C45_TP_modes_refuted"
   ],
   "note": "is_CP and is_positive: exact characterisation for all channels of from_XY and all Gaussian states, any number of modes, with the tolerance. is_TP: equivalent to preservation of the matrix of the trace for every Hermiticity preserving Gaussian map with equal numbers of modes when the inverses exist; false parts, proved: it raises LinAlgError on Attenuator(0) (which preserves the trace), ignores b and c, and cannot succeed when the numbers of input and output modes differ. Single Gaussian term, one batch element."
  },
  {
   "property": "C46",
   "status": "proved",
   "theorems": [
    "C46_formal",
    "C46_physical",
    "C46_physical_returns",
    "C46_physical_singular",
    "C46_physical_unitary",
    "C46_physical_unitary_cases",
    "C46_dm_formal",
    "C46_sparse",
    "C46_formal_example",
    "C46_physical_example",
    "C46_sparse_example",
    "C46_physical_refuted",
    "C46_physical_unitary_refuted"
   ],
   "note": "Kets: all numbers of modes, all choices of core modes; the formal decomposition always reconstructs the ket (A, b, c), the physical one whenever it returns; the amplitudes of a core state with more photons in the core modes than elsewhere are zero (for the code's own recursion). Density matrices: the formal decomposition. False parts, proved: the physical decomposition raises LinAlgError whenever A is singular on the core modes (two-mode squeezed vacuum, vacuum), and with two or more core modes, a displacement and a complex gamma the returned U is not unitary (the code exchanges gamma^-1 and its transpose in b). Missing: the two physical decompositions of density matrices; numpy's eigh is specified, not modelled."
  },
  {
   "property": "C41",
   "status": "proved",
   "theorems": [
    "C41_sign",
    "C41_iff",
    "C41_half_plane",
    "C41_refuted",
    "C41_example"
   ],
   "note": "Any triple (with derived variables) and any two disjoint groups of variable pairs: A and b agree, c agrees up to its sign, and agrees exactly when the product of the two principal roots is a principal root (in particular when both ratios (-1)^m / det M lie in the right half plane). The literal claim is false: the overlap of three-fold products of normalisable squeezed states computed in one contraction is proved to be minus the value obtained mode by mode. Signed zeros, the exp/log round trip on c = 0 and rounding are not modelled."
  },
  {
   "property": "C56",
   "status": "proved",
   "theorems": [
    "C56_call",
    "C56_some_variables",
    "C56_documented",
    "C56_eval_too_many",
    "C56_call_too_many",
    "C56_complex",
    "C56_example",
    "C56_refuted_call_skips",
    "C56_refuted_documentation"
   ],
   "note": "Scalar points (batched points are broadcast entry by entry, not modelled), explicit triples. False parts, proved: the class documentation omits the factor 1/sqrt(d!) of the derivatives; __call__ with extra None arguments does not complain."
  },
  {
   "property": "C57",
   "status": "proved",
   "theorems": [
    "C57_reorder",
    "C57_scale",
    "C57_conj",
    "C57_scalar",
    "C57_decompose",
    "C57_complex",
    "C57_example"
   ],
   "note": "Any field of characteristic zero with roots of the naturals and any exponential; the complex numbers are an instance. Explicit triples; multiplication by a number (not by an array)."
  },
  {
   "property": "C58",
   "status": "proved",
   "theorems": [
    "C58_join",
    "C58_and",
    "C58_and_error",
    "C58_join_refuted",
    "C58_and_refuted",
    "C58_example"
   ],
   "note": "Any field of characteristic zero with roots of the naturals and any exponential. The refutations show that the restrictions are needed. Batch strings are parsed as in C33."
  },
  {
   "property": "C59",
   "status": "proved",
   "theorems": [
    "C59_vacuum",
    "C59_two",
    "C59_circuit",
    "C59_norm",
    "C59_circuit_norm",
    "C59_coherent",
    "C59_squeezed",
    "C59_two_mode",
    "C59_gket",
    "C59_displaced_squeezed",
    "C59_dm_probability",
    "C59_purity",
    "C59_example",
    "C59_purity_refuted",
    "C59_norm_refuted"
   ],
   "note": "Proved whenever the determinants of the contractions exceed the 1e-12 threshold of complex_gaussian_integral_1; below it the literal claim is false, proved: 28 modes squeezed by 9.5 dB have an infinite probability, and 14 such modes have probability 1 but a density matrix of infinite purity. Gaussian kets without derived variables."
  },
  {
   "property": "C60",
   "status": "proved",
   "theorems": [
    "C60_eigenvalues",
    "C60_population",
    "C60_physical",
    "C60_circuit",
    "C60_one_mode",
    "C60_refuted",
    "C60_dm",
    "C60_dm_refuted",
    "C60_example"
   ],
   "note": "On several modes is_physical does not imply normalisability (it uses eigenvalues of A instead of singular values), proved: a four-mode ket with is_physical True for every tolerance and vacuum population 3; DM.is_physical does not test it either. math.eigvals is the exact set of eigenvalues."
  },
  {
   "property": "C61",
   "status": "proved",
   "theorems": [
    "C61_add",
    "C61_sub",
    "C61_add_guards",
    "C61_add_rejected",
    "C61_add_refuted",
    "C61_add_batch_refuted",
    "C61_add_example"
   ],
   "note": "Any field of characteristic zero with roots of the naturals and any function ex. The refutations show that the restrictions are needed: with 0 < nder F < nder G and one term in F the sum is silently another function (np.array(ndmin) puts the new axes in front of the polynomial), and the sum of two batched superpositions has a new batch axis."
  },
  {
   "property": "C62",
   "status": "proved",
   "theorems": [
    "C62_iterative",
    "C62_clenshaw",
    "C62_methods_agree",
    "C62_empty",
    "C62_refuted",
    "C62_vacuum",
    "C62_single_photon"
   ],
   "note": "Exact real and complex numbers. The Wigner function of |m><n| is given by its generating function exp(-st + 2a* s + 2a t). For non-Hermitian matrices both methods return the value of the Hermitian matrix with the same upper triangle. The Clenshaw method needs cutoff >= 2: at cutoff 1 it returns twice the Wigner function (C62_refuted)."
  },
  {
   "property": "C63",
   "status": "proved",
   "theorems": [
    "C63_roundtrip",
    "C63_complete",
    "C63_gaussian",
    "C63_ket",
    "C63_pure",
    "C63_purity",
    "C63_ket_coeff_refuted",
    "C63_ket_atol",
    "C63_example"
   ],
   "note": "Exact complex matrices; whenever the determinant of the contraction exceeds the 1e-12 threshold of complex_gaussian_integral_1 (the theorems say exactly when). A ket built with coefficient coeff reports |coeff|^2 in phase_space (C63_ket_coeff_refuted)."
  },
  {
   "property": "C64",
   "status": "proved",
   "theorems": [
    "C64_diagonal",
    "C64_interleaved",
    "C64_rejected",
    "C64_example"
   ],
   "note": "Any field of characteristic zero with roots of the naturals (the complex numbers are an instance). Reads outside the arrays (and the table of 1000 square roots) return an arbitrary value, writes outside set a flag: the result does not depend on the value and the flag stays unset. One batch element; the tests of A (square, NaN, symmetric within tolerance) are a boolean input."
  },
  {
   "property": "C65",
   "status": "proved",
   "theorems": [
    "C65_conditional",
    "C65_interleaved",
    "C65_rejected",
    "C65_backends",
    "C65_backends_refuted_small",
    "C65_backends_refuted_reordered",
    "C65_example"
   ],
   "note": "As C64 (reads outside the arrays return an arbitrary value, writes outside would set a flag). The disagreements with the NumPy backend are theorems, as the property states them."
  },
  {
   "property": "C66",
   "status": "proved",
   "theorems": [
    "C66_diagonal_vjp",
    "C66_leftover_vjp",
    "C66_complex",
    "C66_rejected",
    "C66_example"
   ],
   "note": "Stated for the interleaved order of variables in which the custom VJPs work (the reordering before them is differentiated by JAX). C66_complex is the instance of complex differentiation."
  },
  {
   "property": "C67",
   "status": "proved",
   "theorems": [
    "C67_squeezer",
    "C67_squeezed",
    "C67_beamsplitter",
    "C67_jax_squeezer",
    "C67_jax_squeezed",
    "C67_jax_beamsplitter",
    "C67_jax_displacement",
    "C67_grad_displacement",
    "C67_jax_refuted",
    "C67_table_refuted"
   ],
   "note": "Exact real and complex numbers. JAX's convention for the cotangent of a complex array under a real loss (dL = Re sum g dG) is stated as has_gradient1/2/4. C67_jax_refuted: for the probability 1/cosh r of no photon the backward pass returns -2 tanh r / cosh r. The displacement theorem needs tol < |alpha| or alpha = 0 (in between the forward pass returns the identity)."
  },
  {
   "property": "C68",
   "status": "proved",
   "theorems": [
    "C68_apply",
    "C68_isometry",
    "C68_eigh_exists",
    "C68_refuted_unequal",
    "C68_example"
   ],
   "note": "apply_BS_schwinger, sector_u, sector_idx for arrays of any rank and any two axes of equal size, numpy.linalg.eigh given by its contract (met for all photon numbers and angles, C68_eigh_exists). Axes of different size always raise ValueError (C68_refuted_unequal). Not modelled: that the call may overwrite its argument (reshape returns a view when the axes are adjacent)."
  },
  {
   "property": "C69",
   "status": "proved",
   "theorems": [
    "C69_ket_ket",
    "C69_ket_dm",
    "C69_ket_unitary",
    "C69_dm_ket",
    "C69_dm_dm",
    "C69_dm_unitary",
    "C69_invalid",
    "C69_modes",
    "C69_fidelity",
    "C69_fidelity_symmetric",
    "C69_fidelity_modes",
    "C69_refuted_nonhermitian",
    "C69_example"
   ],
   "note": "Fock representation without batch. The clause 'Tr(rho O) for every density-matrix-like operator' of the documentation is refuted; what is proved is Tr(rho O^dagger)."
  },
  {
   "property": "C70",
   "status": "proved",
   "theorems": [
    "C70_ket_probability",
    "C70_dm_probability",
    "C70_dm_purity",
    "C70_hermitian",
    "C70_dm_of_ket",
    "C70_normalize_ket",
    "C70_normalize_dm",
    "C70_fidelity_bounds",
    "C70_purity_bounds",
    "C70_example"
   ],
   "note": "Fock representation without batch, exact complex numbers; the Bargmann branch of L2_norm and batched normalisation are not modelled."
  },
  {
   "property": "C71",
   "status": "proved",
   "theorems": [
    "C71_quadrature",
    "C71_ket",
    "C71_dm",
    "C71_distribution_ket",
    "C71_distribution_dm",
    "C71_dm_of_ket",
    "C71_wavefunction",
    "C71_schroedinger",
    "C71_basis",
    "C71_kernel",
    "C71_eigenstate",
    "C71_refuted_eigenstate",
    "C71_refuted_letters",
    "C71_example"
   ],
   "note": "Fock branch without batch. Refuted: components on a mode m with n_modes <= m < n_modes + number of wires (e.g. a ket on mode 1) get a colliding einsum letter and wrong values or a ValueError (C71_refuted_letters), modes above 25 a ValueError; the identity in the docstring of BtoQ holds only for hbar = 1 (C71_refuted_eigenstate). Not modelled: convergence of the Bargmann branch's contraction; orthonormality of the wave functions."
  },
  {
   "property": "C72",
   "status": "proved",
   "theorems": [
    "C72_trace",
    "C72_arrays",
    "C72_contract",
    "C72_refuted_three_wires",
    "C72_example",
    "C72_contract_example"
   ],
   "note": "convergence of the photon-number sum over one pair of axes to the Gaussian integral, with any number of other variables; the claim for several wires in one integral is refuted (wrong sign)"
  },
  {
   "property": "C73",
   "status": "proved",
   "theorems": [
    "C73_sum",
    "C73_sum_list",
    "C73_lambda",
    "C73_catalog",
    "C73_refuted_renamed",
    "C73_refuted_matrix"
   ],
   "note": "proved for the twelve classes whose keyword arguments are their (numeric) parameters; refuted for Attenuator, Amplifier, FockDamping, GDM, Identity, BtoQ, BtoPS, BtoChar (every sum raises) and for matrix-valued parameters"
  },
  {
   "property": "C74",
   "status": "proved",
   "theorems": [
    "C74_recompose",
    "C74_trace_preserving",
    "C74_core",
    "C74_completely_positive",
    "C74_equal",
    "C74_returns",
    "C74_singular",
    "C74_unnormalised",
    "C74_example",
    "C74_unnormalised_refuted"
   ],
   "note": "core modes in the first M positions (the relabelling of modes is not modelled), one batch element, no derived variables. Refuted: rho == core >> phi for unnormalised rho"
  },
  {
   "property": "C75",
   "status": "proved",
   "theorems": [
    "C75_recompose",
    "C75_trace_preserving",
    "C75_core",
    "C75_equal",
    "C75_positive",
    "C75_returns",
    "C75_singular",
    "C75_pure_raises",
    "C75_square_only",
    "C75_example"
   ],
   "note": "core modes in the first M positions (the relabelling of modes is not modelled), one batch element, no derived variables; negative eigenvalues (rounding) are outside the theorems. Finding: only n = 2M modes are accepted, and no pure state"
  },
  {
   "property": "C76",
   "status": "proved",
   "theorems": [
    "C76_common_frame",
    "C76_range",
    "C76_self",
    "C76_coherent",
    "C76_pure",
    "C76_symmetric",
    "C76_invariant",
    "root_fun_exists",
    "C76_fock_commuting",
    "C76_fock_pure",
    "C76_fock_self",
    "C76_fock_invariant",
    "C76_fock_transpose",
    "C76_fock_symmetric",
    "C76_near_pure_refuted"
   ],
   "note": "Fidelity.v. gaussian.fidelity and fock_utils.fidelity. The matrix square root is any function that commutes with similarity and transposition and takes principal roots on diagonal matrices (root_fun_exists: there is one). Common frame: the value against the series of square roots of products of the thermal photon distributions. Pure: overlap with any state. Symmetry and invariance: all inputs, including the two inversion failures. Not covered: an independent Uhlmann fidelity for two mixed states without a common frame (there only symmetry and invariance are proved). Deviation proved: sqrtm of the numpy backend returns 0 on a matrix whose entries are all at most 1e-8 in modulus, so the fidelity of a nearly pure Gaussian state with itself is below 1 - 1e-5."
  },
  {
   "property": "C77",
   "status": "proved",
   "theorems": [
    "C77_overlap",
    "C77_fidelity",
    "C77_pure",
    "C77_thermal",
    "C77_unnormalised_refuted"
   ],
   "note": "Overlap.v. DM.fidelity(DM) on Gaussian density matrices and DM.expectation(DM). The matrix square root is specified as in C76. The contraction with a ket operator (two steps) is represented by the one with its density matrix. Deviation proved: unnormalised density matrices. Not modelled: density matrices with derived variables; by reading the code, phase_space then counts derived variables as modes and drops the polynomial part c, so the fidelity of two Fock density matrices converted to Bargmann does not depend on the Fock amplitudes."
  },
  {
   "property": "C78",
   "status": "proved",
   "theorems": [
    "C78_symplectic_eigenvalues",
    "C78_eigenvalues_exist",
    "C78_invariant",
    "C78_entropy",
    "C78_thermal_entropy",
    "C78_pure",
    "C78_product",
    "C78_product_eigenvalues",
    "C78_pure_separable",
    "C78_mixed_refuted",
    "C78_number_means",
    "C78_number_passive"
   ],
   "note": "Entropy.v. symplectic_eigenvals, von_neumann_entropy, number_means and State.is_separable on covariance matrices. math.eigvals: any listing of the eigenvalues with multiplicity. Deviation proved: is_separable returns False for a separable mixed state. The covariance of rho[mode] is modelled as the submatrix of the covariance of rho; that phase_space returns the covariance of a Gaussian state is C63."
  },
  {
   "property": "C79",
   "status": "proved",
   "theorems": [
    "C79_amplitudes",
    "C79_zero",
    "C79_normalised",
    "C79_close",
    "C79_coherent"
   ],
   "note": "Sauron.v, RingSeries.v. sauron_state_Abc and the Fock array and probability of the resulting superposition, in exact arithmetic; the loss of significant digits for small epsilon (about n!/epsilon^(2n) in the normalisation) is outside the model."
  },
  {
   "property": "C80",
   "status": "proved",
   "theorems": [
    "C80_rshift",
    "C80_default",
    "C80_append",
    "C80_check",
    "C80_prefix",
    "C80_partition",
    "C80_invalid",
    "C80_contract",
    "C80_path_lost",
    "C80_self_pair_refuted",
    "C80_example"
   ],
   "note": "CircuitBuild.v. Components of any type; the printed text is represented by the list of indices and groups, the drawing of a group is not modelled. Deviations proved: the path of the operands of >> is lost; pairs (i, i) are accepted and drop components. That >> of components is associative under the conditions of C09 is proved there."
  },
  {
   "property": "C81",
   "status": "proved",
   "theorems": [
    "C81_compose",
    "C81_damps",
    "C81_decreases",
    "C81_coherent",
    "C81_not_unitary",
    "C81_example"
   ],
   "note": "Damping.v. Kets without derived variables, one batch element; density matrices (damping on both sides) are not treated."
  },
  {
   "property": "C82",
   "status": "proved",
   "theorems": [
    "C82_channel",
    "C82_noconj",
    "C82_dilation",
    "C82_coherent",
    "C82_unchecked",
    "C82_example"
   ],
   "note": "Kraus.v. One batch element; negative eta is not treated. The individual Kraus operators in the Fock basis are not written out."
  }
 ]
}