{"id": "C01", "title": "Standard order and indices of Wires", "statement": "For every Wires(out_bra, in_bra, out_ket, in_ket, cl_out, cl_in) whose modes lie within 20000 of each other, iterating the object lists the wires as bra-out, bra-in, ket-out, ket-in, classical-out, classical-in, each group by increasing mode, w.indices is (0,...,n-1), and w.args gives back the six mode sets. The bound is needed: with modes further apart the groups mix and the indices come out as (1,0).", "quantifier": "all six finite sets of integer modes (no bound on number or size of modes)", "why_tests_cant": "The order is computed from magic offsets (10_000, 100_000, 1_000_000); tests use small modes, the claim ranges over all integers.", "anchors": ["mrmustard/physics/wires.py:QuantumWire._order", "mrmustard/physics/wires.py:ClassicalWire._order", "mrmustard/physics/wires.py:Wires.__init__", "mrmustard/physics/wires.py:Wires.sorted_wires", "mrmustard/physics/wires.py:Wires.indices", "mrmustard/physics/wires.py:Wires.args"]}
{"id": "C02", "title": "Composition of Wires", "statement": "w1 @ w2 raises ValueError exactly when an output of w2 collides with an unconsumed output of w1 or an input of w1 collides with an unfed input of w2 (same mode, side); otherwise, when the result has no quantum and classical wire on the same mode and direction, it has outputs out(w2)+(out(w1)-in(w2)) and inputs in(w1)+(in(w2)-out(w1)) on each side, indices 0..n-1, and the returned perm is the permutation that brings the concatenation of surviving wires of w1 and w2 to standard order. With a quantum and a classical wire on the same mode and direction the code raises AttributeError.", "quantifier": "all pairs of Wires objects", "why_tests_cant": "Depends on arbitrary overlap patterns of four mode sets per operand.", "anchors": ["mrmustard/physics/wires.py:Wires.__matmul__", "mrmustard/physics/wires.py:Wires.__add__", "mrmustard/physics/wires.py:Wires.__sub__", "mrmustard/physics/wires.py:Wires._reindex"]}
{"id": "C03", "title": "Contraction labels", "statement": "w1.contracted_labels(w2) gives the two operands integer labels such that a quantum wire of w1 and a quantum wire of w2 have equal labels exactly when w1 @ w2 consumes both (output of w1 joined to input of w2, same mode and side), labels are distinct inside each operand, and the output labels are those of the unconsumed wires listed in the standard order of w1 @ w2. Classical wires joined by @ get different labels, so they are not contracted.", "quantifier": "all pairs of Wires that can be composed", "why_tests_cant": "Ranges over all overlap patterns; drives every tensor contraction.", "anchors": ["mrmustard/physics/wires.py:Wires.contracted_labels", "mrmustard/physics/wires.py:Wires.contracted_indices", "mrmustard/physics/wires.py:Wires.overlap"]}
{"id": "C04", "title": "Associativity of wire composition", "statement": "If (a @ b) @ c and a @ (b @ c) are both defined they have the same wires; if b has inputs and outputs on the same modes and sides, one is defined exactly when the other is. Without that condition one bracketing can be defined while the other raises.", "quantifier": "all triples of Wires", "why_tests_cant": "Universally quantified algebraic law over sets of modes.", "anchors": ["mrmustard/physics/wires.py:Wires.__matmul__"]}
{"id": "C05", "title": "Adjoint and dual of Wires and components", "statement": "adjoint swaps bra and ket, dual swaps input and output, both are involutions, commute, keep the result in standard order with indices 0..n-1, and the component's array is permuted so that each wire keeps its amplitude (adjoint/dual of a component conjugates the array and relabels wires only).", "quantifier": "all Wires, all components in the Fock representation", "why_tests_cant": "Needs all wire layouts.", "anchors": ["mrmustard/physics/wires.py:Wires.adjoint", "mrmustard/physics/wires.py:Wires.dual", "mrmustard/lab/circuit_components.py:CircuitComponent.adjoint", "mrmustard/lab/circuit_components.py:CircuitComponent.dual"]}
{"id": "C06", "title": "Overlap detection of Wires addition", "statement": "w1 + w2 raises ValueError whenever the two objects share a wire with the same mode, side, direction and representation and the hashes of their wires are up to date. After adjoint or dual the stored hashes are stale and the overlap goes unnoticed, as it does for wires in different representations.", "quantifier": "all pairs of Wires, including wires in different representations and wires obtained by adjoint/dual", "why_tests_cant": "Depends on hashing/equality of mutated set members and on representation tags.", "anchors": ["mrmustard/physics/wires.py:Wires.__add__", "mrmustard/physics/wires.py:QuantumWire.__eq__", "mrmustard/physics/wires.py:QuantumWire.__hash__"]}
{"id": "C07", "title": "Contraction of Fock components", "statement": "For components in the Fock representation, (a @ b) has wires wires(a) @ wires(b) and its array entry at every multi-index is the sum, over the joined wires (up to the smaller of the two cutoffs), of the product of the entries of a and b.", "quantifier": "all components with ArrayAnsatz, all shapes, all entries in a commutative ring", "why_tests_cant": "All ranks, shapes and wire layouts.", "anchors": ["mrmustard/lab/circuit_components.py:CircuitComponent.contract", "mrmustard/physics/ansatz/array_ansatz.py:ArrayAnsatz.contract"]}
{"id": "C08", "title": "Adjoint insertion by >>", "statement": "a >> b inserts the adjoint of a or b exactly when the other side carries bra and ket wires and it does not, raises ValueError when the sides cannot be matched, and the wires of the result are those of the documented composition.", "quantifier": "all wire layouts of both operands", "why_tests_cant": "Decision table over all layouts.", "anchors": ["mrmustard/lab/circuit_components.py:CircuitComponent.__rshift__", "mrmustard/lab/circuit_components.py:CircuitComponent._rshift_return"]}
{"id": "C09", "title": "Contraction order of circuits", "statement": "In a circuit whose components are all one-sided or all two-sided, in which consecutive components on a line meet (output to input) and no proper block closes to a scalar, Circuit.contract gives the same component for every contraction path that joins neighbours; a path of the wrong length raises. A path that skips a component, or a block that closes to a scalar, changes the result.", "quantifier": "all circuits, all paths", "why_tests_cant": "Number of paths grows super-exponentially; tests sample.", "anchors": ["mrmustard/lab/circuits.py:Circuit.contract", "mrmustard/lab/circuits.py:Circuit.path", "mrmustard/lab/circuits.py:Circuit.check_contraction"]}
{"id": "C10", "title": "Optimal path search", "statement": "On graphs with positive edge costs, for every random first solution and every queue order, optimal_contraction terminates and, whenever it returns, returns a complete contraction of the graph whose cost is minimal among all complete contractions reachable by contracting edges of the graph. The returned path may skip a component (so that the circuit's result changes, see C09), and for some random first solutions the search raises ValueError.", "quantifier": "all graphs of components", "why_tests_cant": "Search over all edge sequences.", "anchors": ["mrmustard/path/branch_and_bound.py:optimal_contraction", "mrmustard/path/branch_and_bound.py:contract", "mrmustard/path/branch_and_bound.py:parse_components", "mrmustard/path/branch_and_bound.py:children", "mrmustard/path/optimize.py:optimal_path"]}
{"id": "C11", "title": "Fock-shape optimisation", "statement": "optimize_fock_shapes terminates, never increases a shape, keeps shapes positive, and in the result connected wires have equal shapes and every beam splitter satisfies out_i <= in_0+in_1 (and conversely).", "quantifier": "all circuit graphs and initial shapes", "why_tests_cant": "Iterates to a fix-point; termination and fix-point laws quantify over all graphs.", "anchors": ["mrmustard/path/branch_and_bound.py:optimize_fock_shapes"]}
{"id": "C12", "title": "Heuristic pre-contraction in the path search", "statement": "The pre-contraction heuristics contract the first edge whose pair of names matches the pattern and otherwise return the graph unchanged; since the graph stores the class names of the ansatz, the patterns '1BB','2BB','1BF','1FF','2BF' match no edge and the heuristics never fire.", "quantifier": "all graphs", "why_tests_cant": "Depends on the representation names that components actually carry.", "anchors": ["mrmustard/path/branch_and_bound.py:heuristic", "mrmustard/path/branch_and_bound.py:reduce_first"]}
{"id": "C13", "title": "Wires of transformation constructors", "statement": "X.from_ansatz and from_bargmann(modes_out, modes_in, ...) return a transformation whose output wires are on modes_out and input wires on modes_in, for all sorted mode tuples; from_fock(modes_out, modes_in, ...) exchanges the two: its output wires are on modes_in and its input wires on modes_out, so it is right exactly when the two agree.", "quantifier": "all sorted mode tuples", "why_tests_cant": "Tests use modes_out == modes_in.", "anchors": ["mrmustard/lab/transformations/base.py:Transformation.from_fock", "mrmustard/lab/transformations/base.py:Transformation.from_bargmann", "mrmustard/lab/transformations/base.py:Operation.from_ansatz", "mrmustard/lab/transformations/base.py:Channel.from_ansatz"]}
{"id": "C14", "title": "Phase noise acts on its own mode and leaves its input intact", "statement": "state >> PhaseNoise(m, s) multiplies the entry (bra n, ket k) by exp(-(n_m-k_m)^2 s^2/2), where n_m, k_m are the photon numbers in mode m, for every density matrix on the modes 0..n-1 and every m among them. For other mode sets the code uses the mode number as the axis number: it raises IndexError or damps another mode; and it overwrites the array of the state it is applied to.", "quantifier": "all density matrices in the Fock basis on any set of modes, any m in it", "why_tests_cant": "Tests use modes 0..n-1.", "anchors": ["mrmustard/lab/transformations/phasenoise.py:PhaseNoise.__custom_rrshift__"]}
{"id": "C15", "title": "Partial trace", "statement": "rho[modes] keeps exactly the requested modes and sums the diagonal of every traced mode, tracing modes in two steps or in one gives the same density matrix, tracing everything gives rho.probability, and rho >> TraceOut(others) does the same whenever the two Python sets of modes are iterated in the same order. rho[all modes] raises.", "quantifier": "all density matrices on any mode set, all subsets", "why_tests_cant": "All layouts, index shifts between steps.", "anchors": ["mrmustard/lab/states/dm.py:DM.__getitem__", "mrmustard/lab/circuit_components_utils/trace_out.py:TraceOut.__custom_rrshift__", "mrmustard/physics/ansatz/array_ansatz.py:ArrayAnsatz.trace"]}
{"id": "C16", "title": "Fock distribution order", "statement": "state.fock_distribution(cutoff) lists the photon-number probabilities in lexicographic order of the photon numbers in increasing mode order for kets and for density matrices that are not separable; for separable density matrices of several modes it lists them with the modes in reversed order.", "quantifier": "all states, any number of modes", "why_tests_cant": "The separable branch permutes axes in a way that depends on the number of modes.", "anchors": ["mrmustard/lab/states/base.py:State.fock_distribution"]}
{"id": "C17", "title": "Mode argument order of two-mode gates", "statement": "BSgate((m1,m2), theta, phi) acts with m1 as the first and m2 as the second mode for m1 < m2; for m1 > m2 it silently acts as BSgate((m2,m1), theta, phi), while CXgate rejects such a pair.", "quantifier": "all pairs of distinct modes", "why_tests_cant": "Tests use increasing pairs.", "anchors": ["mrmustard/lab/transformations/bsgate.py:BSgate.__init__", "mrmustard/lab/transformations/cxgate.py:CXgate.__init__"]}
{"id": "C18", "title": "Random density matrices", "statement": "DM.random(modes, m) returns a density matrix on `modes` obtained by tracing m ancilla modes when m is the number of modes (the default); for every other m it raises.", "quantifier": "all mode lists and all m", "why_tests_cant": "Tests use the default m.", "anchors": ["mrmustard/lab/states/dm.py:DM.random"]}
{"id": "C19", "title": "Bargmann to Fock amplitudes are Taylor coefficients", "statement": "For every symmetric A, vector b, scalar c and every shape, the array computed by hermite_renormalized satisfies, at every index k and for every axis i with k_i>0, sqrt(k_i) G_k = b_i G_{k-1_i} + sum_j A_ij sqrt((k-1_i)_j) G_{k-1_i-1_j}, with G_0 = c; i.e. G_k = sqrt(k!) times the Taylor coefficient of c exp(z.A.z/2 + b.z). The flat, unchecked indexing of the fast implementation never picks a wrong entry.", "quantifier": "all numbers of modes, all shapes, all A,b,c", "why_tests_cant": "Universally quantified over shapes; unchecked index arithmetic.", "anchors": ["mrmustard/math/lattice/strategies/vanilla/core.py:vanilla_numba", "mrmustard/math/lattice/strategies/vanilla/core.py:stable_numba", "mrmustard/math/lattice/steps.py:vanilla_step", "mrmustard/math/lattice/pivots.py:first_available_pivot", "mrmustard/math/lattice/steps.py:vanilla_step"]}
{"id": "C20", "title": "Agreement of the Fock strategies", "statement": "The fast, the stable, the single-step and the batched strategies produce the same amplitudes (in exact arithmetic) for every symmetric A.", "quantifier": "all A symmetric, b, c, shapes, batches", "why_tests_cant": "Pivot independence is a theorem about all indices.", "anchors": ["mrmustard/math/lattice/strategies/vanilla/core.py:vanilla_numba", "mrmustard/math/lattice/strategies/vanilla/core.py:stable_numba", "mrmustard/math/lattice/strategies/vanilla/batch.py:vanilla_batch_numba"]}
{"id": "C21", "title": "Gradient formulas of the amplitudes", "statement": "The vector-Jacobian products of the amplitudes w.r.t. A, b, c are the exact derivatives: dG_k/dc = G_k/c, dG_k/db_i = sqrt(k_i) G_{k-1_i}, and the A-gradient is the derivative in every symmetric direction.", "quantifier": "all A,b,c, shapes and directions", "why_tests_cant": "Derivative identities over all indices.", "anchors": ["mrmustard/math/lattice/strategies/vanilla/gradients.py:vanilla_vjp_numba", "mrmustard/math/lattice/strategies/vanilla/gradients.py:vanilla_vjp_numba"]}
{"id": "C22", "title": "Cutoff independence", "statement": "Amplitudes computed with a smaller shape equal the corresponding slice of amplitudes computed with a larger shape.", "quantifier": "all pairs of shapes", "why_tests_cant": "All shapes.", "anchors": ["mrmustard/math/lattice/strategies/vanilla/core.py:vanilla_numba", "mrmustard/math/lattice/strategies/vanilla/core.py:stable_numba"]}
{"id": "C23", "title": "autoshape bounds", "statement": "auto_shape returns for every mode a cutoff between min_shape and max_shape and the loop ends after at most max_shape steps; it is the first cutoff at which the accumulated number exceeds max_prob when there is one in range. The accumulated number is the photon-number probability for states without displacement and for states with real A and b; for displaced complex states it is another number.", "quantifier": "all A,b,c and settings", "why_tests_cant": "Data-dependent loop.", "anchors": ["mrmustard/math/lattice/autoshape.py:autoshape_numba"]}
{"id": "C24", "title": "Binomial subspace enumeration", "statement": "The binomial strategy visits every photon pattern of the requested total number below the local cutoffs exactly once and by default fills every amplitude of the array.", "quantifier": "all cutoffs and weights", "why_tests_cant": "Combinatorial enumeration over all cutoffs.", "anchors": ["mrmustard/math/lattice/paths.py:binomial_subspace_basis", "mrmustard/math/lattice/strategies/binomial.py:binomial"]}
{"id": "C25", "title": "Beam-splitter Fock matrices", "statement": "For every shape and every angle the stable beam-splitter strategy fills every entry that conserves the photon number with the value given by the Bargmann recursion and leaves all others zero; the vanilla strategy does so for the shapes (M,N,P,Q) with P <= N or M <= 1 and leaves entries (m,n,m+n,0) with m+n >= N uncomputed otherwise; the Schwinger strategy does so for square shapes, and raises IndexError or omits entries for the other shapes it documents.", "quantifier": "all angles and all (also non-square) shapes", "why_tests_cant": "Loop bounds depend on all four cutoffs.", "anchors": ["mrmustard/math/lattice/strategies/beamsplitter.py:beamsplitter", "mrmustard/math/lattice/strategies/beamsplitter.py:stable_beamsplitter", "mrmustard/math/lattice/strategies/beamsplitter.py:beamsplitter_schwinger"]}
{"id": "C26", "title": "Conditional (fast diagonal) amplitudes", "statement": "fast_diagonal(A,b,c,output_cutoff,pnr_cutoffs) computes every requested diagonal amplitude whenever 2*output_cutoff exceeds the number of modes; otherwise the loop over the weights stops early and entries stay 0.", "quantifier": "all cutoffs", "why_tests_cant": "Weight-by-weight buffered recursion; the needed weights depend on the cutoffs.", "anchors": ["mrmustard/math/lattice/strategies/fast_diagonal.py:fast_diagonal"]}
{"id": "C27", "title": "Specialised gate recursions", "statement": "The displacement and squeezer Fock matrices computed by their dedicated recurrences equal the Bargmann recursion on the gates' triples for every (rectangular) shape.", "quantifier": "all parameters and shapes", "why_tests_cant": "All shapes, loop bounds.", "anchors": ["mrmustard/math/lattice/strategies/displacement.py:displacement", "mrmustard/math/lattice/strategies/squeezer.py:squeezer"]}
{"id": "C28", "title": "Lattice helpers", "statement": "neighbours and pivots of an index are exactly the indices at the documented distance; the first available / smallest pivots select a positive component whenever there is one, and path iteration visits each index of a shape exactly once with every pivot and lower neighbour visited before it.", "quantifier": "all indices and shapes", "why_tests_cant": "All dimensions.", "anchors": ["mrmustard/math/lattice/neighbors.py", "mrmustard/math/lattice/pivots.py", "mrmustard/math/lattice/paths.py"]}
{"id": "C29", "title": "Ordering of batches", "statement": "argsort_gen returns a permutation that sorts the rows lexicographically (shorter rows padded with infinity), stably, for all rows of finite values; a row that contains infinity itself can be put in the wrong place.", "quantifier": "all generators of rows", "why_tests_cant": "All inputs.", "anchors": ["mrmustard/utils/argsort.py:argsort_gen"]}
{"id": "C30", "title": "Simplification of linear superpositions", "statement": "When (A,b) are compared exactly, ansatz.simplify() never changes the function represented by the ansatz and leaves no two terms with equal (A,b). With the comparison of the code, which has a tolerance, it changes the represented function.", "quantifier": "all linear superpositions", "why_tests_cant": "All batches and duplicate patterns.", "anchors": ["mrmustard/physics/ansatz/polyexp_ansatz.py:PolyExpAnsatz.simplify", "mrmustard/physics/ansatz/polyexp_ansatz.py:PolyExpAnsatz._find_unique_terms_sorted"]}
{"id": "C31", "title": "Pairing of contracted variables", "statement": "PolyExpAnsatz.contract(other, idx1, idx2, idx_out) integrates the k-th shared label of self (in the order of self) against the k-th shared label of other (in the order of other): equal labels are paired exactly when the shared labels appear in the same order in both, which is so for every contraction of components; otherwise variables with different labels are silently integrated together.", "quantifier": "all label lists", "why_tests_cant": "Tests use labels in the same relative order.", "anchors": ["mrmustard/physics/ansatz/polyexp_ansatz.py:PolyExpAnsatz.contract"]}
{"id": "C32", "title": "Reduction and padding of Fock arrays", "statement": "reduce(shape) keeps every amplitude inside both shapes, fills the rest with zeros and composes (reduce to s then t <= s equals reduce to t), for every positive shape of the right length that is at least or at most the array's shape in every direction; every other shape is rejected with ValueError.", "quantifier": "all arrays and target shapes, including growing some axes while shrinking others", "why_tests_cant": "All shapes.", "anchors": ["mrmustard/physics/ansatz/array_ansatz.py:ArrayAnsatz.reduce"]}
{"id": "C33", "title": "Batch strings", "statement": "The einsum strings built for 'kron' and 'zip' contractions use distinct labels and list the linear-superposition axis last, for all numbers of batch dimensions, and the arguments are reshaped consistently for the orders the code produces. A string that permutes the batch labels is followed by a reshape without a transpose, and evaluation without arguments raises.", "quantifier": "all numbers of batch dimensions", "why_tests_cant": "All batch ranks.", "anchors": ["mrmustard/physics/utils.py:generate_batch_str", "mrmustard/physics/utils.py:outer_product_batch_str", "mrmustard/physics/utils.py:zip_batch_strings", "mrmustard/physics/utils.py:lin_sup_batch_str"]}
{"id": "C34", "title": "Serialisation round trip", "statement": "load(circuit.serialize()) is equal to the circuit (same components in the same order with the same data and flags), for every non-empty circuit of plain components and of built-in components as their constructors build them, after any later history of saves and loads under other names, with and without removal of the file; loading under another backend raises. Not restored: linear superpositions (the flag is not saved), trainable components whose constructor takes no bounds, built-in components converted with to_fock, the empty circuit, a file name used twice, user keys named backend.", "quantifier": "all circuits and ansatz", "why_tests_cant": "All component lists and flags.", "anchors": ["mrmustard/lab/circuits.py:Circuit.serialize", "mrmustard/lab/circuits.py:Circuit.deserialize", "mrmustard/utils/serialize.py:save", "mrmustard/utils/serialize.py:load", "mrmustard/physics/ansatz/polyexp_ansatz.py:PolyExpAnsatz.to_dict"]}
{"id": "C35", "title": "Parameter sets", "statement": "After any history of additions of parameters whose names are not internal field names a ParameterSet has unique names split into constants and variables, lookup returns the parameter that was added, duplicates raise and change nothing, slices keep names, kinds and gathered values. A parameter called _names makes the set unusable, and slicing puts constants before variables.", "quantifier": "all sequences of additions", "why_tests_cant": "All histories.", "anchors": ["mrmustard/math/parameter_set.py:ParameterSet.add_parameter", "mrmustard/math/parameter_set.py:ParameterSet.__getitem__"]}
{"id": "C36", "title": "Scoped settings", "statement": "`with settings(k=v, ...)` sets the values inside the block and restores, on exit, the values the settings had on entry, including when the body assigns settings or raises, for every body that does not itself evaluate settings(...). After nested blocks, leaving the outer block restores once more the settings of the inner call to the values they had when the inner block was entered, and the settings named only by the outer call keep the values the body left; a setter that fails in the call and the random generator are not restored.", "quantifier": "all histories of entering, leaving and assigning settings", "why_tests_cant": "All nestings.", "anchors": ["mrmustard/utils/settings.py:Settings.__call__", "mrmustard/utils/settings.py:Settings.__enter__", "mrmustard/utils/settings.py:Settings.__exit__"]}
{"id": "C37", "title": "Transparent caching", "statement": "After any history of calls and settings changes a cached function returns what the uncached function would return, provided the function does not depend on settings and its results are not changed in place, and the cache stays bounded. oscillator_eigenstate reads HBAR: after a change of HBAR it returns stale values; a caller changing a returned array changes later results.", "quantifier": "all histories of calls and changes of settings", "why_tests_cant": "All histories.", "anchors": ["mrmustard/math/caching.py:tensor_int_cache", "mrmustard/physics/fock_utils.py:oscillator_eigenstate"]}
{"id": "C38", "title": "Optimizer stops and stays on the manifold", "statement": "Optimizer.minimize performs at most max_steps steps (max_steps>0) and symplectic/orthogonal/unitary parameters stay in their group at every step.", "quantifier": "all cost functions, gradients, learning rates and step counts", "why_tests_cant": "All trajectories.", "anchors": ["mrmustard/training/optimizer.py:Optimizer.should_stop", "mrmustard/training/parameter_update.py:update_symplectic", "mrmustard/training/parameter_update.py:update_unitary", "mrmustard/training/parameter_update.py:update_orthogonal"]}
{"id": "C39", "title": "Samplers", "statement": "sample(state, n_samples) returns n_samples rows with one outcome per mode, of nonzero probability, and probabilities are normalised before sampling, for all states, counts and generators; a given nonzero seed makes the result a function of its arguments for one-mode states. For several modes the later modes are drawn from the shared generator whatever the seed, and seed 0 is treated as no seed.", "quantifier": "all states, sample counts and seeds", "why_tests_cant": "All seeds and counts.", "anchors": ["mrmustard/lab/samplers.py:Sampler.sample", "mrmustard/lab/samplers.py:Sampler._validate_probs", "mrmustard/lab/samplers.py:PNRSampler.sample"]}
{"id": "C40", "title": "Gaussian integrals compose", "statement": "Integrating out two sets of variables one after the other gives the same A and b and the same determinant/exponent factors as integrating them at once, for every split, provided the intermediate matrices are invertible.", "quantifier": "all dimensions, all triples, all splits", "why_tests_cant": "Fubini for the code's formulas, any dimension.", "anchors": ["mrmustard/physics/gaussian_integrals.py:complex_gaussian_integral_1", "mrmustard/physics/gaussian_integrals.py:real_gaussian_integral", "mrmustard/physics/gaussian_integrals.py:join_Abc"]}
{"id": "C41", "title": "Prefactor of Gaussian contractions", "statement": "Contracting modes together or one at a time gives the same A and b and the same c up to its sign, for all triples; the signs agree exactly when the product of the two principal square roots is the principal root of the product. They need not agree for physical states: the overlap of three-fold products of normalisable squeezed states computed at once is minus the value obtained mode by mode.", "quantifier": "all triples", "why_tests_cant": "Branch of the complex square root.", "anchors": ["mrmustard/physics/gaussian_integrals.py:complex_gaussian_integral_1"]}
{"id": "C42", "title": "Composition laws of gates and channels", "statement": "Contracting triples reproduces the physical laws, for A, b and c, above the threshold 1e-12 on the determinant of the contraction: rotations, beamsplitters and squeezings along one axis add their parameters, displacements add with a phase, attenuators multiply transmissivities, amplifiers multiply gains, random noises add, a coherent state through an attenuator is attenuated, identities are neutral, and channels without displacement preserve the trace. Channels with a displacement do not (see C55).", "quantifier": "all real/complex parameter values", "why_tests_cant": "Continuum of parameters.", "anchors": ["mrmustard/physics/triples.py:rotation_gate_Abc", "mrmustard/physics/triples.py:displacement_gate_Abc", "mrmustard/physics/triples.py:attenuator_Abc", "mrmustard/physics/triples.py:amplifier_Abc", "mrmustard/physics/triples.py:coherent_state_Abc", "mrmustard/physics/triples.py:identity_Abc"]}
{"id": "C43", "title": "Symplectic matrices of gates", "statement": "The symplectic matrix of every gate satisfies S J S^T = J.", "quantifier": "all parameter values and (for interferometers) all numbers of modes", "why_tests_cant": "Continuum of parameters, all sizes.", "anchors": ["mrmustard/physics/symplectics.py"]}
{"id": "C44", "title": "Bargmann <-> symplectic / XY conversions", "statement": "Unitary.from_symplectic(S).symplectic == S for every symplectic S with the needed invertibility, and Channel.from_XY(X,Y).XY == (X,Y).", "quantifier": "all symplectic matrices / channels, any number of modes", "why_tests_cant": "All dimensions.", "anchors": ["mrmustard/physics/bargmann_utils.py:symplectic2Au", "mrmustard/physics/bargmann_utils.py:au2Symplectic", "mrmustard/physics/bargmann_utils.py:XY_of_channel", "mrmustard/physics/triples.py:XY_to_channel_Abc"]}
{"id": "C45", "title": "Physicality tests of channels and density matrices", "statement": "channel.is_CP is true exactly when Y + i hbar/2 (Omega - X Omega X^T) >= 0 and dm.is_positive exactly when cov + i hbar/2 Omega >= 0 (up to settings.ATOL). channel.is_TP is, for Hermiticity preserving Gaussian maps with equal numbers of input and output modes whose inverses exist, true exactly when tracing the output gives the matrix A of the trace of the input; it raises LinAlgError on Attenuator(0), ignores b and c, and cannot be true when the numbers of modes differ.", "quantifier": "all Gaussian channels and states, any number of modes", "why_tests_cant": "All dimensions; the tests use shortcut formulas and ignore b and c.", "anchors": ["mrmustard/lab/transformations/base.py:Channel.is_TP", "mrmustard/lab/transformations/base.py:Channel.is_CP", "mrmustard/lab/states/dm.py:DM.is_positive"]}
{"id": "C46", "title": "Stellar decompositions", "statement": "For every Gaussian ket and every choice of core modes formal_stellar_decomposition returns (core state, transformation) whose composition is the ket (A, b and c) and whose core state has vanishing A and b on the core modes; so does it for density matrices; physical_stellar_decomposition of a ket does so whenever it returns, and the amplitudes of the core state with more photons in the core modes than elsewhere vanish. It raises LinAlgError whenever A is singular on the core modes (vacuum, two-mode squeezed vacuum), and with two or more core modes, a displacement and a complex gamma the transformation it returns is not unitary.", "quantifier": "all Gaussian kets and density matrices, all choices of core modes", "why_tests_cant": "All dimensions.", "anchors": ["mrmustard/lab/states/ket.py:Ket.formal_stellar_decomposition", "mrmustard/lab/states/ket.py:Ket.physical_stellar_decomposition", "mrmustard/lab/states/dm.py:DM.formal_stellar_decomposition"]}
{"id": "C47", "title": "mm_einsum equals the full contraction", "statement": "mm_einsum(ansatz, indices, ..., output, contraction_order, ...) on Fock arrays computes the sum over all non-output indices of the product of the operands, for every linear or union path whose contractions join operands by an index, whatever the path. Operands without a common index leave the Fock representation; a single operand and a pair of equal positions do not give the full sum.", "quantifier": "all networks and orders", "why_tests_cant": "All graphs and orders.", "anchors": ["mrmustard/physics/mm_einsum.py:mm_einsum"]}
{"id": "C48", "title": "Polynomial part of a density matrix in phase space", "statement": "c_in_PS(c) returns the coefficients, in the variables (u, v), of the polynomial whose coefficients in the Bargmann variables (z, w) = sqrt(hbar/2) (u + iv, u - iv) are c (both in the 1/sqrt(m! n!) normalisation), for every array with as many rows as columns or a single row. With more rows than columns it raises IndexError; with fewer (at least two) rows it returns another polynomial.", "quantifier": "all two-index arrays c, of any shape", "why_tests_cant": "All shapes and all degrees; tests use a few square arrays.", "anchors": ["mrmustard/physics/fock_utils.py:c_ps_matrix", "mrmustard/physics/fock_utils.py:gamma_matrix", "mrmustard/physics/fock_utils.py:c_in_PS"]}
{"id": "C49", "title": "Parameter bounds", "statement": "A variable keeps the bounds (lo, hi) it was created with through any sequence of updates, but they are not enforced: the value is the initial value plus all updates, and lies inside the bounds exactly when that sum does.", "quantifier": "all update sequences", "why_tests_cant": "All trajectories.", "anchors": ["mrmustard/math/parameters.py:Variable", "mrmustard/training/optimizer.py:Optimizer.make_step"]}
{"id": "C50", "title": "Inverse of transformations", "statement": "Above the threshold 1e-12 on the determinant of the contraction, u >> u.inverse() and u.inverse() >> u are the identity (A, b and c) for every Gaussian unitary; for every Gaussian transformation with as many inputs as outputs inverse() returns exactly when A and its output-input block are invertible (LinAlgError otherwise), composes to the identity on both sides when the determinant is off the branch cut of the square root, and to minus the identity on the cut. Below the threshold the result is infinite (28 modes squeezed by 9.5 dB).", "quantifier": "all dimensions and triples", "why_tests_cant": "All dimensions.", "anchors": ["mrmustard/lab/transformations/base.py:Transformation.inverse", "mrmustard/lab/transformations/base.py:Unitary.inverse"]}
{"id": "C51", "title": "Equality of linear superpositions", "statement": "a == b for two Bargmann ansatz with equally many terms is true exactly when they have the same terms (A, b, c), counted with multiplicity, in any order (exact comparison). With different numbers of terms numpy broadcasting can make it true.", "quantifier": "all pairs of linear superpositions", "why_tests_cant": "All orders, duplicates and numbers of terms.", "anchors": ["mrmustard/physics/ansatz/polyexp_ansatz.py:PolyExpAnsatz.__eq__", "mrmustard/physics/ansatz/polyexp_ansatz.py:PolyExpAnsatz._order_batch"]}
{"id": "C52", "title": "Arithmetic, equality, tensor product and reordering of Fock arrays", "statement": "a + b adds the amplitudes after zero-padding to the larger of two comparable core shapes and rejects incomparable ones; a == b holds exactly when the batch sizes agree and the amplitudes agree on the common core window (so == is not transitive); a & b multiplies amplitudes pairwise within the batch; reorder and reorder_batch permute axes and nothing else.", "quantifier": "all arrays, batch shapes, core shapes and orders", "why_tests_cant": "All shapes; the tests use a few square ones.", "anchors": ["mrmustard/physics/ansatz/array_ansatz.py:ArrayAnsatz.__add__", "mrmustard/physics/ansatz/array_ansatz.py:ArrayAnsatz.__eq__", "mrmustard/physics/ansatz/array_ansatz.py:ArrayAnsatz.__and__", "mrmustard/physics/ansatz/array_ansatz.py:ArrayAnsatz.reorder", "mrmustard/physics/ansatz/array_ansatz.py:ArrayAnsatz.reorder_batch"]}
{"id": "C53", "title": "Composition of Gaussian unitaries", "statement": "Above the threshold 1e-12 on the determinant of the contraction, u1 >> u2 of two Gaussian unitaries on the same modes is a Gaussian unitary: its symplectic matrix is u2.symplectic times u1.symplectic, its displacement is S2 d1 + d2, and its normalisation is that of a unitary.", "quantifier": "all pairs of Gaussian unitaries, any number of modes", "why_tests_cant": "All numbers of modes and all parameters, including those below the determinant threshold.", "anchors": ["mrmustard/lab/transformations/base.py:Unitary.symplectic", "mrmustard/lab/transformations/base.py:Unitary.from_symplectic", "mrmustard/physics/gaussian_integrals.py:complex_gaussian_integral_2", "mrmustard/physics/bargmann_utils.py:au2Symplectic"]}
{"id": "C54", "title": "Composition of Gaussian channels", "statement": "Channel.from_XY(X1, Y1) >> Channel.from_XY(X2, Y2) == Channel.from_XY(X2 X1, X2 Y1 X2^T + Y2), including b and the normalisation c, exactly when the determinant of the contraction exceeds 1e-12; otherwise the result is infinite.", "quantifier": "all real X1, X2 and real positive semidefinite Y1, Y2, any number of modes", "why_tests_cant": "All dimensions and a continuum of matrices.", "anchors": ["mrmustard/lab/transformations/base.py:Channel.from_XY", "mrmustard/physics/triples.py:XY_to_channel_Abc", "mrmustard/physics/gaussian_integrals.py:complex_gaussian_integral_2"]}
{"id": "C55", "title": "Action of a Gaussian channel on states", "statement": "Channel.from_XY(X, Y) maps the state with covariance S and means mu to the state with covariance X S X^T + Y and means X mu and preserves the trace, and states built from a covariance matrix and means have probability one, above the threshold 1e-12 on the determinants. Below it they do not: a thermal state with a million photons has infinite probability. With a displacement d the means move to X mu + d but b has the wrong sign on the input, so the trace is not preserved, and a NumPy array d raises ValueError.", "quantifier": "all real X, real positive semidefinite Y and S, all means and displacements, any number of modes", "why_tests_cant": "All dimensions and a continuum of matrices.", "anchors": ["mrmustard/lab/transformations/base.py:Channel.from_XY", "mrmustard/physics/triples.py:XY_to_channel_Abc", "mrmustard/physics/bargmann_utils.py:wigner_to_bargmann_rho", "mrmustard/lab/states/dm.py:DM.probability", "mrmustard/physics/triples.py:thermal_state_Abc"]}
{"id": "C56", "title": "Evaluation of a Bargmann ansatz", "statement": "Calling a PolyExpAnsatz with all its variables at scalar points returns, at every batch position, the function exp(z.A.z/2 + b.z) times the polynomial given by the coefficients c divided by sqrt(d!) and the derived variables (summed over the terms of a linear superposition); evaluating only some variables (__call__ with None, eval) returns an ansatz whose value at the remaining ones is the value of the original at the whole point; eval with too many points and __call__ with too many non-None points raise ValueError. The class documentation omits the factor 1/sqrt(d!), and superfluous None arguments are accepted.", "quantifier": "all batch shapes, numbers of variables and derived variables, shapes of c and points, any subset of evaluated variables", "why_tests_cant": "All shapes, subsets and complex points.", "anchors": ["mrmustard/physics/ansatz/polyexp_ansatz.py:PolyExpAnsatz.__call__", "mrmustard/physics/ansatz/polyexp_ansatz.py:PolyExpAnsatz.eval", "mrmustard/physics/ansatz/polyexp_ansatz.py:PolyExpAnsatz._partial_eval"]}
{"id": "C57", "title": "Operations on one Bargmann ansatz", "statement": "reorder permutes the arguments of the represented function and nothing else; a * s, a / s and -a act on the values; conj is the conjugate of the function at the conjugate point; scalar is the value at the origin; decompose_ansatz returns an ansatz with at most as many derived as continuous variables which represents the same function.", "quantifier": "all ansatze (any batch shape, any numbers of continuous and derived variables), permutations and scalars", "why_tests_cant": "All shapes and a continuum of parameters.", "anchors": ["mrmustard/physics/ansatz/polyexp_ansatz.py:PolyExpAnsatz.reorder", "mrmustard/physics/ansatz/polyexp_ansatz.py:PolyExpAnsatz.__mul__", "mrmustard/physics/ansatz/polyexp_ansatz.py:PolyExpAnsatz.__truediv__", "mrmustard/physics/ansatz/polyexp_ansatz.py:PolyExpAnsatz.__neg__", "mrmustard/physics/ansatz/polyexp_ansatz.py:PolyExpAnsatz.conj", "mrmustard/physics/ansatz/polyexp_ansatz.py:PolyExpAnsatz.scalar", "mrmustard/physics/ansatz/polyexp_ansatz.py:PolyExpAnsatz.decompose_ansatz"]}
{"id": "C58", "title": "Products of Bargmann ansatze", "statement": "F & G represents H(a,b) = F(a) G(b) at every pair of batch positions, superposition terms being multiplied out, unless both are linear superpositions and one has derived variables (then the call is refused when G has other than one term, and can return another function when it has one); join_Abc with a batch string is the product of the two functions at the positions named by the labels whenever the labels of each operand keep their order in the output (not otherwise: nothing is transposed).", "quantifier": "all ansatze (any batch shapes, numbers of continuous and derived variables, superposition or not) and all batch strings", "why_tests_cant": "All shapes, label patterns and a continuum of parameters.", "anchors": ["mrmustard/physics/ansatz/polyexp_ansatz.py:PolyExpAnsatz.__and__", "mrmustard/physics/gaussian_integrals.py:join_Abc", "mrmustard/physics/utils.py:outer_product_batch_str"]}
{"id": "C59", "title": "Pure Gaussian states", "statement": "Above the threshold 1e-12 on the determinants of the contractions the named states are the named gates applied to the vacuum (Coherent = Vacuum >> Dgate, SqueezedVacuum = Vacuum >> Sgate, DisplacedSqueezed = Vacuum >> Sgate >> Dgate, TwoModeSqueezedVacuum = Vacuum >> S2gate, GKet(S) = Vacuum >> Ggate(S), as triples), every circuit of Gaussian unitaries on the vacuum has probability 1, and ket.dm() has the probability of ket and purity 1. Below the threshold 28 modes squeezed by 9.5 dB have infinite probability, and 14 such modes have probability 1 but infinite purity.", "quantifier": "all parameters, all numbers of modes, all circuits", "why_tests_cant": "A continuum of parameters and circuits of any length.", "anchors": ["mrmustard/physics/triples.py:vacuum_state_Abc", "mrmustard/physics/triples.py:coherent_state_Abc", "mrmustard/physics/triples.py:squeezed_vacuum_state_Abc", "mrmustard/physics/triples.py:displaced_squeezed_vacuum_state_Abc", "mrmustard/physics/triples.py:two_mode_squeezed_vacuum_state_Abc", "mrmustard/physics/triples.py:gket_state_Abc", "mrmustard/lab/states/ket.py:Ket.dm", "mrmustard/lab/states/dm.py:DM.purity", "mrmustard/lab/states/base.py:State.L2_norm"]}
{"id": "C60", "title": "Physicality tests of kets", "statement": "Ket.is_physical is True for every normalised Gaussian ket; when it is True for a normalisable ket, its probability is 1 within the tolerance and no vacuum population exceeds it; on one mode it implies normalisability.", "quantifier": "all Gaussian kets (A, b, c), any number of modes, all tolerances", "why_tests_cant": "All dimensions and a continuum of matrices.", "anchors": ["mrmustard/lab/states/ket.py:Ket.is_physical", "mrmustard/lab/states/ket.py:Ket.probability", "mrmustard/lab/states/dm.py:DM.is_physical", "mrmustard/lab/states/dm.py:DM.probability"]}
{"id": "C61", "title": "Sums of Bargmann ansatze", "statement": "F + G represents the pointwise sum of the represented functions and F - G the difference, when neither has a batch other than the terms of a superposition, they have the same number of variables and either the same number of derived variables or one of them is a single term without derived variables; different numbers of variables and batches are rejected with ValueError, and so are sums with fewer derived variables on a side with several terms.", "quantifier": "all ansatze, all numbers of variables, derived variables, terms and polynomial degrees, all points", "why_tests_cant": "Functions on a continuum; all shapes.", "anchors": ["mrmustard/physics/ansatz/polyexp_ansatz.py:PolyExpAnsatz.__add__", "mrmustard/physics/ansatz/base.py:Ansatz.__sub__", "mrmustard/physics/ansatz/polyexp_ansatz.py:PolyExpAnsatz.__neg__"]}
{"id": "C62", "title": "The discretized Wigner function is the Wigner function", "statement": "wigner_discretized(rho, q_vec, p_vec) returns, at every grid point (q, p), the Wigner function of rho: the sum over m, n of rho[m, n] times the Wigner function of |m><n| at (q + i p)/sqrt(2 hbar), divided by hbar. The settings DISCRETIZATION_METHOD 'iterative' and 'clenshaw' return the same number.", "quantifier": "all density matrices, all cutoffs, all grid points, all nonzero values of HBAR, both methods", "why_tests_cant": "Two nested recurrences of any length, on a continuum of points; tests compare a few states on one grid within a tolerance.", "anchors": ["mrmustard/physics/wigner.py:wigner_discretized", "mrmustard/physics/wigner.py:_wigner_discretized_iterative", "mrmustard/physics/wigner.py:_wigner_discretized_clenshaw", "mrmustard/physics/wigner.py:_wig_laguerre_val"]}
{"id": "C63", "title": "Phase space parametrization of Gaussian states", "statement": "DM.from_phase_space(modes, (cov, means, coeff)).phase_space(s) is (cov - s hbar/2, means, coeff), for every real positive semidefinite cov, and a Gaussian density matrix is rebuilt by from_phase_space from its phase_space(0); Ket.phase_space is that of Ket.dm(); for a pure covariance matrix Ket.from_phase_space is a ket whose density matrix is DM.from_phase_space with coefficient |coeff|^2; the purity of the state is the purity of its covariance matrix; Ket.from_phase_space with atol_purity raises ValueError exactly when that purity is below 1 - atol_purity.", "quantifier": "all numbers of modes, covariance matrices, means, coefficients, s, hbar > 0 and all Gaussian density matrices", "why_tests_cant": "All dimensions and a continuum of parameters.", "anchors": ["mrmustard/lab/states/base.py:State.phase_space", "mrmustard/lab/states/dm.py:DM.from_phase_space", "mrmustard/lab/states/ket.py:Ket.from_phase_space", "mrmustard/physics/bargmann_utils.py:bargmann_Abc_to_phasespace_cov_means", "mrmustard/physics/gaussian.py:purity", "mrmustard/physics/triples.py:displacement_map_s_parametrized_Abc"]}
{"id": "C64", "title": "PNR probabilities by the compact recursion", "statement": "hermite_renormalized_diagonal(A, b, c, cutoffs) returns at the photon numbers p the diagonal element with multi-index (p, p) of the Taylor expansion of c exp(zAz/2 + bz) with sqrt factorials, i.e. the diagonal of hermite_renormalized; it never writes outside its work arrays and its result does not depend on anything outside them; inputs whose dimensions do not fit are rejected with ValueError.", "quantifier": "all numbers of modes, symmetric A, b, c, cutoffs from 1 to 1000 in each mode", "why_tests_cant": "All shapes; a selective recursion over five arrays, compiled without bounds checks.", "anchors": ["mrmustard/math/lattice/strategies/compactFock/diagonal_amps.py:fock_representation_diagonal_amps", "mrmustard/math/lattice/strategies/compactFock/inputValidation.py:hermite_multidimensional_diagonal", "mrmustard/math/backend_numpy.py:BackendNumpy.hermite_renormalized_diagonal"]}
{"id": "C65", "title": "Conditional density matrices by the compact recursion (JAX backend)", "statement": "With the JAX backend, math.hermite_renormalized_1leftoverMode(A, b, c, output_cutoff, pnr_cutoffs) returns for every symmetric A, every b and c, any number of detected modes, every output_cutoff and pnr_cutoffs up to 999 the array whose entry (m, n, p) is the coefficient <m, p| rho |n, p> of c exp(z.A.z/2 + b.z); with reorderedAB=False the same with the variables in the order mode 0, mode 0, mode 1, mode 1, ...; it fails exactly when there is no detected mode or the sizes do not match. The NumPy backend returns the same array for reorderedAB=True and 2*output_cutoff > number of modes, but not in general: it has zeros for small output_cutoff and ignores reorderedAB=False.", "quantifier": "every symmetric A, b, c, number of modes, cutoffs, both values of reorderedAB", "why_tests_cant": "the selective traversal reads entries written many steps before, in five arrays of blocks; tests compare a few small cutoffs", "anchors": ["mrmustard/math/lattice/strategies/compactFock/singleLeftoverMode_amps.py:fock_representation_1leftoverMode_amps", "mrmustard/math/jax_vjps/hermite.py:hermite_renormalized_1leftoverMode_jax", "mrmustard/math/backend_numpy.py:hermite_renormalized_1leftoverMode"]}
{"id": "C66", "title": "Gradients of the compact recursions are exact", "statement": "For every differentiable change of (A, b, c) that keeps A symmetric (c nonzero at the point) and every cotangent of the returned array, the backward passes of math.hermite_renormalized_diagonal and math.hermite_renormalized_1leftoverMode (JAX) return dL/dA, dL/db, dL/dc with dL = sum_ij dA_ij (dL/dA)_ij + sum_i db_i (dL/db)_i + dc dL/dc.", "quantifier": "every path of parameters, every cotangent, all cutoffs and numbers of modes, any rules of differentiation (in particular complex differentiation)", "why_tests_cant": "finite differences on examples can only approximate single directions at single points", "anchors": ["mrmustard/math/lattice/strategies/compactFock/diagonal_grad.py:fock_representation_diagonal_grad", "mrmustard/math/lattice/strategies/compactFock/singleLeftoverMode_grad.py:fock_representation_1leftoverMode_grad", "mrmustard/math/jax_vjps/hermite.py:hermite_renormalized_diagonal_jax_bwd", "mrmustard/math/jax_vjps/hermite.py:hermite_renormalized_1leftoverMode_jax_bwd"]}
{"id": "C67", "title": "Gradients of Fock gates with respect to their physical parameters", "statement": "The backward rules of the Fock matrices of the squeezing gate, the squeezed vacuum and the beamsplitter return, for every cotangent w, exactly the derivatives of 2 Re(sum of w G) in both real parameters when every cutoff is at most 317 (beyond it the table of square roots is overrun). As JAX backward passes of a real loss they therefore return exactly twice the derivative of the loss, so optimisation through them uses a doubled gradient; the displacement gate's backward pass returns exactly the JAX cotangent of the loss. The two matrices of the (r, phi) gradient of the displacement gate are the derivatives of the gate in r and phi.", "quantifier": "every real parameter value, every rectangular cutoff up to 317, every cotangent and every real loss with a gradient", "why_tests_cant": "finite differences on examples only approximate single losses at single points, and hide a constant factor compensated by the learning rate", "anchors": ["mrmustard/math/lattice/strategies/squeezer.py:squeezer_vjp", "mrmustard/math/lattice/strategies/squeezer.py:squeezed_vjp", "mrmustard/math/lattice/strategies/beamsplitter.py:beamsplitter_vjp", "mrmustard/math/lattice/strategies/displacement.py:grad_displacement", "mrmustard/math/jax_vjps/fock_utils.py:squeezer_jax_bwd", "mrmustard/math/jax_vjps/fock_utils.py:beamsplitter_jax_bwd", "mrmustard/math/jax_vjps/fock_utils.py:squeezed_jax_bwd", "mrmustard/math/jax_vjps/fock_utils.py:displacement_jax_bwd"]}
{"id": "C68", "title": "Applying a beam splitter to an array", "statement": "apply_BS_schwinger(theta, phi, i, j, array) returns, for every array and every two different axes i, j of the same size d, the contraction of these two axes with the beam splitter's Fock matrix of shape (d,d,d,d), all other axes keeping their place; when the two axes have different sizes it always raises ValueError. The Fock matrix preserves all inner products between states with fewer than d photons in total.", "quantifier": "every rank, every pair of axes, every size, all angles", "why_tests_cant": "the photon-number sectors, the index subsets and the transpositions all depend on the shape; tests can only try a few", "anchors": ["mrmustard/math/lattice/strategies/beamsplitter.py:apply_BS_schwinger", "mrmustard/math/lattice/strategies/beamsplitter.py:sector_u", "mrmustard/math/lattice/strategies/beamsplitter.py:sector_idx"]}
{"id": "C69", "title": "Expectation values are traces", "statement": "For a state (ket or density matrix) on modes M and an operator on some of those modes, expectation returns the number Tr(rho O): rho is |psi><psi| or the density matrix, O is the projector for a ket-like operator and the matrix itself for a unitary-like one; the modes without operator are traced out, photon numbers run below the smaller of the two cutoffs of each contracted axis. For a density-matrix-like operator the result is Tr(rho O^dagger), equal to Tr(rho O) when O is Hermitian (the documentation promises Tr(rho O) always: refuted for |0><1|). Operators of another form, or on modes the state does not have, raise ValueError. The fidelity of two kets is |<phi|psi>|^2, symmetric in the two states, and ValueError for different modes.", "quantifier": "all states and operators in the Fock representation without batch, all sets of modes and cutoffs, entries in any commutative ring with conjugation", "why_tests_cant": "the result is composed of duals, adjoints, two contractions with wire bookkeeping, and a trace whose axis positions depend on every mode number and every choice of subsystem; tests compare a handful of states", "anchors": ["mrmustard/lab/states/ket.py: Ket.expectation, Ket.fidelity", "mrmustard/lab/states/dm.py: DM.expectation", "mrmustard/lab/states/base.py: _validate_operator", "mrmustard/lab/circuit_components_utils/trace_out.py: TraceOut"]}
{"id": "C70", "title": "Norms, probabilities, purity and normalisation", "statement": "For a Fock ket probability (= L2_norm) is the sum of |<n|psi>|^2; for a density matrix probability is the real part of its trace (below the smaller cutoff of each mode), L2_norm the sum of |rho(k,n)|^2 and purity their quotient L2_norm/probability^2, i.e. Tr(rho^2)/(Tr rho)^2 when rho is Hermitian. ket.dm() has the matrix psi(k) conj psi(n), the probability of the ket and purity 1; normalize() divides by the (root of the) probability, has probability 1 and, for a density matrix, the same purity. The fidelity of two kets is real, between 0 and the product of their probabilities; the purity of every mixture of kets is between 0 and 1.", "quantifier": "all unbatched Fock kets and density matrices on any modes with any cutoffs and exact complex entries, non-zero probability where a quotient is taken", "why_tests_cant": "the values come from wire-indexed contractions and traces over index lists read off the wires in sorted order; the bounds are inequalities over all states", "anchors": ["mrmustard/lab/states/base.py: State.L2_norm, State.normalize", "mrmustard/lab/states/ket.py: Ket.probability, Ket.dm, Ket.purity", "mrmustard/lab/states/dm.py: DM.probability, DM.purity"]}
{"id": "C71", "title": "Quadrature representation and quadrature distributions of Fock components", "statement": "component.quadrature(*quad, phi) of a Fock component returns, in C order of the points of its modes, the sum over the photon numbers of all wires of the amplitude times one wave function per wire: exp(-i n phi) psi_n(q) for ket wires, its conjugate for bra wires, psi_n being the n-th eigenfunction of the harmonic oscillator of the current hbar at every point and every cutoff; the Bargmann-to-quadrature kernel used for the other representation has the same wave functions as amplitudes. quadrature_distribution is |<q|psi>|^2 for kets and <q|rho|q> >= 0 for density operators, and a ket and its density matrix have the same distribution.", "quantifier": "all unbatched Fock components whose mode letters do not collide with the letters given to the Fock axes, all point vectors of matching length per mode, all angles phi that are 0 or above the tolerance, all hbar > 0, all cutoffs; kets and positive density operators for the distributions", "why_tests_cant": "the einsum string is assembled from mode numbers and wire positions, so which axes are summed depends on the modes; the wave functions are a recursion in n evaluated at real points", "anchors": ["mrmustard/lab/circuit_components.py: CircuitComponent.quadrature", "mrmustard/physics/fock_utils.py: oscillator_eigenstate", "mrmustard/lab/states/base.py: State.quadrature_distribution", "mrmustard/physics/triples.py: bargmann_to_quadrature_Abc, quadrature_eigenstates_Abc", "mrmustard/lab/circuit_components_utils/b_to_q.py: BtoQ"]}
{"id": "C72", "title": "Photon-number sums equal Gaussian integrals", "statement": "For a Gaussian in any number of Bargmann variables, take two of its variables i, j with |A_ii| + |A_ij| < 1 and |A_jj| + |A_ij| < 1 (true of the two indices of a mode of every normalisable Gaussian density matrix, and, for a wire shared by two functions, of every pair with |A_ii|, |A_jj| < 1). If complex_gaussian_integral_1 over that pair returns finite parameters, then the sum over n < N of the Fock array entries with n photons on both axes converges, as the cutoff N grows, to the Fock array entry of the returned parameters at the remaining photon numbers, including the sign of the complex square root and for every cutoff of the other axes. The same holds for a wire contracted by complex_gaussian_integral_2 (indices of the second function offset by the variables of the first). With one integral over several wires at once the sign can be wrong: there are normalisable squeezed states for which the photon-number sum over three shared modes converges to minus the returned scalar.", "quantifier": "all numbers of variables, all symmetric complex A with the stated bound, all complex b and c, all positions i, j, all photon numbers of the other axes, all cutoffs of the other axes, every accuracy; refutation by a concrete pair", "why_tests_cant": "it is a statement about a limit over all cutoffs; a test compares one truncated sum with a tolerance, and the branch of the square root can only be followed along the whole path of parameters", "anchors": ["mrmustard/physics/gaussian_integrals.py:complex_gaussian_integral_1", "mrmustard/physics/gaussian_integrals.py:complex_gaussian_integral_2", "mrmustard/math/lattice/strategies/vanilla/core.py:vanilla_numba", "mrmustard/physics/ansatz/polyexp_ansatz.py:PolyExpAnsatz.trace", "mrmustard/physics/ansatz/array_ansatz.py:ArrayAnsatz.trace"]}
{"id": "C73", "title": "Sums of parametrised components", "statement": "For the built-in components whose ansatz is built from a library function of their numeric parameters (Coherent, DisplacedSqueezed, BargmannEigenstate, QuadratureEigenstate, SqueezedVacuum, Thermal, TwoModeSqueezedVacuum, BSgate, Dgate, Rgate, S2gate, Sgate), a + b on the same wires is again a component of that class with the same wires, the same trainable parameters and the same bounds, whose parameters are the stacked parameters of a and b and which represents the sum of the two functions; so does a + b_1 + ... + b_k. If a parameter is trainable in one of the two only, or has different bounds, ValueError is raised. Two instances of a class whose function is a lambda (CXgate, CZgate, Pgate, MZgate, Ggate, Interferometer, RealInterferometer) are added as ansatze. False for the other classes: the sum of two Attenuators, Amplifiers, FockDampings, GDMs, Identities, BtoQ, BtoPS or BtoChar on the same wires always raises (AttributeError), because the keyword of the function is not the name of a parameter, and matrix-valued parameters (GKet, GaussRandNoise) are stacked into a matrix of twice the height instead of a batch.", "quantifier": "all components of these classes, all numbers of terms, all parameter values, all bounds", "why_tests_cant": "a test adds two coherent states; whether every class of the library survives the generic parameter-merging code for all parameter kinds is a statement about all of them", "anchors": ["lab/circuit_components.py: CircuitComponent.__add__", "lab/utils.py: make_parameter", "physics/ansatz/polyexp_ansatz.py: PolyExpAnsatz.from_function", "lab/states/coherent.py", "lab/transformations/attenuator.py"]}
{"id": "C74", "title": "Physical stellar decomposition of density matrices", "statement": "For every Gaussian density matrix rho on 2M modes (Hermitian: exchanging bra and ket conjugates it) and M core modes, if rho.physical_stellar_decomposition(core_modes) returns finite core and phi, then: core followed by phi has the A and b of rho, and equals rho (c included) whenever rho has trace one; phi preserves every trace; core has A and b zero on the core modes and norm one; and phi is completely positive exactly when rho is positive. It returns when the correlation block between core and other modes is invertible, the eigenvalues it takes roots of are positive and the two determinants exceed 1e-12; it raises LinAlgError for every rho whose correlation block is singular (product states, states of rank-deficient correlations). False for unnormalised rho: the constant of rho is ignored, so core >> phi is the normalised state.", "quantifier": "all numbers of modes, all Hermitian Gaussian triples, all eigendecompositions numpy may return", "why_tests_cant": "a test decomposes a few random density matrices of one or two core modes; that the recomposition, the trace condition and complete positivity hold for all of them is a matrix identity", "anchors": ["lab/states/dm.py: DM.physical_stellar_decomposition", "lab/states/base.py: State.normalize", "lab/circuit_components_utils/trace_out.py"]}
{"id": "C75", "title": "Physical stellar decomposition with a mixed core", "statement": "For every Gaussian density matrix rho on 2M modes (Hermitian) and M core modes, if rho.physical_stellar_decomposition_mixed(core_modes) is given non-negative eigenvalues and returns finite core and phi, then: core followed by phi has the A and b of rho, and equals rho (c included) whenever rho has trace one; phi preserves every trace; core has A and b zero on the core modes and trace one; and if rho is positive then so are core and phi. It returns when the correlation block, the bra-ket block alpha_m of the core modes and A - X are invertible, the eigenvalues are positive and the two determinants exceed 1e-12. It raises LinAlgError whenever the correlation block or alpha_m is singular; in particular for the density matrix of every ket. With M core modes among n modes the shapes of the computation agree only if n = 2M: for every other split the function raises although its rank test is stated for any split.", "quantifier": "all numbers of modes, all Hermitian Gaussian triples, all eigendecompositions numpy may return; for the shapes all numbers of core and other modes", "why_tests_cant": "a test decomposes a few random two-mode density matrices; that the recomposition, the trace condition and positivity hold for all of them is a matrix identity", "anchors": ["lab/states/dm.py: DM.physical_stellar_decomposition_mixed", "lab/states/base.py: State.normalize", "lab/circuit_components_utils/trace_out.py"]}
{"id": "C76", "title": "Fidelity of Gaussian and of Fock density matrices", "statement": "The fidelity of two Gaussian states computed from their means and covariance matrices, and that of two Fock density matrices, are the Uhlmann fidelity wherever that has a closed form: for two states that are thermal in one symplectic frame and displaced with respect to each other it is the square of the Bhattacharyya coefficient of their photon number distributions times a Gaussian of the displacement; when one of the two is pure it is the overlap <psi|rho|psi> whatever the other; for Fock matrices with the same eigenvectors it is the squared Bhattacharyya coefficient of the spectra, and for a pure state <psi|B|psi>. It is symmetric, unchanged when the same Gaussian unitary (or, for Fock matrices, the same basis change or transposition) acts on both states, lies in (0, 1] and is 1 for a physical state with itself (for Fock matrices the square of the trace). The deviation: math.sqrtm of the numpy backend replaces a matrix whose entries are all at most 1e-8 by zero, so for a nearly pure Gaussian state the computed fidelity with itself is below 1 - 1e-5.", "quantifier": "all numbers of modes and cutoffs, all hbar > 0, all symplectic frames, mean photon numbers, means and covariances (in the general case of symmetry and invariance: all matrices, failures included), all density matrices with the stated diagonalisability", "why_tests_cant": "A test compares a few named states; the value must be right for all symplectic frames, displacements and mixedness, and symmetric for all pairs, where the formula is not symmetric as written.", "anchors": ["mrmustard/physics/gaussian.py:fidelity", "mrmustard/physics/fock_utils.py:fidelity"]}
{"id": "C77", "title": "DM.fidelity of Gaussian density matrices and overlaps", "statement": "For Gaussian density matrices in Bargmann form, DM.fidelity with another density matrix is the Gaussian fidelity of the covariance matrices and means the states were made from, and DM.expectation with a density matrix as operator is the overlap tr(rho1 rho2) = hbar^m / sqrt(det(cov1 + cov2)) exp(-(mu2 - mu1)^T (cov1 + cov2)^-1 (mu2 - mu1) / 2) times the two coefficients. When one state is pure and both are normalised the two agree, in both orders; when both are thermal in one frame the fidelity is the Bhattacharyya value of C76. DM.fidelity ignores the coefficients: the vacuum and half the vacuum have fidelity 1 and expectation 1/2.", "quantifier": "all numbers of modes, all hbar > 0, all real positive semidefinite covariances with invertible sum, all real means and real coefficients, all symplectic frames, whenever the determinants exceed the contraction threshold 1e-12", "why_tests_cant": "Two independent computations (a phase space formula with matrix square roots, and a Bargmann contraction) must agree for every pair of states; tests compare a few random pairs.", "anchors": ["mrmustard/lab/states/dm.py:DM.fidelity", "mrmustard/lab/states/dm.py:DM.expectation", "mrmustard/physics/gaussian.py:fidelity"]}
{"id": "C78", "title": "Symplectic spectrum, von Neumann entropy, separability test and mean photon numbers", "statement": "For a Gaussian state made of thermal modes with mean photon numbers n_j in any symplectic frame, symplectic_eigenvals returns the numbers 2 n_j + 1 in increasing order and von_neumann_entropy returns the sum of the entropies of the thermal photon number distributions, too small by at most 1e-9 per mode, exactly 0 for pure states; both are unchanged by Gaussian unitaries for every covariance. is_separable is True for every product state; for pure states it is True only if every mode is pure up to 1e-8. For mixed states it is not a separability test: it returns False for a mixture of coherent states (a thermal state with 2 photons on a 50:50 beam splitter). number_means of a displaced thermal state is the mean of the thermal plus that of the Poisson distribution of the displacement, and the total is unchanged by passive unitaries for every covariance and mean vector.", "quantifier": "all numbers of modes, all hbar > 0, all symplectic frames, mean photon numbers and displacements, all listings of eigenvalues the linear algebra library may return, all single-mode covariances that satisfy the uncertainty relation; for the invariances all covariances", "why_tests_cant": "Tests evaluate a handful of states; that the spectrum comes in equal pairs, so that every second entry is right, and that the entropy is additive and invariant must hold for every symplectic matrix.", "anchors": ["mrmustard/physics/gaussian.py:symplectic_eigenvals", "mrmustard/physics/gaussian.py:von_neumann_entropy", "mrmustard/physics/gaussian.py:number_means", "mrmustard/lab/states/base.py:State.is_separable"]}
{"id": "C79", "title": "Sauron states approximate Fock states", "statement": "Sauron(n, epsilon) is exactly the coherent state of amplitude epsilon restricted to the photon numbers n, 2n+1, 3n+2, ... and normalised: every other Fock amplitude is 0, it has probability 1, its overlap with the Fock state n is at least exp(-epsilon^2) and so tends to 1, and for n = 0 it is the coherent state. Only epsilon = 0 with n > 0 is not a state: the terms cancel and the normalisation divides by zero.", "quantifier": "all n, all real epsilon, all photon numbers and cutoffs", "why_tests_cant": "Tests check n up to 3 at epsilon = 0.1 with a tolerance; that all other amplitudes cancel exactly, the normalisation and the limit must hold for every n and epsilon.", "anchors": ["mrmustard/physics/triples.py:sauron_state_Abc", "mrmustard/lab/states/sauron.py:Sauron"]}
{"id": "C80", "title": "Building circuits and inspecting their contraction", "statement": "Circuit >> appends: it is associative, the empty circuit is neutral for ==, lengths add and indices run through both operands, and a circuit without a path of its own contracts from left to right, so that appending a component applies it to the contracted circuit. check_contraction(n) raises ValueError exactly if the first n steps of contract would fail to find a component, naming an index that is no longer there; otherwise it lists the entries contract has after n steps, in the same order, each with the components whose left-to-right product it is, and without pairs (i, i) every component is listed exactly once. Deviations: >> discards the contraction path of its operands, and a path with a pair (i, i) is accepted, shows a component twice and makes contract drop others silently.", "quantifier": "all circuits, all paths, all n including negative ones, all associative operations between components (for the left-to-right statements any operation that may raise)", "why_tests_cant": "Tests print two contraction steps of one circuit; that what is shown agrees with what contract does must hold for every path and every prefix of it.", "anchors": ["mrmustard/lab/circuits.py:Circuit.check_contraction", "mrmustard/lab/circuits.py:Circuit.contract", "mrmustard/lab/circuits.py:Circuit.__rshift__", "mrmustard/lab/circuits.py:Circuit.__getitem__"]}
{"id": "C81", "title": "Fock damping", "statement": "FockDamping(beta) is the operator exp(-beta n): applied to a single-mode Gaussian ket it multiplies the amplitude of n photons by exp(-beta n), mixing no amplitudes, so that for beta >= 0 no photon number becomes more likely and the vacuum amplitude is kept. Two dampings compose by adding beta, beta = 0 is the identity, and for every other beta the operator is not unitary. A coherent state alpha becomes exp(-|alpha|^2 (1 - exp(-2 beta)) / 2) times the coherent state exp(-beta) alpha.", "quantifier": "all real beta, all single-mode Gaussian kets (A, b, c), all cutoffs and photon numbers, all coherent amplitudes", "why_tests_cant": "Tests check the triple at a few values of beta; the action on every state and the composition law must hold for all.", "anchors": ["mrmustard/physics/triples.py:fock_damping_Abc", "mrmustard/lab/transformations/fockdamping.py:FockDamping"]}
{"id": "C82", "title": "Attenuator Kraus family", "statement": "For every transmissivity 0 <= eta <= 1, the single triple that holds all Kraus operators of the attenuator, contracted over its bond with its conjugate, is exactly the triple of the attenuator channel (and, the triple being real, so is the contraction without the conjugation that the test uses). Applied to a ket it is the isometry that mixes the mode with a vacuum environment: a coherent state alpha becomes the product of the coherent states sqrt(eta) alpha in the output and -sqrt(1 - eta) alpha in the bond. Unlike the channel the family is not validated: for eta > 1 the channel is refused with ValueError, while the family is returned and contracts with its conjugate to a triple that couples the inputs with eta - 1.", "quantifier": "all real eta in [0, 1] (and all eta > 1 for the last sentence), all single-mode Gaussian kets, all coherent amplitudes", "why_tests_cant": "The test compares the contraction at five values of eta, without the conjugation.", "anchors": ["mrmustard/physics/triples.py:attenuator_kraus_Abc", "mrmustard/physics/triples.py:attenuator_Abc"]}
