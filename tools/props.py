#!/usr/bin/env python3
"""Regenerates properties.jsonl (kept as a script so that the list stays diffable)."""
import json, os
P = []
def p(id, title, statement, quantifier, why, anchors):
    P.append(dict(id=id, title=title, statement=statement, quantifier=quantifier,
                  why_tests_cant=why, anchors=anchors))

W = "mrmustard/physics/wires.py"
p("C01", "Standard order and indices of Wires",
  "For every Wires(out_bra, in_bra, out_ket, in_ket, cl_out, cl_in), iterating the object lists the wires as bra-out, bra-in, ket-out, ket-in, classical-out, classical-in, each group by increasing mode, w.indices is (0,...,n-1), and w.args gives back the six mode sets.",
  "all six finite sets of integer modes (no bound on number or size of modes)",
  "The order is computed from magic offsets (10_000, 100_000, 1_000_000); tests use small modes, the claim ranges over all integers.",
  [W+":QuantumWire._order", W+":ClassicalWire._order", W+":Wires.__init__", W+":Wires.sorted_wires", W+":Wires.indices", W+":Wires.args"])
p("C02", "Composition of Wires",
  "w1 @ w2 raises ValueError exactly when an output of w2 collides with an unconsumed output of w1 or an input of w1 collides with an unfed input of w2 (same mode, side); otherwise the result has outputs out(w2)+(out(w1)-in(w2)) and inputs in(w1)+(in(w2)-out(w1)) on each side, indices 0..n-1, and the returned perm is the permutation that brings the concatenation of surviving wires of w1 and w2 to standard order.",
  "all pairs of Wires objects", "Depends on arbitrary overlap patterns of four mode sets per operand.",
  [W+":Wires.__matmul__", W+":Wires.__add__", W+":Wires.__sub__", W+":Wires._reindex"])
p("C03", "Contraction labels",
  "w1.contracted_labels(w2) gives the two operands integer labels such that a wire of w1 and a wire of w2 have equal labels exactly when w1 @ w2 consumes both (output of w1 joined to input of w2, same mode and side), labels are distinct inside each operand, and the output labels are those of the unconsumed wires listed in the standard order of w1 @ w2.",
  "all pairs of Wires that can be composed", "Ranges over all overlap patterns; drives every tensor contraction.",
  [W+":Wires.contracted_labels", W+":Wires.contracted_indices", W+":Wires.overlap"])
p("C04", "Associativity of wire composition",
  "If (a @ b) @ c is defined then a @ (b @ c) is defined and has the same wires (and conversely).",
  "all triples of Wires", "Universally quantified algebraic law over sets of modes.",
  [W+":Wires.__matmul__"])
p("C05", "Adjoint and dual of Wires and components",
  "adjoint swaps bra and ket, dual swaps input and output, both are involutions, commute, keep the result in standard order with indices 0..n-1, and the component's array is permuted so that each wire keeps its amplitude (adjoint/dual of a component conjugates the array and relabels wires only).",
  "all Wires, all components in the Fock representation", "Needs all wire layouts.",
  [W+":Wires.adjoint", W+":Wires.dual", "mrmustard/lab/circuit_components.py:CircuitComponent.adjoint", "mrmustard/lab/circuit_components.py:CircuitComponent.dual"])
p("C06", "Overlap detection of Wires addition",
  "w1 + w2 raises ValueError whenever the two objects share a wire with the same mode, side and direction.",
  "all pairs of Wires, including wires in different representations and wires obtained by adjoint/dual",
  "Depends on hashing/equality of mutated set members and on representation tags.",
  [W+":Wires.__add__", W+":QuantumWire.__eq__", W+":QuantumWire.__hash__"])
CC = "mrmustard/lab/circuit_components.py"
p("C07", "Contraction of Fock components",
  "For components in the Fock representation, (a @ b) has wires wires(a) @ wires(b) and its array entry at every multi-index is the sum, over the joined wires (up to the smaller of the two cutoffs), of the product of the entries of a and b.",
  "all components with ArrayAnsatz, all shapes, all entries in a commutative ring", "All ranks, shapes and wire layouts.",
  [CC+":CircuitComponent.contract", "mrmustard/physics/ansatz/array_ansatz.py:ArrayAnsatz.contract"])
p("C08", "Adjoint insertion by >>",
  "a >> b inserts the adjoint of a or b exactly when the other side carries bra and ket wires and it does not, raises ValueError when the sides cannot be matched, and the wires of the result are those of the documented composition.",
  "all wire layouts of both operands", "Decision table over all layouts.",
  [CC+":CircuitComponent.__rshift__", CC+":CircuitComponent._rshift_return"])
CI = "mrmustard/lab/circuits.py"
p("C09", "Contraction order of circuits",
  "Circuit.contract gives the same component for every valid contraction path (a path is a list of pairs contracted one after another).",
  "all circuits, all paths", "Number of paths grows super-exponentially; tests sample.",
  [CI+":Circuit.contract", CI+":Circuit.path", CI+":Circuit.check_contraction"])
BB = "mrmustard/path/branch_and_bound.py"
p("C10", "Optimal path search",
  "optimal_contraction returns a complete contraction of the graph whose cost is minimal among all complete contractions reachable by contracting edges of the graph, and the path it returns reproduces the circuit's result.",
  "all graphs of components", "Search over all edge sequences.",
  [BB+":optimal_contraction", BB+":contract", BB+":parse_components", BB+":children", "mrmustard/path/optimize.py:optimal_path"])
p("C11", "Fock-shape optimisation",
  "optimize_fock_shapes terminates, never increases a shape, keeps shapes positive, and in the result connected wires have equal shapes and every beam splitter satisfies out_i <= in_0+in_1 (and conversely).",
  "all circuit graphs and initial shapes", "Iterates to a fix-point; termination and fix-point laws quantify over all graphs.",
  [BB+":optimize_fock_shapes"])
p("C12", "Heuristic pre-contraction in the path search",
  "heuristics such as ('1BB','2BB','1BF','1FF','2BF') contract a one- or two-wire component whose only neighbour matches the pattern.",
  "all graphs", "Depends on the representation names that components actually carry.",
  [BB+":heuristic", BB+":reduce_first"])
TB = "mrmustard/lab/transformations/base.py"
p("C13", "Wires of transformation constructors",
  "X.from_ansatz / from_bargmann / from_fock(modes_out, modes_in, ...) return a transformation whose output wires are on modes_out and input wires on modes_in.",
  "all sorted mode tuples", "Tests use modes_out == modes_in.",
  [TB+":Transformation.from_fock", TB+":Transformation.from_bargmann", TB+":Operation.from_ansatz", TB+":Channel.from_ansatz"])
p("C14", "Phase noise acts on its own mode and leaves its input intact",
  "state >> PhaseNoise(m, s) multiplies the entry (bra n, ket k) by exp(-(n_m-k_m)^2 s^2/2), where n_m,k_m are the photon numbers in mode m, for every state that has mode m, and does not change the state object.",
  "all density matrices in the Fock basis on any set of modes, any m in it", "Tests use modes 0..n-1.",
  ["mrmustard/lab/transformations/phasenoise.py:PhaseNoise.__custom_rrshift__"])
p("C15", "Partial trace",
  "rho[modes] and rho >> TraceOut(others) keep exactly the requested modes, sum the diagonal of every traced mode, and tracing modes in two steps or one gives the same density matrix; tracing everything gives rho.probability.",
  "all density matrices on any mode set, all subsets", "All layouts, index shifts between steps.",
  ["mrmustard/lab/states/dm.py:DM.__getitem__", "mrmustard/lab/circuit_components_utils/trace_out.py:TraceOut.__custom_rrshift__", "mrmustard/physics/ansatz/array_ansatz.py:ArrayAnsatz.trace"])
p("C16", "Fock distribution order",
  "state.fock_distribution(cutoff) lists the photon-number probabilities in lexicographic order of the photon numbers in increasing mode order, in every branch (ket, separable DM, non separable DM).",
  "all states, any number of modes", "The separable branch permutes axes in a way that depends on the number of modes.",
  ["mrmustard/lab/states/base.py:State.fock_distribution"])
p("C17", "Mode argument order of two-mode gates",
  "BSgate((m1,m2), theta, phi) acts with m1 as the first and m2 as the second mode (or rejects the pair).",
  "all pairs of distinct modes", "Tests use increasing pairs.",
  ["mrmustard/lab/transformations/bsgate.py:BSgate.__init__", "mrmustard/lab/transformations/cxgate.py:CXgate.__init__"])
p("C18", "Random density matrices",
  "DM.random(modes, m) returns a density matrix on `modes` obtained by tracing m ancilla modes, for every m >= 0.",
  "all mode lists and all m", "Tests use the default m.",
  ["mrmustard/lab/states/dm.py:DM.random"])
VC = "mrmustard/math/lattice/strategies/vanilla/core.py"
p("C19", "Bargmann to Fock amplitudes are Taylor coefficients",
  "For every symmetric A, vector b, scalar c and every shape, the array computed by hermite_renormalized satisfies, at every index k and for every axis i with k_i>0, sqrt(k_i) G_k = b_i G_{k-1_i} + sum_j A_ij sqrt((k-1_i)_j) G_{k-1_i-1_j}, with G_0 = c; i.e. G_k = sqrt(k!) times the Taylor coefficient of c exp(z.A.z/2 + b.z). The flat, unchecked indexing of the fast implementation never picks a wrong entry.",
  "all numbers of modes, all shapes, all A,b,c", "Universally quantified over shapes; unchecked index arithmetic.",
  [VC+":vanilla_numba", VC+":stable_numba", "mrmustard/math/lattice/steps.py:vanilla_step", "mrmustard/math/lattice/pivots.py:first_available_pivot", "mrmustard/math/lattice/steps.py:vanilla_step"])
p("C20", "Agreement of the Fock strategies",
  "The fast, the stable, the single-step and the batched strategies produce the same amplitudes (in exact arithmetic) for every symmetric A.",
  "all A symmetric, b, c, shapes, batches", "Pivot independence is a theorem about all indices.",
  [VC+":vanilla_numba", VC+":stable_numba", "mrmustard/math/lattice/strategies/vanilla/batch.py:vanilla_batch_numba"])
p("C21", "Gradient formulas of the amplitudes",
  "The vector-Jacobian products of the amplitudes w.r.t. A, b, c are the exact derivatives: dG_k/dc = G_k/c, dG_k/db_i = sqrt(k_i) G_{k-1_i}, and the A-gradient is the derivative in every symmetric direction.",
  "all A,b,c, shapes and directions", "Derivative identities over all indices.",
  ["mrmustard/math/lattice/strategies/vanilla/gradients.py:vanilla_vjp_numba", "mrmustard/math/lattice/strategies/vanilla/gradients.py:vanilla_vjp_numba" ])
p("C22", "Cutoff independence",
  "Amplitudes computed with a smaller shape equal the corresponding slice of amplitudes computed with a larger shape.",
  "all pairs of shapes", "All shapes.",
  [VC+":vanilla_numba", VC+":stable_numba"])
p("C23", "autoshape bounds",
  "auto_shape returns for every mode a cutoff between min_shape and max_shape and the loop ends after at most max_shape steps; it is the first cutoff at which the accumulated probability exceeds max_prob when there is one in range.",
  "all A,b,c and settings", "Data-dependent loop.",
  ["mrmustard/math/lattice/autoshape.py:autoshape_numba"])
p("C24", "Binomial subspace enumeration",
  "The binomial strategy visits every photon pattern of the requested total number below the local cutoffs exactly once and by default fills every amplitude of the array.",
  "all cutoffs and weights", "Combinatorial enumeration over all cutoffs.",
  ["mrmustard/math/lattice/paths.py:binomial_subspace_basis", "mrmustard/math/lattice/strategies/binomial.py:binomial"])
p("C25", "Beam-splitter Fock matrices",
  "All beam-splitter strategies fill, for every shape, every entry that conserves the photon number with the value given by the Bargmann recursion, and leave all others zero.",
  "all angles and all (also non-square) shapes", "Loop bounds depend on all four cutoffs.",
  ["mrmustard/math/lattice/strategies/beamsplitter.py:beamsplitter", "mrmustard/math/lattice/strategies/beamsplitter.py:stable_beamsplitter", "mrmustard/math/lattice/strategies/beamsplitter.py:beamsplitter_schwinger"])
p("C26", "Conditional (fast diagonal) amplitudes",
  "fast_diagonal(A,b,c,output_cutoff,pnr_cutoffs) computes every requested diagonal amplitude.",
  "all cutoffs", "Weight-by-weight buffered recursion; the needed weights depend on the cutoffs.",
  ["mrmustard/math/lattice/strategies/fast_diagonal.py:fast_diagonal"])
p("C27", "Specialised gate recursions",
  "The displacement and squeezer Fock matrices computed by their dedicated recurrences equal the Bargmann recursion on the gates' triples for every (rectangular) shape.",
  "all parameters and shapes", "All shapes, loop bounds.",
  ["mrmustard/math/lattice/strategies/displacement.py:displacement", "mrmustard/math/lattice/strategies/squeezer.py:squeezer"])
p("C28", "Lattice helpers",
  "neighbours and pivots of an index are exactly the indices at the documented distance; the first available / smallest pivots select a positive component whenever there is one, and path iteration visits each index of a shape exactly once with every pivot and lower neighbour visited before it.",
  "all indices and shapes", "All dimensions.",
  ["mrmustard/math/lattice/neighbors.py", "mrmustard/math/lattice/pivots.py", "mrmustard/math/lattice/paths.py"])
p("C29", "Ordering of batches",
  "argsort_gen returns a permutation that sorts the rows lexicographically (shorter rows padded with infinity), stably.",
  "all generators of rows", "All inputs.",
  ["mrmustard/utils/argsort.py:argsort_gen"])
p("C30", "Simplification of linear superpositions",
  "ansatz.simplify() never changes the function represented by the ansatz and leaves no two terms with equal (A,b).",
  "all linear superpositions", "All batches and duplicate patterns.",
  ["mrmustard/physics/ansatz/polyexp_ansatz.py:PolyExpAnsatz.simplify", "mrmustard/physics/ansatz/polyexp_ansatz.py:PolyExpAnsatz._find_unique_terms_sorted"])
p("C31", "Pairing of contracted variables",
  "PolyExpAnsatz.contract(other, idx1, idx2, idx_out) integrates each variable of self against the variable of other that carries the same label, whatever the order of the labels.",
  "all label lists", "Tests use labels in the same relative order.",
  ["mrmustard/physics/ansatz/polyexp_ansatz.py:PolyExpAnsatz.contract"])
p("C32", "Reduction and padding of Fock arrays",
  "reduce(shape) keeps every amplitude inside both shapes, fills the rest with zeros, composes (reduce to s then t <= s equals reduce to t), and is defined for every positive shape of the right length.",
  "all arrays and target shapes, including growing some axes while shrinking others", "All shapes.",
  ["mrmustard/physics/ansatz/array_ansatz.py:ArrayAnsatz.reduce"])
p("C33", "Batch strings",
  "The einsum strings built for 'kron' and 'zip' contractions use distinct labels, reshape arguments consistently and list the linear-superposition axis last.",
  "all numbers of batch dimensions", "All batch ranks.",
  ["mrmustard/physics/utils.py:generate_batch_str", "mrmustard/physics/utils.py:outer_product_batch_str", "mrmustard/physics/utils.py:zip_batch_strings", "mrmustard/physics/utils.py:lin_sup_batch_str"])
p("C34", "Serialisation round trip",
  "load(circuit.serialize()) is equal to the circuit: same components in the same order with the same data and flags.",
  "all circuits and ansatz", "All component lists and flags.",
  [CI+":Circuit.serialize", CI+":Circuit.deserialize", "mrmustard/utils/serialize.py:save", "mrmustard/utils/serialize.py:load", "mrmustard/physics/ansatz/polyexp_ansatz.py:PolyExpAnsatz.to_dict"])
p("C35", "Parameter sets",
  "After any history of additions a ParameterSet has unique names split into constants and variables, lookup returns the parameter that was added, duplicates raise and change nothing.",
  "all sequences of additions", "All histories.",
  ["mrmustard/math/parameter_set.py:ParameterSet.add_parameter", "mrmustard/math/parameter_set.py:ParameterSet.__getitem__"])
p("C36", "Scoped settings",
  "`with settings(k=v, ...)` sets the values inside the block and restores, on exit, the values the settings had on entry, including when blocks are nested and when the body raises.",
  "all histories of entering, leaving and assigning settings", "All nestings.",
  ["mrmustard/utils/settings.py:Settings.__call__", "mrmustard/utils/settings.py:Settings.__enter__", "mrmustard/utils/settings.py:Settings.__exit__"])
p("C37", "Transparent caching",
  "A cached function returns what the uncached function would return, after any history of calls and settings changes.",
  "all histories of calls and changes of settings", "All histories.",
  ["mrmustard/math/caching.py:tensor_int_cache", "mrmustard/physics/fock_utils.py:oscillator_eigenstate"])
p("C38", "Optimizer stops and stays on the manifold",
  "Optimizer.minimize performs at most max_steps steps (max_steps>0) and symplectic/orthogonal/unitary parameters stay in their group at every step.",
  "all cost functions, gradients, learning rates and step counts", "All trajectories.",
  ["mrmustard/training/optimizer.py:Optimizer.should_stop", "mrmustard/training/parameter_update.py:update_symplectic", "mrmustard/training/parameter_update.py:update_unitary", "mrmustard/training/parameter_update.py:update_orthogonal"])
p("C39", "Samplers",
  "sample(state, n_samples) returns n_samples rows with one outcome per mode, probabilities are normalised before sampling, and a given seed makes the result a function of its arguments.",
  "all states, sample counts and seeds", "All seeds and counts.",
  ["mrmustard/lab/samplers.py:Sampler.sample", "mrmustard/lab/samplers.py:Sampler._validate_probs", "mrmustard/lab/samplers.py:PNRSampler.sample"])
GI = "mrmustard/physics/gaussian_integrals.py"
p("C40", "Gaussian integrals compose",
  "Integrating out two sets of variables one after the other gives the same A and b and the same determinant/exponent factors as integrating them at once, for every split, provided the intermediate matrices are invertible.",
  "all dimensions, all triples, all splits", "Fubini for the code's formulas, any dimension.",
  [GI+":complex_gaussian_integral_1", GI+":real_gaussian_integral", GI+":join_Abc"])
p("C41", "Prefactor of Gaussian contractions",
  "The scalar c produced by a Gaussian contraction does not depend on whether modes are contracted together or one at a time.",
  "all triples", "Branch of the complex square root.",
  [GI+":complex_gaussian_integral_1"])
T = "mrmustard/physics/triples.py"
p("C42", "Composition laws of gates and channels",
  "Contracting triples reproduces the physical laws: rotations add angles, displacements add with a phase, attenuators multiply transmissivities, amplifiers multiply gains, a coherent state through an attenuator is attenuated, channels preserve the trace, identities are neutral.",
  "all real/complex parameter values", "Continuum of parameters.",
  [T+":rotation_gate_Abc", T+":displacement_gate_Abc", T+":attenuator_Abc", T+":amplifier_Abc", T+":coherent_state_Abc", T+":identity_Abc"])
p("C43", "Symplectic matrices of gates",
  "The symplectic matrix of every gate satisfies S J S^T = J.",
  "all parameter values and (for interferometers) all numbers of modes", "Continuum of parameters, all sizes.",
  ["mrmustard/physics/symplectics.py"])
p("C44", "Bargmann <-> symplectic / XY conversions",
  "Unitary.from_symplectic(S).symplectic == S for every symplectic S with the needed invertibility, and Channel.from_XY(X,Y).XY == (X,Y).",
  "all symplectic matrices / channels, any number of modes", "All dimensions.",
  ["mrmustard/physics/bargmann_utils.py:symplectic2Au", "mrmustard/physics/bargmann_utils.py:au2Symplectic", "mrmustard/physics/bargmann_utils.py:XY_of_channel", T+":XY_to_channel_Abc"])
p("C45", "Physicality tests of channels and density matrices",
  "channel.is_TP is true exactly when tracing the output of the channel gives the trace of the input; channel.is_CP is true exactly when Y + i hbar/2 (Omega - X Omega X^T) >= 0; dm.is_positive is true exactly when the covariance obeys the uncertainty relation cov + i hbar/2 Omega >= 0 (up to the tolerance settings.ATOL).",
  "all Gaussian channels and states, any number of modes", "All dimensions; the tests use shortcut formulas and ignore b and c.",
  [TB+":Channel.is_TP", TB+":Channel.is_CP", "mrmustard/lab/states/dm.py:DM.is_positive"])
p("C46", "Stellar decompositions",
  "state.formal_stellar_decomposition(core) and physical_stellar_decomposition(core) return (core state, transformation) whose composition is the state, and the core state has vanishing A and b on the core modes.",
  "all Gaussian kets and density matrices, all choices of core modes", "All dimensions.",
  ["mrmustard/lab/states/ket.py:Ket.formal_stellar_decomposition", "mrmustard/lab/states/ket.py:Ket.physical_stellar_decomposition", "mrmustard/lab/states/dm.py:DM.formal_stellar_decomposition"])
p("C47", "mm_einsum equals the full contraction",
  "mm_einsum(ansatz, indices, ..., output, contraction_order, ...) computes the sum over all non-output indices of the product of the operands, for every valid contraction order.",
  "all networks and orders", "All graphs and orders.",
  ["mrmustard/physics/mm_einsum.py:mm_einsum"])
p("C48", "Polynomial part of a density matrix in phase space",
  "c_in_PS(c) returns the coefficients, in the variables (u, v), of the polynomial whose coefficients in the Bargmann variables (z, w) = sqrt(hbar/2) (u + iv, u - iv) are c (both in the 1/sqrt(m! n!) normalisation).",
  "all two-index arrays c, of any shape", "All shapes and all degrees; tests use a few square arrays.",
  ["mrmustard/physics/fock_utils.py:c_ps_matrix", "mrmustard/physics/fock_utils.py:gamma_matrix", "mrmustard/physics/fock_utils.py:c_in_PS"])
p("C49", "Parameter bounds",
  "During optimisation a variable created with bounds (lo, hi) always has a value inside the bounds.",
  "all update sequences", "All trajectories.",
  ["mrmustard/math/parameters.py:Variable", "mrmustard/training/optimizer.py:Optimizer.make_step"])
p("C50", "Inverse of transformations",
  "u >> u.inverse() is the identity for every invertible Gaussian transformation.",
  "all dimensions and triples", "All dimensions.",
  [TB+":Transformation.inverse", TB+":Unitary.inverse"])
PE = "mrmustard/physics/ansatz/polyexp_ansatz.py"
p("C51", "Equality of linear superpositions",
  "a == b for two Bargmann ansatz is true exactly when they have the same terms (A, b, c), counted with multiplicity, in any order.",
  "all pairs of linear superpositions", "All orders, duplicates and numbers of terms.",
  [PE+":PolyExpAnsatz.__eq__", PE+":PolyExpAnsatz._order_batch"])
AA = "mrmustard/physics/ansatz/array_ansatz.py"
p("C52", "Arithmetic, equality, tensor product and reordering of Fock arrays",
  "a + b adds the amplitudes after zero-padding to the larger of two comparable core shapes; a == b holds exactly when the batch sizes agree and the amplitudes agree on the common core window; a & b multiplies amplitudes pairwise within the batch; reorder and reorder_batch permute axes and nothing else.",
  "all arrays, batch shapes, core shapes and orders", "All shapes; the tests use a few square ones.",
  [AA+":ArrayAnsatz.__add__", AA+":ArrayAnsatz.__eq__", AA+":ArrayAnsatz.__and__", AA+":ArrayAnsatz.reorder", AA+":ArrayAnsatz.reorder_batch"])
p("C53", "Composition of Gaussian unitaries",
  "u1 >> u2 of two Gaussian unitaries on the same modes is a Gaussian unitary: its symplectic matrix is u2.symplectic times u1.symplectic, its displacement is S2 d1 + d2, and its normalisation is that of a unitary.",
  "all pairs of Gaussian unitaries, any number of modes", "All numbers of modes and all parameters, including those below the determinant threshold.",
  [TB+":Unitary.symplectic", TB+":Unitary.from_symplectic", "mrmustard/physics/gaussian_integrals.py:complex_gaussian_integral_2", "mrmustard/physics/bargmann_utils.py:au2Symplectic"])
p("C54", "Composition of Gaussian channels",
  "Channel.from_XY(X1, Y1) >> Channel.from_XY(X2, Y2) == Channel.from_XY(X2 X1, X2 Y1 X2^T + Y2), including b and the normalisation c.",
  "all real X1, X2 and real positive semidefinite Y1, Y2, any number of modes", "All dimensions and a continuum of matrices.",
  [TB+":Channel.from_XY", T+":XY_to_channel_Abc", GI+":complex_gaussian_integral_2"])
p("C55", "Action of a Gaussian channel on states",
  "Channel.from_XY(X, Y, d) maps the state with covariance S and means mu to the state with covariance X S X^T + Y and means X mu + d, it preserves the trace, and states built from a covariance matrix and means have probability one.",
  "all real X, real positive semidefinite Y and S, all means and displacements, any number of modes", "All dimensions and a continuum of matrices.",
  [TB+":Channel.from_XY", T+":XY_to_channel_Abc", "mrmustard/physics/bargmann_utils.py:wigner_to_bargmann_rho", "mrmustard/lab/states/dm.py:DM.probability", T+":thermal_state_Abc"])
p("C56", "Evaluation of a Bargmann ansatz",
  "Calling a PolyExpAnsatz with all its variables returns, at every batch position, the represented function exp(z.A.z/2 + b.z) times the polynomial given by the coefficients c and the derived variables (summed over the terms of a linear superposition); evaluating only some variables (__call__ with None, eval) returns an ansatz whose value at the remaining ones is the value of the original at the whole point; too many points raise ValueError.",
  "all batch shapes, numbers of variables and derived variables, shapes of c and points, any subset of evaluated variables", "All shapes, subsets and complex points.",
  [PE+":PolyExpAnsatz.__call__", PE+":PolyExpAnsatz.eval", PE+":PolyExpAnsatz._partial_eval"])
p("C57", "Operations on one Bargmann ansatz",
  "reorder permutes the arguments of the represented function and nothing else; a * s, a / s and -a act on the values; conj is the conjugate of the function at the conjugate point; scalar is the value at the origin; decompose_ansatz returns an ansatz with at most as many derived as continuous variables which represents the same function.",
  "all ansatze (any batch shape, any numbers of continuous and derived variables), permutations and scalars", "All shapes and a continuum of parameters.",
  [PE+":PolyExpAnsatz.reorder", PE+":PolyExpAnsatz.__mul__", PE+":PolyExpAnsatz.__truediv__", PE+":PolyExpAnsatz.__neg__", PE+":PolyExpAnsatz.conj", PE+":PolyExpAnsatz.scalar", PE+":PolyExpAnsatz.decompose_ansatz"])
p("C58", "Products of Bargmann ansatze",
  "F & G represents H(a,b) = F(a) G(b) at every pair of batch positions, superposition terms being multiplied out, unless both are linear superpositions and one has derived variables (then the call is refused when G has other than one term, and can return another function when it has one); join_Abc with a batch string is the product of the two functions at the positions named by the labels whenever the labels of each operand keep their order in the output (not otherwise: nothing is transposed).",
  "all ansatze (any batch shapes, numbers of continuous and derived variables, superposition or not) and all batch strings", "All shapes, label patterns and a continuum of parameters.",
  [PE+":PolyExpAnsatz.__and__", "mrmustard/physics/gaussian_integrals.py:join_Abc", "mrmustard/physics/utils.py:outer_product_batch_str"])
p("C59", "Pure Gaussian states",
  "The named states are the named gates applied to the vacuum: Coherent = Vacuum >> Dgate, SqueezedVacuum = Vacuum >> Sgate, DisplacedSqueezed = Vacuum >> Sgate >> Dgate, TwoModeSqueezedVacuum = Vacuum >> S2gate, GKet(S) = Vacuum >> Ggate(S), as triples (A, b, c); every circuit of Gaussian unitaries on the vacuum has probability 1; ket.dm() has the probability of ket and purity 1.",
  "all parameters, all numbers of modes, all circuits", "A continuum of parameters and circuits of any length.",
  [T+":vacuum_state_Abc", T+":coherent_state_Abc", T+":squeezed_vacuum_state_Abc", T+":displaced_squeezed_vacuum_state_Abc", T+":two_mode_squeezed_vacuum_state_Abc", T+":gket_state_Abc", "mrmustard/lab/states/ket.py:Ket.dm", "mrmustard/lab/states/dm.py:DM.purity", "mrmustard/lab/states/base.py:State.L2_norm"])
p("C60", "Physicality tests of kets",
  "Ket.is_physical is True for every normalised Gaussian ket; when it is True for a normalisable ket, its probability is 1 within the tolerance and no vacuum population exceeds it; on one mode it implies normalisability.",
  "all Gaussian kets (A, b, c), any number of modes, all tolerances", "All dimensions and a continuum of matrices.",
  ["mrmustard/lab/states/ket.py:Ket.is_physical", "mrmustard/lab/states/ket.py:Ket.probability", "mrmustard/lab/states/dm.py:DM.is_physical", "mrmustard/lab/states/dm.py:DM.probability"])
p("C61", "Sums of Bargmann ansatze",
  "F + G represents the pointwise sum of the represented functions and F - G the difference, when neither has a batch other than the terms of a superposition, they have the same number of variables and either the same number of derived variables or one of them is a single term without derived variables; different numbers of variables and batches are rejected with ValueError, and so are sums with fewer derived variables on a side with several terms.",
  "all ansatze, all numbers of variables, derived variables, terms and polynomial degrees, all points", "Functions on a continuum; all shapes.",
  [PE+":PolyExpAnsatz.__add__", "mrmustard/physics/ansatz/base.py:Ansatz.__sub__", PE+":PolyExpAnsatz.__neg__"])
WG="mrmustard/physics/wigner.py"
p("C62", "The discretized Wigner function is the Wigner function",
  "wigner_discretized(rho, q_vec, p_vec) returns, at every grid point (q, p), the Wigner function of rho: the sum over m, n of rho[m, n] times the Wigner function of |m><n| at (q + i p)/sqrt(2 hbar), divided by hbar. The settings DISCRETIZATION_METHOD 'iterative' and 'clenshaw' return the same number.",
  "all density matrices, all cutoffs, all grid points, all nonzero values of HBAR, both methods", "Two nested recurrences of any length, on a continuum of points; tests compare a few states on one grid within a tolerance.",
  [WG+":wigner_discretized", WG+":_wigner_discretized_iterative", WG+":_wigner_discretized_clenshaw", WG+":_wig_laguerre_val"])
p("C63", "Phase space parametrization of Gaussian states",
  "DM.from_phase_space(modes, (cov, means, coeff)).phase_space(s) is (cov - s hbar/2, means, coeff), for every real positive semidefinite cov, and a Gaussian density matrix is rebuilt by from_phase_space from its phase_space(0); Ket.phase_space is that of Ket.dm(); for a pure covariance matrix Ket.from_phase_space is a ket whose density matrix is DM.from_phase_space with coefficient |coeff|^2; the purity of the state is the purity of its covariance matrix; Ket.from_phase_space with atol_purity raises ValueError exactly when that purity is below 1 - atol_purity.",
  "all numbers of modes, covariance matrices, means, coefficients, s, hbar > 0 and all Gaussian density matrices", "All dimensions and a continuum of parameters.",
  ["mrmustard/lab/states/base.py:State.phase_space", "mrmustard/lab/states/dm.py:DM.from_phase_space", "mrmustard/lab/states/ket.py:Ket.from_phase_space", "mrmustard/physics/bargmann_utils.py:bargmann_Abc_to_phasespace_cov_means", "mrmustard/physics/gaussian.py:purity", "mrmustard/physics/triples.py:displacement_map_s_parametrized_Abc"])
p("C64", "PNR probabilities by the compact recursion",
  "hermite_renormalized_diagonal(A, b, c, cutoffs) returns at the photon numbers p the diagonal element with multi-index (p, p) of the Taylor expansion of c exp(zAz/2 + bz) with sqrt factorials, i.e. the diagonal of hermite_renormalized; it never writes outside its work arrays and its result does not depend on anything outside them; inputs whose dimensions do not fit are rejected with ValueError.",
  "all numbers of modes, symmetric A, b, c, cutoffs from 1 to 1000 in each mode", "All shapes; a selective recursion over five arrays, compiled without bounds checks.",
  ["mrmustard/math/lattice/strategies/compactFock/diagonal_amps.py:fock_representation_diagonal_amps", "mrmustard/math/lattice/strategies/compactFock/inputValidation.py:hermite_multidimensional_diagonal", "mrmustard/math/backend_numpy.py:BackendNumpy.hermite_renormalized_diagonal"])
p("C65", "Conditional density matrices by the compact recursion (JAX backend)",
  "With the JAX backend, math.hermite_renormalized_1leftoverMode(A, b, c, output_cutoff, pnr_cutoffs) returns for every symmetric A, every b and c, any number of detected modes, every output_cutoff and pnr_cutoffs up to 999 the array whose entry (m, n, p) is the coefficient <m, p| rho |n, p> of c exp(z.A.z/2 + b.z); with reorderedAB=False the same with the variables in the order mode 0, mode 0, mode 1, mode 1, ...; it fails exactly when there is no detected mode or the sizes do not match. The NumPy backend returns the same array for reorderedAB=True and 2*output_cutoff > number of modes, but not in general: it has zeros for small output_cutoff and ignores reorderedAB=False.",
  "every symmetric A, b, c, number of modes, cutoffs, both values of reorderedAB",
  "the selective traversal reads entries written many steps before, in five arrays of blocks; tests compare a few small cutoffs",
  ["mrmustard/math/lattice/strategies/compactFock/singleLeftoverMode_amps.py:fock_representation_1leftoverMode_amps", "mrmustard/math/jax_vjps/hermite.py:hermite_renormalized_1leftoverMode_jax", "mrmustard/math/backend_numpy.py:hermite_renormalized_1leftoverMode"])
p("C66", "Gradients of the compact recursions are exact",
  "For every differentiable change of (A, b, c) that keeps A symmetric (c nonzero at the point) and every cotangent of the returned array, the backward passes of math.hermite_renormalized_diagonal and math.hermite_renormalized_1leftoverMode (JAX) return dL/dA, dL/db, dL/dc with dL = sum_ij dA_ij (dL/dA)_ij + sum_i db_i (dL/db)_i + dc dL/dc.",
  "every path of parameters, every cotangent, all cutoffs and numbers of modes, any rules of differentiation (in particular complex differentiation)",
  "finite differences on examples can only approximate single directions at single points",
  ["mrmustard/math/lattice/strategies/compactFock/diagonal_grad.py:fock_representation_diagonal_grad", "mrmustard/math/lattice/strategies/compactFock/singleLeftoverMode_grad.py:fock_representation_1leftoverMode_grad", "mrmustard/math/jax_vjps/hermite.py:hermite_renormalized_diagonal_jax_bwd", "mrmustard/math/jax_vjps/hermite.py:hermite_renormalized_1leftoverMode_jax_bwd"])
p("C67", "Gradients of Fock gates with respect to their physical parameters",
  "The backward rules of the Fock matrices of the squeezing gate, the squeezed vacuum and the beamsplitter return, for every cotangent w, exactly the derivatives of 2 Re(sum of w G) in both real parameters when every cutoff is at most 317 (beyond it the table of square roots is overrun). As JAX backward passes of a real loss they therefore return exactly twice the derivative of the loss, so optimisation through them uses a doubled gradient; the displacement gate's backward pass returns exactly the JAX cotangent of the loss. The two matrices of the (r, phi) gradient of the displacement gate are the derivatives of the gate in r and phi.",
  "every real parameter value, every rectangular cutoff up to 317, every cotangent and every real loss with a gradient",
  "finite differences on examples only approximate single losses at single points, and hide a constant factor compensated by the learning rate",
  ["mrmustard/math/lattice/strategies/squeezer.py:squeezer_vjp", "mrmustard/math/lattice/strategies/squeezer.py:squeezed_vjp", "mrmustard/math/lattice/strategies/beamsplitter.py:beamsplitter_vjp", "mrmustard/math/lattice/strategies/displacement.py:grad_displacement", "mrmustard/math/jax_vjps/fock_utils.py:squeezer_jax_bwd", "mrmustard/math/jax_vjps/fock_utils.py:beamsplitter_jax_bwd", "mrmustard/math/jax_vjps/fock_utils.py:squeezed_jax_bwd", "mrmustard/math/jax_vjps/fock_utils.py:displacement_jax_bwd"])
p("C68", "Applying a beam splitter to an array",
  "apply_BS_schwinger(theta, phi, i, j, array) returns, for every array and every two different axes i, j of the same size d, the contraction of these two axes with the beam splitter's Fock matrix of shape (d,d,d,d), all other axes keeping their place; when the two axes have different sizes it always raises ValueError. The Fock matrix preserves all inner products between states with fewer than d photons in total.",
  "every rank, every pair of axes, every size, all angles",
  "the photon-number sectors, the index subsets and the transpositions all depend on the shape; tests can only try a few",
  ["mrmustard/math/lattice/strategies/beamsplitter.py:apply_BS_schwinger", "mrmustard/math/lattice/strategies/beamsplitter.py:sector_u", "mrmustard/math/lattice/strategies/beamsplitter.py:sector_idx"])
p("C69", "Expectation values are traces",
  "For a state (ket or density matrix) on modes M and an operator on some of those modes, expectation returns the number Tr(rho O): rho is |psi><psi| or the density matrix, O is the projector for a ket-like operator and the matrix itself for a unitary-like one; the modes without operator are traced out, photon numbers run below the smaller of the two cutoffs of each contracted axis. For a density-matrix-like operator the result is Tr(rho O^dagger), equal to Tr(rho O) when O is Hermitian (the documentation promises Tr(rho O) always: refuted for |0><1|). Operators of another form, or on modes the state does not have, raise ValueError. The fidelity of two kets is |<phi|psi>|^2, symmetric in the two states, and ValueError for different modes.",
  "all states and operators in the Fock representation without batch, all sets of modes and cutoffs, entries in any commutative ring with conjugation",
  "the result is composed of duals, adjoints, two contractions with wire bookkeeping, and a trace whose axis positions depend on every mode number and every choice of subsystem; tests compare a handful of states",
  ["mrmustard/lab/states/ket.py: Ket.expectation, Ket.fidelity", "mrmustard/lab/states/dm.py: DM.expectation", "mrmustard/lab/states/base.py: _validate_operator", "mrmustard/lab/circuit_components_utils/trace_out.py: TraceOut"])
p("C70", "Norms, probabilities, purity and normalisation",
  "For a Fock ket probability (= L2_norm) is the sum of |<n|psi>|^2; for a density matrix probability is the real part of its trace (below the smaller cutoff of each mode), L2_norm the sum of |rho(k,n)|^2 and purity their quotient L2_norm/probability^2, i.e. Tr(rho^2)/(Tr rho)^2 when rho is Hermitian. ket.dm() has the matrix psi(k) conj psi(n), the probability of the ket and purity 1; normalize() divides by the (root of the) probability, has probability 1 and, for a density matrix, the same purity. The fidelity of two kets is real, between 0 and the product of their probabilities; the purity of every mixture of kets is between 0 and 1.",
  "all unbatched Fock kets and density matrices on any modes with any cutoffs and exact complex entries, non-zero probability where a quotient is taken",
  "the values come from wire-indexed contractions and traces over index lists read off the wires in sorted order; the bounds are inequalities over all states",
  ["mrmustard/lab/states/base.py: State.L2_norm, State.normalize", "mrmustard/lab/states/ket.py: Ket.probability, Ket.dm, Ket.purity", "mrmustard/lab/states/dm.py: DM.probability, DM.purity"])
p("C71", "Quadrature representation and quadrature distributions of Fock components",
  "component.quadrature(*quad, phi) of a Fock component returns, in C order of the points of its modes, the sum over the photon numbers of all wires of the amplitude times one wave function per wire: exp(-i n phi) psi_n(q) for ket wires, its conjugate for bra wires, psi_n being the n-th eigenfunction of the harmonic oscillator of the current hbar at every point and every cutoff; the Bargmann-to-quadrature kernel used for the other representation has the same wave functions as amplitudes. quadrature_distribution is |<q|psi>|^2 for kets and <q|rho|q> >= 0 for density operators, and a ket and its density matrix have the same distribution.",
  "all unbatched Fock components whose mode letters do not collide with the letters given to the Fock axes, all point vectors of matching length per mode, all angles phi that are 0 or above the tolerance, all hbar > 0, all cutoffs; kets and positive density operators for the distributions",
  "the einsum string is assembled from mode numbers and wire positions, so which axes are summed depends on the modes; the wave functions are a recursion in n evaluated at real points",
  ["mrmustard/lab/circuit_components.py: CircuitComponent.quadrature", "mrmustard/physics/fock_utils.py: oscillator_eigenstate", "mrmustard/lab/states/base.py: State.quadrature_distribution", "mrmustard/physics/triples.py: bargmann_to_quadrature_Abc, quadrature_eigenstates_Abc", "mrmustard/lab/circuit_components_utils/b_to_q.py: BtoQ"])
p("C72", "Photon-number sums equal Gaussian integrals",
  "For a Gaussian in any number of Bargmann variables, take two of its variables i, j with |A_ii| + |A_ij| < 1 and |A_jj| + |A_ij| < 1 (true of the two indices of a mode of every normalisable Gaussian density matrix, and, for a wire shared by two functions, of every pair with |A_ii|, |A_jj| < 1). If complex_gaussian_integral_1 over that pair returns finite parameters, then the sum over n < N of the Fock array entries with n photons on both axes converges, as the cutoff N grows, to the Fock array entry of the returned parameters at the remaining photon numbers, including the sign of the complex square root and for every cutoff of the other axes. The same holds for a wire contracted by complex_gaussian_integral_2 (indices of the second function offset by the variables of the first). With one integral over several wires at once the sign can be wrong: there are normalisable squeezed states for which the photon-number sum over three shared modes converges to minus the returned scalar.",
  "all numbers of variables, all symmetric complex A with the stated bound, all complex b and c, all positions i, j, all photon numbers of the other axes, all cutoffs of the other axes, every accuracy; refutation by a concrete pair",
  "it is a statement about a limit over all cutoffs; a test compares one truncated sum with a tolerance, and the branch of the square root can only be followed along the whole path of parameters",
  ["mrmustard/physics/gaussian_integrals.py:complex_gaussian_integral_1", "mrmustard/physics/gaussian_integrals.py:complex_gaussian_integral_2", "mrmustard/math/lattice/strategies/vanilla/core.py:vanilla_numba", "mrmustard/physics/ansatz/polyexp_ansatz.py:PolyExpAnsatz.trace", "mrmustard/physics/ansatz/array_ansatz.py:ArrayAnsatz.trace"])
p("C73", "Sums of parametrised components",
  "For the built-in components whose ansatz is built from a library function of their numeric parameters (Coherent, DisplacedSqueezed, BargmannEigenstate, QuadratureEigenstate, SqueezedVacuum, Thermal, TwoModeSqueezedVacuum, BSgate, Dgate, Rgate, S2gate, Sgate), a + b on the same wires is again a component of that class with the same wires, the same trainable parameters and the same bounds, whose parameters are the stacked parameters of a and b and which represents the sum of the two functions; so does a + b_1 + ... + b_k. If a parameter is trainable in one of the two only, or has different bounds, ValueError is raised. Two instances of a class whose function is a lambda (CXgate, CZgate, Pgate, MZgate, Ggate, Interferometer, RealInterferometer) are added as ansatze. False for the other classes: the sum of two Attenuators, Amplifiers, FockDampings, GDMs, Identities, BtoQ, BtoPS or BtoChar on the same wires always raises (AttributeError), because the keyword of the function is not the name of a parameter, and matrix-valued parameters (GKet, GaussRandNoise) are stacked into a matrix of twice the height instead of a batch.",
  "all components of these classes, all numbers of terms, all parameter values, all bounds",
  "a test adds two coherent states; whether every class of the library survives the generic parameter-merging code for all parameter kinds is a statement about all of them",
  ["lab/circuit_components.py: CircuitComponent.__add__", "lab/utils.py: make_parameter", "physics/ansatz/polyexp_ansatz.py: PolyExpAnsatz.from_function", "lab/states/coherent.py", "lab/transformations/attenuator.py"])
p("C74", "Physical stellar decomposition of density matrices",
  "For every Gaussian density matrix rho on 2M modes (Hermitian: exchanging bra and ket conjugates it) and M core modes, if rho.physical_stellar_decomposition(core_modes) returns finite core and phi, then: core followed by phi has the A and b of rho, and equals rho (c included) whenever rho has trace one; phi preserves every trace; core has A and b zero on the core modes and norm one; and phi is completely positive exactly when rho is positive. It returns when the correlation block between core and other modes is invertible, the eigenvalues it takes roots of are positive and the two determinants exceed 1e-12; it raises LinAlgError for every rho whose correlation block is singular (product states, states of rank-deficient correlations). False for unnormalised rho: the constant of rho is ignored, so core >> phi is the normalised state.",
  "all numbers of modes, all Hermitian Gaussian triples, all eigendecompositions numpy may return",
  "a test decomposes a few random density matrices of one or two core modes; that the recomposition, the trace condition and complete positivity hold for all of them is a matrix identity",
  ["lab/states/dm.py: DM.physical_stellar_decomposition", "lab/states/base.py: State.normalize", "lab/circuit_components_utils/trace_out.py"])
p("C75", "Physical stellar decomposition with a mixed core",
  "For every Gaussian density matrix rho on 2M modes (Hermitian) and M core modes, if rho.physical_stellar_decomposition_mixed(core_modes) is given non-negative eigenvalues and returns finite core and phi, then: core followed by phi has the A and b of rho, and equals rho (c included) whenever rho has trace one; phi preserves every trace; core has A and b zero on the core modes and trace one; and if rho is positive then so are core and phi. It returns when the correlation block, the bra-ket block alpha_m of the core modes and A - X are invertible, the eigenvalues are positive and the two determinants exceed 1e-12. It raises LinAlgError whenever the correlation block or alpha_m is singular; in particular for the density matrix of every ket. With M core modes among n modes the shapes of the computation agree only if n = 2M: for every other split the function raises although its rank test is stated for any split.",
  "all numbers of modes, all Hermitian Gaussian triples, all eigendecompositions numpy may return; for the shapes all numbers of core and other modes",
  "a test decomposes a few random two-mode density matrices; that the recomposition, the trace condition and positivity hold for all of them is a matrix identity",
  ["lab/states/dm.py: DM.physical_stellar_decomposition_mixed", "lab/states/base.py: State.normalize", "lab/circuit_components_utils/trace_out.py"])
p("C76", "Fidelity of Gaussian and of Fock density matrices",
  "The fidelity of two Gaussian states computed from their means and covariance matrices, and that of two Fock density matrices, are the Uhlmann fidelity wherever that has a closed form: for two states that are thermal in one symplectic frame and displaced with respect to each other it is the square of the Bhattacharyya coefficient of their photon number distributions times a Gaussian of the displacement; when one of the two is pure it is the overlap <psi|rho|psi> whatever the other; for Fock matrices with the same eigenvectors it is the squared Bhattacharyya coefficient of the spectra, and for a pure state <psi|B|psi>. It is symmetric, unchanged when the same Gaussian unitary (or, for Fock matrices, the same basis change or transposition) acts on both states, lies in (0, 1] and is 1 for a physical state with itself (for Fock matrices the square of the trace).",
  "all numbers of modes and cutoffs, all hbar > 0, all symplectic frames, mean photon numbers, means and covariances (in the general case of symmetry and invariance: all matrices, failures included), all density matrices with the stated diagonalisability",
  "A test compares a few named states; the value must be right for all symplectic frames, displacements and mixedness, and symmetric for all pairs, where the formula is not symmetric as written.",
  ["mrmustard/physics/gaussian.py:fidelity", "mrmustard/physics/fock_utils.py:fidelity"])
p("C77", "DM.fidelity of Gaussian density matrices and overlaps",
  "For Gaussian density matrices in Bargmann form, DM.fidelity with another density matrix is the Gaussian fidelity of the covariance matrices and means the states were made from, and DM.expectation with a density matrix as operator is the overlap tr(rho1 rho2) = hbar^m / sqrt(det(cov1 + cov2)) exp(-(mu2 - mu1)^T (cov1 + cov2)^-1 (mu2 - mu1) / 2) times the two coefficients. When one state is pure and both are normalised the two agree, in both orders; when both are thermal in one frame the fidelity is the Bhattacharyya value of C76. DM.fidelity ignores the coefficients: the vacuum and half the vacuum have fidelity 1 and expectation 1/2.",
  "all numbers of modes, all hbar > 0, all real positive semidefinite covariances with invertible sum, all real means and real coefficients, all symplectic frames, whenever the determinants exceed the contraction threshold 1e-12",
  "Two independent computations (a phase space formula with matrix square roots, and a Bargmann contraction) must agree for every pair of states; tests compare a few random pairs.",
  ["mrmustard/lab/states/dm.py:DM.fidelity", "mrmustard/lab/states/dm.py:DM.expectation", "mrmustard/physics/gaussian.py:fidelity"])
p("C78", "Symplectic spectrum, von Neumann entropy, separability test and mean photon numbers",
  "For a Gaussian state made of thermal modes with mean photon numbers n_j in any symplectic frame, symplectic_eigenvals returns the numbers 2 n_j + 1 in increasing order and von_neumann_entropy returns the sum of the entropies of the thermal photon number distributions, too small by at most 1e-9 per mode, exactly 0 for pure states; both are unchanged by Gaussian unitaries for every covariance. is_separable is True for every product state; for pure states it is True only if every mode is pure up to 1e-8. For mixed states it is not a separability test: it returns False for a mixture of coherent states (a thermal state with 2 photons on a 50:50 beam splitter). number_means of a displaced thermal state is the mean of the thermal plus that of the Poisson distribution of the displacement, and the total is unchanged by passive unitaries for every covariance and mean vector.",
  "all numbers of modes, all hbar > 0, all symplectic frames, mean photon numbers and displacements, all listings of eigenvalues the linear algebra library may return, all single-mode covariances that satisfy the uncertainty relation; for the invariances all covariances",
  "Tests evaluate a handful of states; that the spectrum comes in equal pairs, so that every second entry is right, and that the entropy is additive and invariant must hold for every symplectic matrix.",
  ["mrmustard/physics/gaussian.py:symplectic_eigenvals", "mrmustard/physics/gaussian.py:von_neumann_entropy", "mrmustard/physics/gaussian.py:number_means", "mrmustard/lab/states/base.py:State.is_separable"])
p("C79", "Sauron states approximate Fock states",
  "Sauron(n, epsilon) is exactly the coherent state of amplitude epsilon restricted to the photon numbers n, 2n+1, 3n+2, ... and normalised: every other Fock amplitude is 0, it has probability 1, its overlap with the Fock state n is at least exp(-epsilon^2) and so tends to 1, and for n = 0 it is the coherent state. Only epsilon = 0 with n > 0 is not a state: the terms cancel and the normalisation divides by zero.",
  "all n, all real epsilon, all photon numbers and cutoffs",
  "Tests check n up to 3 at epsilon = 0.1 with a tolerance; that all other amplitudes cancel exactly, the normalisation and the limit must hold for every n and epsilon.",
  ["mrmustard/physics/triples.py:sauron_state_Abc", "mrmustard/lab/states/sauron.py:Sauron"])
p("C80", "Building circuits and inspecting their contraction",
  "Circuit >> appends: it is associative, the empty circuit is neutral for ==, lengths add and indices run through both operands, and a circuit without a path of its own contracts from left to right, so that appending a component applies it to the contracted circuit. check_contraction(n) raises ValueError exactly if the first n steps of contract would fail to find a component, naming an index that is no longer there; otherwise it lists the entries contract has after n steps, in the same order, each with the components whose left-to-right product it is, and without pairs (i, i) every component is listed exactly once. Deviations: >> discards the contraction path of its operands, and a path with a pair (i, i) is accepted, shows a component twice and makes contract drop others silently.",
  "all circuits, all paths, all n including negative ones, all associative operations between components (for the left-to-right statements any operation that may raise)",
  "Tests print two contraction steps of one circuit; that what is shown agrees with what contract does must hold for every path and every prefix of it.",
  ["mrmustard/lab/circuits.py:Circuit.check_contraction", "mrmustard/lab/circuits.py:Circuit.contract", "mrmustard/lab/circuits.py:Circuit.__rshift__", "mrmustard/lab/circuits.py:Circuit.__getitem__"])
p("C81", "Fock damping",
  "FockDamping(beta) is the operator exp(-beta n): applied to a single-mode Gaussian ket it multiplies the amplitude of n photons by exp(-beta n), mixing no amplitudes, so that for beta >= 0 no photon number becomes more likely and the vacuum amplitude is kept. Two dampings compose by adding beta, beta = 0 is the identity, and for every other beta the operator is not unitary. A coherent state alpha becomes exp(-|alpha|^2 (1 - exp(-2 beta)) / 2) times the coherent state exp(-beta) alpha.",
  "all real beta, all single-mode Gaussian kets (A, b, c), all cutoffs and photon numbers, all coherent amplitudes",
  "Tests check the triple at a few values of beta; the action on every state and the composition law must hold for all.",
  ["mrmustard/physics/triples.py:fock_damping_Abc", "mrmustard/lab/transformations/fockdamping.py:FockDamping"])
p("C82", "Attenuator Kraus family",
  "For every transmissivity 0 <= eta <= 1, the single triple that holds all Kraus operators of the attenuator, contracted over its bond with its conjugate, is exactly the triple of the attenuator channel (and, the triple being real, so is the contraction without the conjugation that the test uses). Applied to a ket it is the isometry that mixes the mode with a vacuum environment: a coherent state alpha becomes the product of the coherent states sqrt(eta) alpha in the output and -sqrt(1 - eta) alpha in the bond. Unlike the channel the family is not validated: for eta > 1 the channel is refused with ValueError, while the family is returned and contracts with its conjugate to a triple that couples the inputs with eta - 1.",
  "all real eta in [0, 1] (and all eta > 1 for the last sentence), all single-mode Gaussian kets, all coherent amplitudes",
  "The test compares the contraction at five values of eta, without the conjugation.",
  ["mrmustard/physics/triples.py:attenuator_kraus_Abc", "mrmustard/physics/triples.py:attenuator_Abc"])
exec(open(os.path.join(os.path.dirname(__file__), "revised.py")).read())
for x in P:
    if x["id"] in REV: x["statement"] = REV[x["id"]]
with open(os.path.join(os.path.dirname(__file__), "..", "properties.jsonl"), "w") as f:
    for x in P: f.write(json.dumps(x) + "\n")
print(len(P))
