# how each property is modelled and proved (one line each); used by tools/design.py
HOW = {
"C01":"wires are records (mode : Z, output, ket/bra/classical tag, index, representation, id); the constructor, `sorted` (insertion sort on the `_order` key) and `args` are modelled; the order is compared with an independent 'group, then mode' specification; induction on lists",
"C02":"`__matmul__` on the same records, with the exceptions it raises; outputs and inputs compared as sets, the permutation by position; induction on lists",
"C03":"`contracted_labels` transcribed; labels compared with the wires consumed by `@`",
"C04":"equality of wire sets from C02 for both bracketings; witness where only one is defined",
"C05":"adjoint and dual of wires and of Fock components, entrywise; involution and exchange of ket and bra",
"C06":"sets of wires carry their stored hashes; `+` compares hashes",
"C07":"Fock arrays are functions on multi-indices over any commutative ring plus a shape; einsum is the nested sum; contraction of components is the sum over consumed wires",
"C08":"decision table of `>>` over the sixteen presence flags and mode sets; case analysis",
"C09":"circuits are lists of components; associativity of contraction (ContractAssoc) gives that every neighbour path equals the default path, by induction on the path",
"C10":"graphs as edge lists, the search as a fuelled queue loop with arbitrary delivery order and random choices; invariant: queue and best cover every completion",
"C11":"the fixed-point loop of `optimize_fock_shapes`; monotonicity and termination by a decreasing measure",
"C12":"pattern codes and ansatz names as strings; the loop over edges",
"C13":"constructors as functions from mode lists to wires",
"C14":"the in-place einsum on a batch of Fock matrices, returning also the changed input",
"C15":"`__getitem__`, `TraceOut`, `probability` on Fock density matrices; partial trace specified as a diagonal sum",
"C16":"the three branches of `fock_distribution` with their reshapes (ravel of multi-indices)",
"C17":"the symplectic matrix assembled by the constructor",
"C18":"mode bookkeeping of `DM.random`",
"C19":"amplitudes over any field of characteristic zero with roots of the naturals; specification: Taylor coefficients of c exp(zAz/2+bz); induction on the order of the multi-index",
"C20":"the batched loops equal the unbatched ones entry by entry",
"C21":"derivations (any rules of differentiation) applied to the specification; induction; instance: complex derivative",
"C22":"stability strategy: averaging over pivots gives the same amplitudes",
"C23":"the loop of `autoshape` with its two buffers",
"C24":"filling by total photon number; the L2 stop",
"C25":"the loops of the three strategies on functions of four indices; the Schwinger blocks by uniqueness of the solution of the linear differential equation in theta, with numpy's eig given by its contract",
"C26":"the loops over pivots and weights of `fast_diagonal`",
"C27":"the dedicated recurrences of displacement, squeezer and squeezed vacuum against the Bargmann recursion; Jacobians as derivatives",
"C28":"visiting orders of the strategies: every neighbour read has been written",
"C29":"the generator-based sort as a permutation algorithm",
"C30":"sorting and merging of terms; the represented function as a sum over terms",
"C31":"index bookkeeping of `contract`",
"C32":"`reduce` on arrays (padding and slicing)",
"C33":"batch strings as lists of characters",
"C34":"components as records, files as a finite map from names; save and load as transitions; induction over histories",
"C35":"parameter sets as three dictionaries; induction over histories of additions",
"C36":"settings and the context manager as a small imperative language with exceptions; induction on programs",
"C37":"least-recently-used cache with aliasing; induction over histories",
"C38":"matrix exponential as a power series; unitarity, orthogonality and symplecticity of each update; induction over steps",
"C39":"sampling mode by mode with an abstract generator; the product of conditionals telescopes",
"C40":"complex Gaussian integrals by completing the square over 'M[C]; the closed form satisfies the integral's characterisation",
"C41":"Schur complements; principal square root of complex numbers modelled exactly",
"C42":"block matrix algebra over C on the triples of the code",
"C43":"the symplectic matrices of the gates and of their triples; block matrix algebra",
"C44":"both directions of triple <-> symplectic, triple <-> (X, Y)",
"C45":"Hermitian positive (semi)definite matrices over C (PosDef), congruences",
"C46":"block elimination; numpy's eigh by contract; Fock side by the recursion",
"C47":"mm_einsum as iterated pair contraction; the full sum as specification; induction on the path",
"C48":"polynomials by coefficient arrays, binomial expansion",
"C49":"bounds as stored metadata of updated variables",
"C50":"inverse triples; principal root",
"C51":"linear superpositions as lists of terms",
"C52":"array operations on functions of multi-indices",
"C53":"composition of Bargmann triples of unitaries",
"C54":"composition of the triples of channels in the quadrature basis",
"C55":"action of those triples on states given by (covariance, means)",
"C56":"evaluation with hermite polynomials, any batch; specification: exponential times polynomial",
"C57":"reorder, scaling, conjugation, decompose as operations on the represented function",
"C58":"products of ansatz represent products of functions",
"C59":"triples of states and gates; positive definiteness of 1 - A^dagger A",
"C60":"eigenvalues and singular values of A",
"C61":"padding and concatenation of terms; the represented function of the sum",
"C62":"generating function of the Wigner functions of |m><n|; Laguerre recursion; Clenshaw summation",
"C63":"phase-space to Bargmann maps and back on complex matrices",
"C64":"imperative model of the compact recursion with out-of-range reads returning an arbitrary value; invariant on the written entries",
"C65":"the same with one undetected mode",
"C66":"derivations on the same traversals",
"C67":"derivatives in a real parameter of each amplitude, summed over the visited indices",
"C68":"the loop over photon-number sectors as a fold on flattened arrays, the transpositions as permutations of axes; sector unitaries equal to the gate's amplitudes by C25",
"C69":'Expect.v models validation, the six branches (dual, adjoint, contract of Contract.v / CompAdj.v) and the final trace (ArrayOps.trace). Each branch is reduced with C07_contract (contract_step: sums over the photon numbers of modes) and trace_out_scalar to tr_product, a sum over photon-number assignments written without wires; ExpectProps.v states the six theorems for any enumeration of the remaining modes, the ValueError cases, fidelity = overlap * conj overlap, a two-mode example and the non-Hermitian refutation over the Gaussian integers.',
"C70":'Norms.v: L2_norm is the contraction with the dual (C07_contract, C05_component_dual), probability the ArrayOps trace over the index lists of the output wires (group_pos, sorted_Z_unique: both lists enumerate the same modes in the same order), ket.dm the contraction with the adjoint. Bounds by Cauchy-Schwarz for finite complex sums, the smaller common cutoff being a sub-box.',
"C71":"QuadLabels.v: einsum of any number of operands over letters, the string built as in the code, equal to the intended sum when letters do not collide (refuted on mode 1: C71_refuted_letters). QuadWave.v: the hermite_renormalized recursion of C19 at A = -2, b = 2x against Rodrigues' formula by Derive_n, the Schroedinger equation, and the kernel triples by rescaling of the one-variable recurrence (QuadratureEigenstate differs by hbar^(1/4): C71_refuted_eigenstate). QuadProps.v: wires in standard order turn the wire sum into sums over modes (ket_value, dm_value) and positivity removes the absolute value.",
"C72":"TraceDecay.v: the recurrence of the amplitudes, used on the larger index, gives geometric decay. TraceScalar.v: with weight t^n the diagonal sum is a power series S(t) solving delta S' = -delta'/2 S + N1 N2 S / delta, so S^2 delta exp(-2E) is constant on [0, 1]; delta avoids the negative real axis, so S exp(-E) stays in the right half plane and is the principal root. TraceSpect.v: induction on the photon numbers of the other axes (both sides satisfy the recurrence of the integrated A, b). TraceMx.v: the 2 x 2 inverse in the code's formulas. TraceProps.v: theorems for the arrays of vanilla and for integrals 1 and 2, and the refutation for three wires from C41.",
"C73":'CompSum.v models __add__ (wires check, function identity, the parameter loop with its four kinds of errors, atleast_nd and concat, the constructor call) over a table of all classes that use from_function (keyword -> parameter, constructor arguments, number of axes of one value); CompSumProps.v proves that the sum of superpositions of n and m terms is the superposition of the n + m terms in order, lifts it to a + b_1 + ... + b_k by induction, computes the classification of the table, and refutes the claim for the classes with renamed or matrix-valued parameters.',
"C74":"StellarDM.v models the function on (bra, ket)-grouped triples with the eigendecomposition as a parameter constrained by its specification (unitary v, real d, r_squared = v d v^dagger), the displacements and both normalisations with the library's contraction (Channels/ChanAlg). Proof: the bra-ket exchange symmetry is propagated through every block, the recomposition is the block algebra of one contraction with A = 0 on the contracted outputs, the determinant and exponent of the full trace factor through the Schur complement (the same reduced matrix for rho and for the core), square roots are split using that the norm of the core is positive, and complete positivity is a congruence of the bra-ket block.",
"C75":'StellarMixed.v models the function on (bra, ket)-grouped triples, reusing the channel part of StellarDM.v with h = r_c^T. The key identity is that the core keeps the reduced matrix of rho (mixed_red), so the trace and recomposition lemmas of StellarDM.v, stated for any state with the core property and the same reduced matrix, apply; positivity of core and channel are the Schur complement and the rank-M part of the bra-ket block of rho. Shapes are a separate small model of slicing, broadcasting and np.block.',
"C76":'Fidelity.v models gaussian.fidelity step by step (V, W, the square root, f0, the exponential, with both inversions able to fail) and fock_utils.fidelity, over a square root function specified by what scipy.linalg.sqrtm guarantees: it commutes with similarity and transposition and takes principal roots of diagonal matrices (such a function is constructed, so the hypothesis is met). A symplectic frame change is a similarity of W, exchanging the states is a similarity, transposition and sign of W; hence invariance and symmetry. In a common frame all matrices are diagonal blocks and the factor of each mode is shown equal to the square of the sum of the series of sqrt(p_k q_k). For a pure state W squares to 1. For Fock matrices symmetry follows from equality of the characteristic polynomials of XY and YX.',
"C77":'Overlap.v combines PhaseSpace.v (from_phase_space and phase_space), the contraction of ChanAlg.v with the dual, and Fidelity.v. In the real quadrature basis a state has A = 1 - xi^-1 with xi = 1/2 + cov/hbar; the contraction matrix of two states is xi1^-1 (xi1 + xi2 - 1) xi2^-1 and xi1 + xi2 - 1 = (cov1 + cov2)/hbar, which gives determinant and exponent. The pure case then follows from C76_pure.',
"C78":'Entropy.v models the four functions on covariance matrices; eigvals is any function that lists the roots of the characteristic polynomial with multiplicity, in any order. S^T J S = J makes i J cov similar to i J diag(nu, nu), which is diagonalised explicitly with eigenvalues nu and -nu; the sorted moduli are then a list with every entry twice. The entropy of a thermal mode is computed as the sum of the series of -p ln p. Every single-mode covariance obeying the uncertainty relation is shown to be thermal in a triangular frame, which gives product states. The mixed counterexample is explicit, with positivity of cov - hbar/2 as certificate of classicality.',
"C79":'Sauron.v models the phases, the ring of coherent triples, the sum over all pairs of overlaps that normalises it and the Fock amplitudes as sums of the recurrence of C19 over the terms. Sums of powers of the root of unity are N or 0; each overlap is the real part of exp(t e^{i phi}), expanded in its power series (RingSeries.v, by the differential equation), so that the normalisation is N^2 times the sum of the weights on the ring. The bound compares that series termwise with the exponential series, since n! q! <= (n + q)!.',
"C80":'CircuitBuild.v models check_contraction and >> on circuits over any type of components, with the insertion-ordered dictionary of CircuitContract.v. The dictionary of groups and the dictionary of contract are related entry by entry (same index, group multiplies to the value), and the relation is preserved by get, pop and assignment; permutations of the entries give the counting. The pair (i, i) is a two-component counterexample for any operation.',
"C81":'Damping.v models fock_damping_Abc; >> is the contraction of Compose.v and States.v evaluated at A22 = 0, where its determinant is 1 and never below the threshold. The Fock arrays satisfy the recurrence of C19 and scaling (A, b) by (w^2, w) scales entry n by w^n, by uniqueness of its solution. Unitarity would force exp(-2 beta) = 1.',
"C82":'Kraus.v models attenuator_kraus_Abc with complex square roots; the bond is contracted with gthen (ChanAlg.v), whose block at the bond is zero on both sides, so that its determinant is 1 and the value is the closed form gthen_val. The result is compared with the attenuator triple of ChanLaws.v.',
}
