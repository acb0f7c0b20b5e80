# Statements as the code satisfies them: where the plain claim is false of the code, the statement says where it holds and where it fails.
REV = {
"C01": "For every Wires(out_bra, in_bra, out_ket, in_ket, cl_out, cl_in) whose modes lie within 20000 of each other, iterating the object lists the wires as bra-out, bra-in, ket-out, ket-in, classical-out, classical-in, each group by increasing mode, w.indices is (0,...,n-1), and w.args gives back the six mode sets. The bound is needed: with modes further apart the groups mix and the indices come out as (1,0).",
"C02": "w1 @ w2 raises ValueError exactly when an output of w2 collides with an unconsumed output of w1 or an input of w1 collides with an unfed input of w2 (same mode, side); otherwise, when the result has no quantum and classical wire on the same mode and direction, it has outputs out(w2)+(out(w1)-in(w2)) and inputs in(w1)+(in(w2)-out(w1)) on each side, indices 0..n-1, and the returned perm is the permutation that brings the concatenation of surviving wires of w1 and w2 to standard order. With a quantum and a classical wire on the same mode and direction the code raises AttributeError.",
"C03": "w1.contracted_labels(w2) gives the two operands integer labels such that a quantum wire of w1 and a quantum wire of w2 have equal labels exactly when w1 @ w2 consumes both (output of w1 joined to input of w2, same mode and side), labels are distinct inside each operand, and the output labels are those of the unconsumed wires listed in the standard order of w1 @ w2. Classical wires joined by @ get different labels, so they are not contracted.",
"C04": "If (a @ b) @ c and a @ (b @ c) are both defined they have the same wires; if b has inputs and outputs on the same modes and sides, one is defined exactly when the other is. Without that condition one bracketing can be defined while the other raises.",
"C06": "w1 + w2 raises ValueError whenever the two objects share a wire with the same mode, side, direction and representation and the hashes of their wires are up to date. After adjoint or dual the stored hashes are stale and the overlap goes unnoticed, as it does for wires in different representations.",
"C09": "In a circuit whose components are all one-sided or all two-sided, in which consecutive components on a line meet (output to input) and no proper block closes to a scalar, Circuit.contract gives the same component for every contraction path that joins neighbours; a path of the wrong length raises. A path that skips a component, or a block that closes to a scalar, changes the result.",
"C10": "On graphs with positive edge costs, for every random first solution and every queue order, optimal_contraction terminates and, whenever it returns, returns a complete contraction of the graph whose cost is minimal among all complete contractions reachable by contracting edges of the graph. The returned path may skip a component (so that the circuit's result changes, see C09), and for some random first solutions the search raises ValueError.",
"C12": "The pre-contraction heuristics contract the first edge whose pair of names matches the pattern and otherwise return the graph unchanged; since the graph stores the class names of the ansatz, the patterns '1BB','2BB','1BF','1FF','2BF' match no edge and the heuristics never fire.",
"C13": "X.from_ansatz and from_bargmann(modes_out, modes_in, ...) return a transformation whose output wires are on modes_out and input wires on modes_in, for all sorted mode tuples; from_fock(modes_out, modes_in, ...) exchanges the two: its output wires are on modes_in and its input wires on modes_out, so it is right exactly when the two agree.",
"C14": "state >> PhaseNoise(m, s) multiplies the entry (bra n, ket k) by exp(-(n_m-k_m)^2 s^2/2), where n_m, k_m are the photon numbers in mode m, for every density matrix on the modes 0..n-1 and every m among them. For other mode sets the code uses the mode number as the axis number: it raises IndexError or damps another mode; and it overwrites the array of the state it is applied to.",
"C15": "rho[modes] keeps exactly the requested modes and sums the diagonal of every traced mode, tracing modes in two steps or in one gives the same density matrix, tracing everything gives rho.probability, and rho >> TraceOut(others) does the same whenever the two Python sets of modes are iterated in the same order. rho[all modes] raises.",
"C16": "state.fock_distribution(cutoff) lists the photon-number probabilities in lexicographic order of the photon numbers in increasing mode order for kets and for density matrices that are not separable; for separable density matrices of several modes it lists them with the modes in reversed order.",
"C17": "BSgate((m1,m2), theta, phi) acts with m1 as the first and m2 as the second mode for m1 < m2; for m1 > m2 it silently acts as BSgate((m2,m1), theta, phi), while CXgate rejects such a pair.",
"C18": "DM.random(modes, m) returns a density matrix on `modes` obtained by tracing m ancilla modes when m is the number of modes (the default); for every other m it raises.",
"C23": "auto_shape returns for every mode a cutoff between min_shape and max_shape and the loop ends after at most max_shape steps; it is the first cutoff at which the accumulated number exceeds max_prob when there is one in range. The accumulated number is the photon-number probability for states without displacement and for states with real A and b; for displaced complex states it is another number.",
"C25": "For every shape and every angle the stable beam-splitter strategy fills every entry that conserves the photon number with the value given by the Bargmann recursion and leaves all others zero; the vanilla strategy does so for the shapes (M,N,P,Q) with P <= N or M <= 1 and leaves entries (m,n,m+n,0) with m+n >= N uncomputed otherwise; the Schwinger strategy does so for square shapes, and raises IndexError or omits entries for the other shapes it documents.",
"C26": "fast_diagonal(A,b,c,output_cutoff,pnr_cutoffs) computes every requested diagonal amplitude whenever 2*output_cutoff exceeds the number of modes; otherwise the loop over the weights stops early and entries stay 0.",
"C29": "argsort_gen returns a permutation that sorts the rows lexicographically (shorter rows padded with infinity), stably, for all rows of finite values; a row that contains infinity itself can be put in the wrong place.",
"C30": "When (A,b) are compared exactly, ansatz.simplify() never changes the function represented by the ansatz and leaves no two terms with equal (A,b). With the comparison of the code, which has a tolerance, it changes the represented function.",
"C31": "PolyExpAnsatz.contract(other, idx1, idx2, idx_out) integrates the k-th shared label of self (in the order of self) against the k-th shared label of other (in the order of other): equal labels are paired exactly when the shared labels appear in the same order in both, which is so for every contraction of components; otherwise variables with different labels are silently integrated together.",
"C32": "reduce(shape) keeps every amplitude inside both shapes, fills the rest with zeros and composes (reduce to s then t <= s equals reduce to t), for every positive shape of the right length that is at least or at most the array's shape in every direction; every other shape is rejected with ValueError.",
"C33": "The einsum strings built for 'kron' and 'zip' contractions use distinct labels and list the linear-superposition axis last, for all numbers of batch dimensions, and the arguments are reshaped consistently for the orders the code produces. A string that permutes the batch labels is followed by a reshape without a transpose, and evaluation without arguments raises.",
"C34": "load(circuit.serialize()) is equal to the circuit (same components in the same order with the same data and flags), for every non-empty circuit of plain components and of built-in components as their constructors build them, after any later history of saves and loads under other names, with and without removal of the file; loading under another backend raises. Not restored: linear superpositions (the flag is not saved), trainable components whose constructor takes no bounds, built-in components converted with to_fock, the empty circuit, a file name used twice, user keys named backend.",
"C35": "After any history of additions of parameters whose names are not internal field names a ParameterSet has unique names split into constants and variables, lookup returns the parameter that was added, duplicates raise and change nothing, slices keep names, kinds and gathered values. A parameter called _names makes the set unusable, and slicing puts constants before variables.",
"C36": "`with settings(k=v, ...)` sets the values inside the block and restores, on exit, the values the settings had on entry, including when the body assigns settings or raises, for every body that does not itself evaluate settings(...). After nested blocks, leaving the outer block restores once more the settings of the inner call to the values they had when the inner block was entered, and the settings named only by the outer call keep the values the body left; a setter that fails in the call and the random generator are not restored.",
"C37": "After any history of calls and settings changes a cached function returns what the uncached function would return, provided the function does not depend on settings and its results are not changed in place, and the cache stays bounded. oscillator_eigenstate reads HBAR: after a change of HBAR it returns stale values; a caller changing a returned array changes later results.",
"C39": "sample(state, n_samples) returns n_samples rows with one outcome per mode, of nonzero probability, and probabilities are normalised before sampling, for all states, counts and generators; a given nonzero seed makes the result a function of its arguments for one-mode states. For several modes the later modes are drawn from the shared generator whatever the seed, and seed 0 is treated as no seed.",
"C41": "Contracting modes together or one at a time gives the same A and b and the same c up to its sign, for all triples; the signs agree exactly when the product of the two principal square roots is the principal root of the product. They need not agree for physical states: the overlap of three-fold products of normalisable squeezed states computed at once is minus the value obtained mode by mode.",
"C42": "Contracting triples reproduces the physical laws, for A, b and c, above the threshold 1e-12 on the determinant of the contraction: rotations, beamsplitters and squeezings along one axis add their parameters, displacements add with a phase, attenuators multiply transmissivities, amplifiers multiply gains, random noises add, a coherent state through an attenuator is attenuated, identities are neutral, and channels without displacement preserve the trace. Channels with a displacement do not (see C55).",
"C45": "channel.is_CP is true exactly when Y + i hbar/2 (Omega - X Omega X^T) >= 0 and dm.is_positive exactly when cov + i hbar/2 Omega >= 0 (up to settings.ATOL). channel.is_TP is, for Hermiticity preserving Gaussian maps with equal numbers of input and output modes whose inverses exist, true exactly when tracing the output gives the matrix A of the trace of the input; it raises LinAlgError on Attenuator(0), ignores b and c, and cannot be true when the numbers of modes differ.",
"C46": "For every Gaussian ket and every choice of core modes formal_stellar_decomposition returns (core state, transformation) whose composition is the ket (A, b and c) and whose core state has vanishing A and b on the core modes; so does it for density matrices; physical_stellar_decomposition of a ket does so whenever it returns, and the amplitudes of the core state with more photons in the core modes than elsewhere vanish. It raises LinAlgError whenever A is singular on the core modes (vacuum, two-mode squeezed vacuum), and with two or more core modes, a displacement and a complex gamma the transformation it returns is not unitary.",
"C47": "mm_einsum(ansatz, indices, ..., output, contraction_order, ...) on Fock arrays computes the sum over all non-output indices of the product of the operands, for every linear or union path whose contractions join operands by an index, whatever the path. Operands without a common index leave the Fock representation; a single operand and a pair of equal positions do not give the full sum.",
"C48": "c_in_PS(c) returns the coefficients, in the variables (u, v), of the polynomial whose coefficients in the Bargmann variables (z, w) = sqrt(hbar/2) (u + iv, u - iv) are c (both in the 1/sqrt(m! n!) normalisation), for every array with as many rows as columns or a single row. With more rows than columns it raises IndexError; with fewer (at least two) rows it returns another polynomial.",
"C49": "A variable keeps the bounds (lo, hi) it was created with through any sequence of updates, but they are not enforced: the value is the initial value plus all updates, and lies inside the bounds exactly when that sum does.",
"C50": "Above the threshold 1e-12 on the determinant of the contraction, u >> u.inverse() and u.inverse() >> u are the identity (A, b and c) for every Gaussian unitary; for every Gaussian transformation with as many inputs as outputs inverse() returns exactly when A and its output-input block are invertible (LinAlgError otherwise), composes to the identity on both sides when the determinant is off the branch cut of the square root, and to minus the identity on the cut. Below the threshold the result is infinite (28 modes squeezed by 9.5 dB).",
"C51": "a == b for two Bargmann ansatz with equally many terms is true exactly when they have the same terms (A, b, c), counted with multiplicity, in any order (exact comparison). With different numbers of terms numpy broadcasting can make it true.",
"C52": "a + b adds the amplitudes after zero-padding to the larger of two comparable core shapes and rejects incomparable ones; a == b holds exactly when the batch sizes agree and the amplitudes agree on the common core window (so == is not transitive); a & b multiplies amplitudes pairwise within the batch; reorder and reorder_batch permute axes and nothing else.",
"C53": "Above the threshold 1e-12 on the determinant of the contraction, u1 >> u2 of two Gaussian unitaries on the same modes is a Gaussian unitary: its symplectic matrix is u2.symplectic times u1.symplectic, its displacement is S2 d1 + d2, and its normalisation is that of a unitary.",
"C54": "Channel.from_XY(X1, Y1) >> Channel.from_XY(X2, Y2) == Channel.from_XY(X2 X1, X2 Y1 X2^T + Y2), including b and the normalisation c, exactly when the determinant of the contraction exceeds 1e-12; otherwise the result is infinite.",
"C55": "Channel.from_XY(X, Y) maps the state with covariance S and means mu to the state with covariance X S X^T + Y and means X mu and preserves the trace, and states built from a covariance matrix and means have probability one, above the threshold 1e-12 on the determinants. Below it they do not: a thermal state with a million photons has infinite probability. With a displacement d the means move to X mu + d but b has the wrong sign on the input, so the trace is not preserved, and a NumPy array d raises ValueError.",
"C56": "Calling a PolyExpAnsatz with all its variables at scalar points returns, at every batch position, the function exp(z.A.z/2 + b.z) times the polynomial given by the coefficients c divided by sqrt(d!) and the derived variables (summed over the terms of a linear superposition); evaluating only some variables (__call__ with None, eval) returns an ansatz whose value at the remaining ones is the value of the original at the whole point; eval with too many points and __call__ with too many non-None points raise ValueError. The class documentation omits the factor 1/sqrt(d!), and superfluous None arguments are accepted.",
"C59": "Above the threshold 1e-12 on the determinants of the contractions the named states are the named gates applied to the vacuum (Coherent = Vacuum >> Dgate, SqueezedVacuum = Vacuum >> Sgate, DisplacedSqueezed = Vacuum >> Sgate >> Dgate, TwoModeSqueezedVacuum = Vacuum >> S2gate, GKet(S) = Vacuum >> Ggate(S), as triples), every circuit of Gaussian unitaries on the vacuum has probability 1, and ket.dm() has the probability of ket and purity 1. Below the threshold 28 modes squeezed by 9.5 dB have infinite probability, and 14 such modes have probability 1 but infinite purity.",
"C76": 'The fidelity of two Gaussian states computed from their means and covariance matrices, and that of two Fock density matrices, are the Uhlmann fidelity wherever that has a closed form: for two states that are thermal in one symplectic frame and displaced with respect to each other it is the square of the Bhattacharyya coefficient of their photon number distributions times a Gaussian of the displacement; when one of the two is pure it is the overlap <psi|rho|psi> whatever the other; for Fock matrices with the same eigenvectors it is the squared Bhattacharyya coefficient of the spectra, and for a pure state <psi|B|psi>. It is symmetric, unchanged when the same Gaussian unitary (or, for Fock matrices, the same basis change or transposition) acts on both states, lies in (0, 1] and is 1 for a physical state with itself (for Fock matrices the square of the trace). The deviation: math.sqrtm of the numpy backend replaces a matrix whose entries are all at most 1e-8 by zero, so for a nearly pure Gaussian state the computed fidelity with itself is below 1 - 1e-5.',
}
