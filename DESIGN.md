# Formal model of XanaduAI/MrMustard in Rocq (Coq 8.16.1)

The code is *not run*; the tie between code and model is reading. Every definition of the model cites the file and lines of
`/repo` it models and says what is simplified (`tools/cites.py` checks the citations, `tools/coverage.py` lists the functions that no
citation covers). The statement of a property uses a small specification of its own (Taylor coefficients, sums over indices,
represented functions, positive definiteness, derivatives) and not the model's helpers. Where the code violates what a user
would expect, `properties.jsonl` says what the code does instead, and there is a `_refuted` theorem with a concrete witness beside the
strongest positive theorem that does hold. Each property has an example theorem (or concrete witness) that meets its hypotheses.

This file is written by `tools/design.py` (head: `tools/design_head.md`, methods: `tools/methods.py`).

## Modelling conventions

* **Numbers.** Floating point is modelled by exact arithmetic: integers, Coq's reals, complex numbers (Coquelicot's `C`), or an arbitrary
  commutative ring / field with square roots of the naturals (`RootField.v`; `C` is an instance, `ComplexRF.v`). Tolerances and thresholds that
  change results (1e-12 on determinants, ATOL, allclose, tol of the displacement gate) are modelled as such.
* **Arrays** are functions on (multi-)indices with a shape; matrices of complex numbers are mathcomp matrices over `C` (`CMat.v`). Numba code does not
  check bounds: a read outside an array returns an arbitrary value `junk`, so a theorem that holds for every `junk` shows that no such read matters.
* **Exceptions** are `Err ValueError` etc. of `result` (`Base.v`). Python exceptions inside NumPy are modelled when the code can reach them.
* **State** (settings, caches, parameter sets, files, random generators, the optimizer) is a record; programs are histories of calls.
* **External code** is given by its contract and never by an axiom: numpy.linalg eig/eigh/inv/det, Generator.choice, opt_einsum's paths, adamw, zip/npz/JSON containers.

## Trusted base

The kernel of Coq 8.16.1 (`coqchk` is run by the gate); the axioms listed at the end of this file, all from the standard library
(`ClassicalDedekindReals.sig_forall_dec`, `sig_not_dec` and functional extensionality come with Coq's reals, `classic` with Coquelicot,
`constructive_indefinite_description` with `Epsilon`-based choice where the complex numbers are made a mathcomp field); that the definitions transcribe the cited
code; that exact arithmetic is what the code approximates. No axioms of our own, no module types or functors, no disabled checks.

## Not modelled

Rounding; JAX tracing, jit and automatic differentiation (only the hand-written custom VJPs are modelled); plotting, widgets, progress bars, logging; operating
system failures; the thin wrappers of `math/backend_*.py` around NumPy/JAX primitives (they are read as the mathematical operation they name);
batch dimensions where the comment of a definition says "one batch element".

## Files (rocq/theories)

| file | content | theorems of |
|---|---|---|
| Base.v | Small common toolbox: results with Python exceptions, stable insertion sort, list facts. Nothing in this file models a specific function of /repo except where cited. |  |
| Wires.v | Model of mrmustard/physics/wires.py (all of class QuantumWire, ClassicalWire, Wires except the display code). Modes are integers (Z). A Python set of wires is a list without repetitions, in an arbitrary iteration order. |  |
| WiresSpec.v | Specification vocabulary for wires, independent of the model's helpers: a wire is observed through its mode, direction and side; "standard order" is stated as in the documentation of the class (wires.py:242-244): bra_out, bra_i... |  |
| WiresLemmas.v | ** orders |  |
| WiresMatmul.v | the surviving wires themselves |  |
| WiresLabels.v | ** pairing of contracted indices |  |
| WiresProps.v | Claims C01-C04 about Wires (statements use only WiresSpec's vocabulary), with examples and counterexamples. | C01, C02, C03, C04 |
| WiresAdj.v | Claims C05 (wires part) and C06. | C05, C06 |
| Tensor.v | Finite arrays, named sums and einsum. Entries are taken in an arbitrary commutative ring (exact arithmetic; the code uses complex floats). |  |
| Contract.v | Contraction of components in the Fock representation: claim C07. Model of mrmustard/lab/circuit_components.py (CircuitComponent.contract, core axes) and mrmustard/physics/ansatz/array_ansatz.py (ArrayAnsatz.contract). Batch axe... |  |
| ContractAssoc.v | Claim C07 and associativity of the contraction of components (used by C09). | C07 |
| CompAdj.v | Claim C05 (components): adjoint and dual of a component. Model of mrmustard/lab/circuit_components.py:83-135 and array_ansatz.py:97-100,272-274. | C05 |
| RShift.v | Claim C08: the >> operator. Model of mrmustard/lab/circuit_components.py:957-1008 (components without a __custom_rrshift__ method; scalars and batch axes are not modelled). | C08 |
| ContractEx.v | Concrete objects meeting the hypotheses of C07 and C08 (and of C09, CircuitContract.v). |  |
| CircuitContract.v | Claim C09: Circuit.contract and the contraction path. Model of mrmustard/lab/circuits.py:77-128 (the constructor's default path and contract) on top of the model of >> (RShift.v). | C09 |
| CircuitEx.v | Concrete circuits for claim C09. | C09 |
| BranchBound.v | Claim C10: the contraction-path search. Model of mrmustard/path/branch_and_bound.py:49-172, 300-328, 330-420, 466-520. The search is first treated for an arbitrary transition system, then instantiated with the graphs. |  |
| PathGraph.v | Claims C10, C12: graphs of components, their contraction, and the path search on them. Model of mrmustard/path/branch_and_bound.py. Costs are exact natural numbers (int in the code). | C10 |
| Heuristics.v | Claim C12: pattern heuristics. Model of mrmustard/path/branch_and_bound.py:434-464 (reduce_first, heuristic) and path/optimize.py:57-62 (the patterns in use). | C12 |
| FockShapes.v | Claim C11: optimize_fock_shapes. Model of mrmustard/path/branch_and_bound.py:226-273. The shapes of the components are a list indexed by the node; the edges of the graph are replaced by the list of connected index pairs ((A,i),... | C11 |
| RootField.v | Exact-arithmetic model of the numbers of mrmustard/math/lattice (numpy complex128, and the table SQRT = np.sqrt(np.arange(100000)), lattice/strategies/vanilla/core.py:22, steps.py:34). A field of characteristic 0 with a square ... |  |
| Series.v | Specification: the Taylor coefficients of c * exp(z.A.z/2 + b.z), independent of any recursion of the code. A power series in D variables is the function giving its coefficient at every multi-index (list of D naturals). |  |
| Vanilla.v | mrmustard/math/lattice/strategies/vanilla/core.py and batch.py |  |
| ComplexRF.v | The complex numbers as an instance of the number structure used by the lattice theorems. |  |
| VanillaProps.v | C19, C20, C22: the vanilla Fock strategies | C19, C20, C22 |
| Gradients.v | mrmustard/math/lattice/strategies/vanilla/gradients.py: vanilla_vjp_numba is the exact derivative of the amplitudes |  |
| GradProps.v | C21: the vector-Jacobian products of the amplitudes are exact derivatives | C21 |
| Steps.v | mrmustard/math/lattice: pivots.py, neighbors.py, paths.py, steps.py. Tuples of integers are lists of Z where a component may become -1 (lower neighbours) and lists of nat otherwise. | C24, C28 |
| Binomial.v | mrmustard/math/lattice/strategies/binomial.py and steps.py:209-266: filling a Fock array (or dictionary) by total photon number. Simplifications: exact numbers (RootField); the squared modulus is an arbitrary function [abs2] an... |  |
| BinomialProps.v | C24 (binomial strategies) and C28 (visiting order of the array strategies) | C24, C28 |
| Beamsplitter.v | mrmustard/math/lattice/strategies/beamsplitter.py. A rank-4 array is a function of four indices; an index -1 wraps to the last entry of its axis (numpy). The numbers ct = cos(theta), st = sin(theta) exp(i phi), stc = conj(st) a... |  |
| BeamsplitterProps.v | C25: beam-splitter strategies | C25 |
| RealDer.v | Differentiation of complex functions of a real parameter satisfies the rules of [diff_rules]. |  |
| GateLattice.v | mrmustard/math/lattice/strategies/squeezer.py and displacement.py. A matrix is a function of two indices; index -1 wraps to the last entry of its axis. Numbers: any rootfield; exp/log/cosh of the parameters enter as field eleme... |  |
| GateProps.v | C27: the dedicated recurrences of the displacement and squeezing gates | C27 |
| FastDiagonal.v | mrmustard/math/lattice/strategies/fast_diagonal.py |  |
| FastDiagonalProps.v | C26: conditional density matrices by the fast diagonal strategy | C26 |
| Autoshape.v | mrmustard/math/lattice/autoshape.py | C23 |
| Argsort.v | mrmustard/utils/argsort.py | C29 |
| Simplify.v | mrmustard/physics/ansatz/polyexp_ansatz.py: _order_batch, simplify, _find_unique_terms_sorted, __eq__ | C30, C51 |
| BatchStr.v | mrmustard/physics/utils.py: the einsum-like batch strings | C33 |
| Pairing.v | mrmustard/physics/ansatz/polyexp_ansatz.py:306-413 PolyExpAnsatz.contract: which variables are integrated together, and the labels of the result | C31 |
| Settings.v | The global settings object and its context manager: mrmustard/utils/settings.py. C36. | C36 |
| ParamSet.v | Parameter sets: mrmustard/math/parameter_set.py. C35. | C35 |
| Cache.v | Cached functions: mrmustard/math/caching.py (tensor_int_cache), physics/fock_utils.py:80,124,152,176 and math/backend_manager.py:1589-1633 (functools.lru_cache). C37. | C37 |
| Samplers.v | Samplers: mrmustard/lab/samplers.py. C39. | C39 |
| CMat.v | Coquelicot's complex numbers as a mathcomp field, so that 'M[C]_n, determinants, block matrices and their lemmas are available for complex matrices. Nothing here models code of /repo. Uses the standard library's ClassicalEpsilo... |  |
| Expm.v | The matrix exponential of complex matrices of any size, as the (entrywise convergent) power series, and the identities used for the optimizer. It is the contract of math.expm (jax.scipy.linalg.expm), which the code calls and do... |  |
| Optimizer.v | The optimizer: mrmustard/training/optimizer.py, mrmustard/training/parameter_update.py, and the gradient conversions of mrmustard/math/backend_manager.py:1627-1679. C38 and C49. | C38, C49 |
| ArrayOps.v | Operations on Fock arrays: claims C32 and C52, and the trace used by C15. Model of mrmustard/physics/ansatz/array_ansatz.py (reduce, reorder, reorder_batch, trace, __add__, __and__, __eq__). Entries are in an arbitrary commutat... | C32, C52 |
| LabMisc.v | Density matrices in the Fock representation: partial trace (C15), phase noise (C14), photon-number distribution (C16). Model of mrmustard/lab/states/dm.py (__getitem__, probability), mrmustard/lab/circuit_components_utils/trace... | C15 |
| LabGates.v | Constructors of transformations (C13), phase noise (C14), photon-number distributions (C16), two-mode gates (C17), random density matrices (C18). | C13, C14, C16, C17, C18 |
| GaussInt.v | Complex and real Gaussian integrals: mrmustard/physics/gaussian_integrals.py. C40. Modelled: the index bookkeeping, the quadratic form M, the determinant, A_post, b_post and the exponent, for one batch element and over an arbit... | C40 |
| Serialize.v | Saving and loading circuits: mrmustard/utils/serialize.py, Circuit.serialize/deserialize (lab/circuits.py:86-99, 268-282), CircuitComponent._serialize/_deserialize (lab/circuit_components.py:308-328, 818-845), ansatz to_dict/fr... | C34 |
| MMEinsum.v | mm_einsum: contraction of a network along a path. Claim C47. Model of mrmustard/physics/mm_einsum.py (mm_einsum, get_shapes, prepare_idx_out, to_fock, ua_to_linear). Labels are numbered; [isstr] tells which labels are strings (... | C47 |
| GammaPS.v | The change of variables of the polynomial part of a density matrix from Bargmann to phase space: claim C48. Model of mrmustard/physics/fock_utils.py:277-317 (c_ps_matrix, gamma_matrix, c_in_PS). Exact complex arithmetic. | C48 |
| CExp.v | Complex exponential and principal square root, as numpy computes them in exact arithmetic (numpy.exp, numpy.sqrt on complex128; numpy.sqrt also looks at the sign of a zero imaginary part, which exact arithmetic does not have: a... |  |
| GateSym.v | Symplectic matrices of gates: claim C43. Model of mrmustard/physics/symplectics.py, one batch element, exact arithmetic, real parameters. | C43 |
| BargSym.v | Bargmann triples of Gaussian unitaries and their symplectic matrices: claim C44 (unitaries) and C43 (gates given by their triples). Model of mrmustard/physics/bargmann_utils.py:109-173 (au2Symplectic, symplectic2Au) and of Unit... | C43, C44 |
| Compose.v | Composition of Gaussian unitaries: claim C53 (the symplectic matrix of u1 >> u2 is the product), and Unitary.inverse (C50). Model of the contraction of two triples (mrmustard/physics/gaussian_integrals.py:353-390 and 413-557, t... | C42, C50, C53 |
| GateTriples.v | The Bargmann triples of the gates: claims C43 (their symplectic matrices) and C42 (composition laws of gates). Model of mrmustard/physics/triples.py:393-569. One batch element, exact arithmetic. then_ is the contraction t1 >> t... | C42, C43, C53 |
| ChanAlg.v | Algebra of the contraction of two triples along a set of k pairs of variables, for any numbers of remaining variables: the general form of Compose.then_. Model of mrmustard/physics/gaussian_integrals.py:353-401 and 473-505; use... |  |
| PosDef.v | Positive (semi)definite Hermitian matrices over C: the linear algebra needed for the physicality tests of channels and states. Nothing here models code of /repo. |  |
| ChanHat.v | Gaussian channels in the quadrature basis: composition, algebraically. Used by Channels.v; nothing here models code of /repo by itself. |  |
| Channels.v | Gaussian channels: Channel.from_XY, Channel.XY, composition, action on states and trace preservation. Claims C44 (channels), C42 (channels) and C54, C55. Model of mrmustard/physics/triples.py:938-1005 (XY_to_channel_Abc), mrmus... | C44 |
| ChanLaws.v | Gaussian channels: composition, action on Gaussian states, trace preservation, attenuators, amplifiers and random noise. Claims C54, C55 and C42 (channels). Model of mrmustard/physics/triples.py:597-676 (attenuator_Abc, amplifi... | C42, C54, C55 |
| ChanPhys.v | The physicality tests of Gaussian channels and density matrices. Claim C45. Model of mrmustard/lab/transformations/base.py:376-457 (Channel.is_CP, is_TP, is_physical) and mrmustard/lab/states/dm.py:53-100 (DM.is_positive), for ... | C45 |
| Stellar.v | Stellar decompositions of Gaussian kets: claim C46. Model of mrmustard/lab/states/ket.py:341-519 (formal_stellar_decomposition, physical_stellar_decomposition), one batch element, no derived variables. | C46 |
| StellarFock.v | C46, the Fock side: a core state has no more photons in its core modes than in the others. The amplitudes are those computed by the code (Vanilla.v: math.hermite_renormalized, fock/lattice/strategies/vanilla/core.py). | C46 |
| TransInv.v | Transformation.inverse for Gaussian transformations that need not be unitary: claim C50. Model of mrmustard/lab/transformations/base.py:127-192. | C50 |
| Prefactor.v | The scalar of a Gaussian contraction, integrated jointly or pair by pair: claim C41. Model of the prefactor of complex_gaussian_integral_1 (physics/gaussian_integrals.py:353-401) on top of GaussInt.v. | C41 |
| HermAlg.v | Algebra of the amplitudes [amp] (Series.v), the values of math.hermite_renormalized: uniqueness of the recurrence, block-diagonal A, and the expansion in the linear part. Used by PolyExp.v. |  |
| PolyExp.v | C56: evaluation of PolyExpAnsatz (mrmustard/physics/ansatz/polyexp_ansatz.py). Numbers: any field of characteristic 0 with roots of the naturals (RootField.v) and an exponential function [ex]; C56_complex instantiates the compl... | C56 |
| PolyExpOps.v | C57: operations on one PolyExpAnsatz (polyexp_ansatz.py): reorder, multiplication by a number, negation, conjugation, the scalar part, decompose_ansatz. Same numbers and simplifications as PolyExp.v. | C57 |
| PolyExpJoin.v | C58: products of Bargmann ansatze: join_Abc (mrmustard/physics/gaussian_integrals.py:159-350) and PolyExpAnsatz.__and__ (mrmustard/physics/ansatz/polyexp_ansatz.py:894-919). Numbers and ansatze as in PolyExp.v; batch strings as... | C58 |
| States.v | Pure Gaussian states: the named states are the named gates applied to the vacuum, circuits of Gaussian unitaries keep the norm of the vacuum, and a ket and its density matrix have the same probability. Claim C59. Model of mrmus... | C59 |
| KetPhys.v | The physicality tests of kets and density matrices. Claim C60. Model of mrmustard/lab/states/ket.py:50-88 (Ket.is_physical) and mrmustard/lab/states/dm.py:89-99 (DM.is_physical), for one Gaussian term without derived variables ... | C60 |
| PolyExpAdd.v | C61: sums of PolyExpAnsatz (polyexp_ansatz.py, __add__; base.py, __sub__), over the same numbers as PolyExp.v. | C61 |
| Wigner.v | C62: the discretized Wigner function (mrmustard/physics/wigner.py), at one point (q, p) of the grid; numpy evaluates the same formulas entry by entry. Numbers are exact reals and complex numbers; x ** -0.5 is 1 / sqrt x. | C62 |
| PhaseSpace.v | C63: the phase space parametrization of Gaussian states (covariance, means, coefficient). Model of State.phase_space (lab/states/base.py:502-521), DM.from_phase_space (lab/states/dm.py:144-188), Ket.from_phase_space (lab/states... | C63 |
| CompactDiag.v | C64: PNR probabilities (diagonal of the Fock representation) by the compact recursion. Model of mrmustard/math/lattice/strategies/compactFock/diagonal_amps.py and helperFunctions.py, and of the entry points BackendNumpy.hermite... | C64 |
| CompactLeftover.v | C65, C66: the compact recursion with one undetected mode, and the gradients of both compact recursions. Model of mrmustard/math/lattice/strategies/compactFock/singleLeftoverMode_amps.py, diagonal_grad.py, singleLeftoverMode_gra... |  |
| CompactProps.v | C65, C66: entry points of the compact recursions with one undetected mode and of the gradients, and their properties | C65, C66 |
| GateGrad.v | C67: gradients of the Fock matrices of the squeezing gate, the squeezed vacuum, the beamsplitter and the displacement gate with respect to their parameters (math/lattice/strategies/squeezer.py, beamsplitter.py, displacement.py;... | C67 |
| Schwinger.v | C25, C68: the Schwinger-boson strategies of the beam splitter (math/lattice/strategies/beamsplitter.py:244-382): the blocks V exp(E) V^H of fixed photon number are the amplitudes of the gate. | C25 |
| ApplyBS.v | C68: apply_BS_schwinger (math/lattice/strategies/beamsplitter.py:291-382) acts on two axes of an array as the beam-splitter gate. | C68 |
| Expect.v | Expectation values of Fock states: claim C69. Model of mrmustard/lab/states/ket.py (expectation, fidelity), mrmustard/lab/states/dm.py (expectation, fidelity with a ket), mrmustard/lab/states/base.py (_validate_operator) and of... |  |
| ExpectProps.v | Claim C69: expectation values and fidelities, in terms of traces (specification in Expect.v: ket_on, dm_on, unitary_on, ket_amp, dm_elem, op_elem, over_modes, tr_product). | C69 |
| Norms.v | Norms, probabilities, purities, normalisation and Ket.dm: claim C70. Model of mrmustard/lab/states/base.py (L2_norm, normalize), ket.py (probability, purity, dm) and dm.py (probability, purity) for Fock components without batch... | C70 |
| QuadLabels.v | The einsum behind CircuitComponent.quadrature for Fock components: claim C71 (index bookkeeping). Model of mrmustard/lab/circuit_components.py:590-626, unbatched. |  |
| QuadWave.v | The quadrature wave functions of mrmustard/physics/fock_utils.py and of the quadrature triples: claim C71. | C71 |
| QuadProps.v | Quadrature representation of Fock components and quadrature distributions: claim C71. Model of mrmustard/lab/circuit_components.py:576-637 (Fock branch) and mrmustard/lab/states/base.py:539-558, unbatched. | C71 |
| TraceDecay.v | Support for claim C72: Fock amplitudes of a Gaussian decay geometrically along a pair of axes, and sums of such sequences. |  |
| TraceScalar.v | Support for claim C72: the sum of the diagonal amplitudes of a two-variable Gaussian is its Gaussian integral. |  |
| TraceSpect.v | Support for claim C72: summing a pair of axes of the amplitudes of a Gaussian in any number of variables. |  |
| TraceMx.v | Support for claim C72: the parameters returned by complex_gaussian_integral_1 for one pair of variables, in closed form. |  |
| TraceProps.v | Claim C72: summing a pair of photon-number axes converges to the Gaussian integral over the two Bargmann variables. The Fock side is the array of math/lattice/strategies/vanilla (Vanilla.v, claim C19) and the index sum of math.... | C72 |
| CompSum.v | C73: the sum of two parametrised components (Coherent + Coherent, Dgate + Dgate, ...) |  |
| CompSumProps.v | C73: sums of parametrised components | C73 |
| StellarDM.v | Physical stellar decomposition of Gaussian density matrices: claim C74. Model of mrmustard/lab/states/dm.py:524-652 (physical_stellar_decomposition), one batch element, no derived variables. A density matrix on M + n modes is a... | C74 |
| StellarMixed.v | Physical stellar decomposition of Gaussian density matrices into a mixed core and a channel: claim C75. Model of mrmustard/lab/states/dm.py:654-799 (physical_stellar_decomposition_mixed), one batch element, no derived variables... | C75 |
| Fidelity.v | Fidelity of Gaussian and of Fock density matrices: claim C76. Model of mrmustard/physics/gaussian.py:96-146 (fidelity) and mrmustard/physics/fock_utils.py:72-77 (fidelity). | C76 |
| Overlap.v | Overlaps and fidelity of Gaussian density matrices: claim C77. Model of DM.expectation for a density matrix as operator (lab/states/dm.py:285-342: self.contract(operator.dual)) and of DM.fidelity between Gaussian density matric... | C77 |
| Entropy.v | Symplectic eigenvalues, von Neumann entropy, separability and photon numbers of Gaussian states: claim C78. Model of mrmustard/physics/gaussian.py:25-93 (number_means, symplectic_eigenvals, von_neumann_entropy) and of State.is_... | C78 |
| RingSeries.v | Power series needed for the ring of coherent states of Sauron.v (C79): the real and imaginary parts of exp(t e^{i phi}), and when cos is 1. |  |
| Sauron.v | Sauron states: a ring of n + 1 coherent states that approximates the Fock state n. Claim C79. Model of mrmustard/physics/triples.py:293-321 (sauron_state_Abc), of the state built from it in mrmustard/lab/states/sauron.py:57-72 ... | C79 |
| CircuitBuild.v | Claim C80: building circuits with >>, and Circuit.check_contraction compared with Circuit.contract. Model of mrmustard/lab/circuits.py:77-84 (constructor), :106-128 (contract, from CircuitContract.v), :222-243 (check_contractio... | C80 |
| Damping.v | The Fock damping operator e^(- beta n). Claim C81. Model of mrmustard/physics/triples.py:679-703 (fock_damping_Abc) and of mrmustard/lab/transformations/fockdamping.py:70-94 (FockDamping), one mode, one batch element; >> is the... | C81 |
| Kraus.v | The Kraus family of the attenuator. Claim C82. Model of mrmustard/physics/triples.py:902-935 (attenuator_kraus_Abc), one batch element, exact arithmetic; the contraction of the bond with the conjugate family is the one of ChanA... | C82 |

## Properties: what is modelled and how it is proved

* **C01 Standard order and indices of Wires** (proved; WiresProps.v). wires are records (mode : Z, output, ket/bra/classical tag, index, representation, id); the constructor, `sorted` (insertion sort on the `_order` key) and `args` are modelled; the order is compared with an independent 'group, then mode' specification; induction on lists. Proved for every mode set whose modes lie within 20000 of each other; the unrestricted claim is false of the code (C01_refuted_far_modes: indices come out as (1,0)).
* **C02 Composition of Wires** (proved; WiresProps.v). `__matmul__` on the same records, with the exceptions it raises; outputs and inputs compared as sets, the permutation by position; induction on lists. Full claim proved for objects whose result has no quantum and classical wire on the same mode and direction; otherwise the code raises AttributeError (C02_refuted_classical). Hypothesis: equal wires of the operands carry the same representation tag, ids are distinct.
* **C03 Contraction labels** (proved; WiresProps.v). `contracted_labels` transcribed; labels compared with the wires consumed by `@`. Proved for quantum wires; joined classical wires are consumed by @ but get different labels (C03_refuted_classical).
* **C04 Associativity of wire composition** (proved; WiresProps.v). equality of wire sets from C02 for both bracketings; witness where only one is defined. When both bracketings are defined they are equal; definedness is equivalent when the middle object has inputs and outputs on the same wires; in general definedness is not associative (C04_refuted), so the literal claim is false of the code.
* **C05 Adjoint and dual of Wires and components** (proved; CompAdj.v, WiresAdj.v). adjoint and dual of wires and of Fock components, entrywise; involution and exchange of ket and bra. Wires and (Fock-array) component level. Hypotheses: distinct wires, no classical wires, modes within 20000 of each other.
* **C06 Overlap detection of Wires addition** (proved; WiresAdj.v). sets of wires carry their stored hashes; `+` compares hashes. Proved for sets with up-to-date hashes and equal representation tags; false of the code after adjoint/dual (stale stored hashes) and for different tags.
* **C07 Contraction of Fock components** (proved; ContractAssoc.v). Fock arrays are functions on multi-indices over any commutative ring plus a shape; einsum is the nested sum; contraction of components is the sum over consumed wires. Every contraction of two Fock-array components; also associativity of the contraction rule. Hypotheses: no classical wires, modes within 20000 of each other, fresh wire ids.
* **C08 Adjoint insertion by >>** (proved; RShift.v). decision table of `>>` over the sixteen presence flags and mode sets; case analysis. Components without __custom_rrshift__; scalars and batch axes not modelled.
* **C09 Contraction order of circuits** (proved; CircuitContract.v, CircuitEx.v). circuits are lists of components; associativity of contraction (ContractAssoc) gives that every neighbour path equals the default path, by induction on the path. Proved for every path that joins neighbours, on circuits whose components are all one-sided or all two-sided, where consecutive components on a line meet (output to input) and no proper block closes to a scalar. False of the code for paths that skip a component (C09_refuted_skipping_path) and when a block closes to a scalar (C09_refuted_scalar).
* **C10 Optimal path search** (proved; PathGraph.v). graphs as edge lists, the search as a fuelled queue loop with arbitrary delivery order and random choices; invariant: queue and best cover every completion. The search terminates and, whenever it returns, returns a cheapest full contraction, for every random first solution, every initial candidate list and every queue order. False of the code: the returned path may skip a component (C10_refuted_skipping_path) and the search can crash on a disconnected/fused graph (C10_refuted_crash).
* **C11 Fock-shape optimisation** (proved; FockShapes.v). the fixed-point loop of `optimize_fock_shapes`; monotonicity and termination by a decreasing measure. The iteration terminates and returns the largest consistent assignment below the initial shapes. Hypotheses: positive shapes and beam splitters with four indices.
* **C12 Heuristic pre-contraction in the path search** (proved; Heuristics.v). pattern codes and ansatz names as strings; the loop over edges. The reduction rules are sound where they apply, but their name test never matches the ansatz names the code stores, so they never fire (C12_refuted_never_fires).
* **C13 Wires of transformation constructors** (proved; LabGates.v). constructors as functions from mode lists to wires. All mode lists. from_ansatz/from_bargmann are proved; from_fock exchanges the two mode lists (C13_from_fock_actual, C13_refuted_from_fock), so the claim holds for it only when they agree.
* **C14 Phase noise acts on its own mode and leaves its input intact** (proved; LabGates.v). the in-place einsum on a batch of Fock matrices, returning also the changed input. The code applies the noise to axes given by the mode number and writes into its input; proved where the modes are 0..n-1, refuted otherwise.
* **C15 Partial trace** (proved; LabMisc.v). `__getitem__`, `TraceOut`, `probability` on Fock density matrices; partial trace specified as a diagonal sum. All Fock density matrices, all mode subsets. Keeping every mode raises (C15_refuted_keep_all); trace_out is proved when the two Python sets are iterated in the same order (C15_refuted_set_order).
* **C16 Fock distribution order** (proved; LabGates.v). the three branches of `fock_distribution` with their reshapes (ravel of multi-indices). Kets and general density matrices are proved; the separable branch lists photon numbers in reversed mode order.
* **C17 Mode argument order of two-mode gates** (proved; LabGates.v). the symplectic matrix assembled by the constructor. Holds for increasing pairs; BSgate silently ignores the order of a decreasing pair and CXgate rejects it.
* **C18 Random density matrices** (proved; LabGates.v). mode bookkeeping of `DM.random`. Holds when the number of ancillas equals the number of modes; every other explicit m raises.
* **C19 Bargmann to Fock amplitudes are Taylor coefficients** (proved; VanillaProps.v). amplitudes over any field of characteristic zero with roots of the naturals; specification: Taylor coefficients of c exp(zAz/2+bz); induction on the order of the multi-index. Exact arithmetic over any field of characteristic 0 with square roots of naturals (instance: complex numbers, C19_complex); positive shapes, symmetric A; any content of the `out` array.
* **C20 Agreement of the Fock strategies** (proved; VanillaProps.v). the batched loops equal the unbatched ones entry by entry. Exact arithmetic; positive shapes, symmetric A. vanilla_step is covered by C24/C28 theorems.
* **C21 Gradient formulas of the amplitudes** (proved; GradProps.v). derivations (any rules of differentiation) applied to the specification; induction; instance: complex derivative. For every differentiable change of symmetric A, b, c (c nonzero) and any loss weights; C21_complex instantiates complex differentiation (Coquelicot is_derive).
* **C22 Cutoff independence** (proved; VanillaProps.v). stability strategy: averaging over pivots gives the same amplitudes. Fast and stable strategies.
* **C23 autoshape bounds** (proved; Autoshape.v). the loop of `autoshape` with its two buffers. Bounds, termination and first-stop minimality for every input; that the accumulated sum is the photon-number probability for states without displacement and for real states; false of the code for displaced complex states (C23_refuted: buf2 is multiplied with its two entries exchanged). The single-mode triples (numpy.linalg) are given.
* **C24 Binomial subspace enumeration** (proved; BinomialProps.v, Steps.v). filling by total photon number; the L2 stop. Every store (array, dict), schedule, cache and stopping rule. The documented default of binomial_dict/binomial_numba (sum-len instead of sum-len+1) is refuted: the top pattern is never computed.
* **C25 Beam-splitter Fock matrices** (proved; BeamsplitterProps.v, Schwinger.v). the loops of the three strategies on functions of four indices; the Schwinger blocks by uniqueness of the solution of the linear differential equation in theta, with numpy's eig given by its contract. stable_beamsplitter: every shape, every angle. beamsplitter: shapes with P <= N or M <= 1; false of the code otherwise (C25_refuted_wide_input: entries (m,n,m+n,0) with m+n >= N are never computed). Schwinger (C25_schwinger): equal to the stable strategy for square shapes, numpy.linalg.eig given by its contract, which C25_eig_exists shows can be met for all photon numbers and angles; for the other documented shapes IndexError or missing entries.
* **C26 Conditional (fast diagonal) amplitudes** (proved; FastDiagonalProps.v). the loops over pivots and weights of `fast_diagonal`. Correct for every shape with 2*output_cutoff greater than the number of modes (the weight loop then reaches every entry); otherwise the loop stops early and entries stay 0 (C26_refuted_small_cutoff).
* **C27 Specialised gate recursions** (proved; GateProps.v). the dedicated recurrences of displacement, squeezer and squeezed vacuum against the Bargmann recursion; Jacobians as derivatives. squeezer, squeezed, displacement, jacobian_displacement for every rectangular shape and every parameter, equal to the Bargmann recursion on the gate's triple; for 0 < |alpha| <= tol math.displacement returns the identity by design (C27_displacement_zero covers alpha = 0). Exponentials of sums of logarithms are modelled by products.
* **C28 Lattice helpers** (proved; BinomialProps.v, Steps.v). visiting orders of the strategies: every neighbour read has been written. All index tuples, all shapes.
* **C29 Ordering of batches** (proved; Argsort.v). the generator-based sort as a permutation algorithm. Every finite collection of finite rows over any totally ordered values (C29_integers instantiates integers); rows that contain infinity are returned in the wrong order (C29_refuted_infinity).
* **C30 Simplification of linear superpositions** (proved; Simplify.v). sorting and merging of terms; the represented function as a sum over terms. Exact comparison of A and b: same function, no duplicate pair left. With the code's tolerance the represented function changes (C30_refuted_tolerance).
* **C31 Pairing of contracted variables** (proved; Pairing.v). index bookkeeping of `contract`. The exact pairing computed for every label list; it pairs equal labels iff the shared labels appear in the same order in both operands, which holds for every contraction of components (C31_components); otherwise variables with different labels are integrated together (C31_refuted).
* **C32 Reduction and padding of Fock arrays** (proved; ArrayOps.v). `reduce` on arrays (padding and slicing). All arrays and shapes; a shape larger in one direction and smaller in another is rejected (C32_refuted_mixed), so the claim holds for comparable shapes only.
* **C33 Batch strings** (proved; BatchStr.v). batch strings as lists of characters. Strings for all ranks; reshape of arguments for the orders the code produces; other orders are reshaped without a transpose (C33_refuted_order), evaluation without arguments raises (C33_refuted_no_args).
* **C34 Serialisation round trip** (proved; Serialize.v). components as records, files as a finite map from names; save and load as transitions; induction over histories. Every non-empty circuit of plain abstract components and of built-in components as their constructors build them, every later history of saves and loads under other names, both values of remove_after, backend mismatch. Not for: linear superpositions (flag not saved), trainable components whose constructor has no bounds argument, built-ins converted with to_fock, the empty circuit, re-use of a file name, user keys named backend (the C34_refuted theorems). Zip, npz and JSON encodings are modelled as lossless containers.
* **C35 Parameter sets** (proved; ParamSet.v). parameter sets as three dictionaries; induction over histories of additions. Every history of additions with names other than the three internal field names (a parameter called _names makes the set unusable, C35_refuted_reserved); slices keep names, kinds and gathered values, but not the order of names when a variable precedes a constant (C35_refuted_order).
* **C36 Scoped settings** (proved; Settings.v). settings and the context manager as a small imperative language with exceptions; induction on programs. Every body (assignments, exceptions, try) that does not itself evaluate settings(...); the exact effect of nested blocks is C36_nested_actual, and it does not restore the outer settings (C36_refuted_nested); a setter failing in the call and the random generator are not restored either.
* **C37 Transparent caching** (proved; Cache.v). least-recently-used cache with aliasing; induction over histories. Every history of calls and settings changes for functions whose value does not depend on the settings used; false for oscillator_eigenstate, which reads HBAR (C37_refuted_hbar), and after in-place changes of a returned array (C37_refuted_aliasing).
* **C38 Optimizer stops and stays on the manifold** (proved; Optimizer.v). matrix exponential as a power series; unitarity, orthogonality and symplecticity of each update; induction over steps. Exact arithmetic; all sizes, cost functions, gradients, learning rates; expm is the power series (Expm.v). Gradients of real (symplectic) parameters are assumed real.
* **C39 Samplers** (proved; Samplers.v). sampling mode by mode with an abstract generator; the product of conditionals telescopes. Shape, support and distribution for all states, counts and generators (numpy's Generator.choice by contract); the seed claim holds for one mode and nonzero seeds only (C39_refuted_seed_two_modes, C39_refuted_seed_zero).
* **C40 Gaussian integrals compose** (proved; GaussInt.v). complex Gaussian integrals by completing the square over 'M[C]; the closed form satisfies the integral's characterisation. Arbitrary field (exact arithmetic), any number of variables and pairs, any measure exponent: the result is the stationary value of the exponent, and successive integrations compose, with determinants multiplying and exponents adding. One batch element; nonnegative indices. The scalar prefactor is C41.
* **C41 Prefactor of Gaussian contractions** (proved; Prefactor.v). Schur complements; principal square root of complex numbers modelled exactly. Any triple (with derived variables) and any two disjoint groups of variable pairs: A and b agree, c agrees up to its sign, and agrees exactly when the product of the two principal roots is a principal root (in particular when both ratios (-1)^m / det M lie in the right half plane). The literal claim is false: the overlap of three-fold products of normalisable squeezed states computed in one contraction is proved to be minus the value obtained mode by mode. Signed zeros, the exp/log round trip on c = 0 and rounding are not modelled.
* **C42 Composition laws of gates and channels** (proved; ChanLaws.v, Compose.v, GateTriples.v). block matrix algebra over C on the triples of the code. Gates: rotations, beamsplitters and squeezers along one axis add their parameters, displacements add with their phase (any number of modes), passive gates multiply, the identity is neutral for every triple; A, b and c exactly. Channels: attenuators multiply transmissivities, amplifiers multiply gains, random noises add, coherent states are attenuated, and every channel without displacement preserves the trace. Above the 1e-12 threshold on the determinant where the statement says so. A channel with displacement does not preserve the trace (C55_displaced_refuted).
* **C43 Symplectic matrices of gates** (proved; BargSym.v, GateSym.v, GateTriples.v). the symplectic matrices of the gates and of their triples; block matrix algebra. The matrices of symplectics.py and the symplectic matrices computed from the triples of the other gates (R, D, S, BS, S2) are real and symplectic, for all parameters and (interferometers) all numbers of modes.
* **C44 Bargmann <-> symplectic / XY conversions** (proved; BargSym.v, Channels.v). both directions of triple <-> symplectic, triple <-> (X, Y). Unitaries of any number of modes, both directions, without an invertibility hypothesis (it is proved). Channels of any number of modes, all real X and all Y for which the formula has a value, in particular all positive semidefinite Y.
* **C45 Physicality tests of channels and density matrices** (proved; ChanPhys.v). Hermitian positive (semi)definite matrices over C (PosDef), congruences. is_CP and is_positive: exact characterisation for all channels of from_XY and all Gaussian states, any number of modes, with the tolerance. is_TP: equivalent to preservation of the matrix of the trace for every Hermiticity preserving Gaussian map with equal numbers of modes when the inverses exist; false parts, proved: it raises LinAlgError on Attenuator(0) (which preserves the trace), ignores b and c, and cannot succeed when the numbers of input and output modes differ. Single Gaussian term, one batch element.
* **C46 Stellar decompositions** (proved; Stellar.v, StellarFock.v). block elimination; numpy's eigh by contract; Fock side by the recursion. Kets: all numbers of modes, all choices of core modes; the formal decomposition always reconstructs the ket (A, b, c), the physical one whenever it returns; the amplitudes of a core state with more photons in the core modes than elsewhere are zero (for the code's own recursion). Density matrices: the formal decomposition. False parts, proved: the physical decomposition raises LinAlgError whenever A is singular on the core modes (two-mode squeezed vacuum, vacuum), and with two or more core modes, a displacement and a complex gamma the returned U is not unitary (the code exchanges gamma^-1 and its transpose in b). Missing: the two physical decompositions of density matrices; numpy's eigh is specified, not modelled.
* **C47 mm_einsum equals the full contraction** (proved; MMEinsum.v). mm_einsum as iterated pair contraction; the full sum as specification; induction on the path. Every network of Fock arrays (any ranks, batch labels, Fock dimensions) and every linear or union path whose contractions join operands by an index: the result is the full sum, whatever the path. False or different for: operands without a common index (the result leaves the Fock representation), a single operand, a pair of equal positions. The Bargmann operations are opaque; SSA paths (converted by opt_einsum) are not modelled.
* **C48 Polynomial part of a density matrix in phase space** (proved; GammaPS.v). polynomials by coefficient arrays, binomial expansion. Exact complex arithmetic, every hbar, every array with as many rows as columns or one row: the result is the same polynomial. The claim is false for all other shapes, which is proved for every shape: with more rows than columns c_in_PS raises IndexError, with fewer (at least two rows) it returns another polynomial, because gamma_matrix multiplies the row number by c.shape[0] instead of c.shape[1].
* **C49 Parameter bounds** (proved; Optimizer.v). bounds as stored metadata of updated variables. False of the code: bounds are stored and kept but never enforced; C49_exact says exactly when a trajectory stays inside.
* **C50 Inverse of transformations** (proved; Compose.v, TransInv.v). inverse triples; principal root. Unitary.inverse for every Gaussian unitary with any displacement and number of modes: A, b and c of u >> u.inverse() and u.inverse() >> u are those of the identity, as long as |det M| exceeds the 1e-12 threshold of the code; below it (28 modes squeezed by 9.5 dB) the result is infinite, which is proved. Transformation.inverse for any symmetric Gaussian triple with as many inputs as outputs (operators and, with bra and ket variables taken together, channels): it returns exactly when A and its output-input block are invertible and raises LinAlgError otherwise; the result composes to the identity on both sides and its inverse is the original, above the same threshold and off the branch cut of the root; on the cut the composite is proved to be minus the identity, with a squeezed thermal density matrix used as an operator as witness. Signed zeros of floats are not modelled, so on the cut the code may return either sign.
* **C51 Equality of linear superpositions** (proved; Simplify.v). linear superpositions as lists of terms. Exact comparison, equal number of terms; with different numbers of terms numpy broadcasting can return True (C51_refuted_broadcast).
* **C52 Arithmetic, equality, tensor product and reordering of Fock arrays** (proved; ArrayOps.v). array operations on functions of multi-indices. Exact arithmetic, arbitrary commutative ring. Arrays with incomparable core shapes are rejected by + ; == is not transitive (it compares the common window only).
* **C53 Composition of Gaussian unitaries** (proved; Compose.v, GateTriples.v). composition of Bargmann triples of unitaries. All Gaussian unitaries with |det M| above the 1e-12 threshold of the code; below it the contraction returns infinities (C50_refuted).
* **C54 Composition of Gaussian channels** (proved; ChanLaws.v). composition of the triples of channels in the quadrature basis. All real X1, X2 and real positive semidefinite Y1, Y2, any number of modes: the composite is the channel of (X2 X1, X2 Y1 X2^T + Y2), A, b and c, exactly when the determinant exceeds the 1e-12 threshold of the code; otherwise the result is infinite. Channels without displacement, same modes in and out.
* **C55 Action of a Gaussian channel on states** (proved; ChanLaws.v). action of those triples on states given by (covariance, means). Gaussian states given by (covariance, means) of any number of modes. False parts, proved: with a non-zero displacement d the channel has the wrong sign of b on its input and does not preserve the trace (a NumPy array d raises ValueError); a thermal state with a million photons or more has infinite probability (determinant threshold).
* **C56 Evaluation of a Bargmann ansatz** (proved; PolyExp.v). evaluation with hermite polynomials, any batch; specification: exponential times polynomial. Scalar points (batched points are broadcast entry by entry, not modelled), explicit triples. False parts, proved: the class documentation omits the factor 1/sqrt(d!) of the derivatives; __call__ with extra None arguments does not complain.
* **C57 Operations on one Bargmann ansatz** (proved; PolyExpOps.v). reorder, scaling, conjugation, decompose as operations on the represented function. Any field of characteristic zero with roots of the naturals and any exponential; the complex numbers are an instance. Explicit triples; multiplication by a number (not by an array).
* **C58 Products of Bargmann ansatze** (proved; PolyExpJoin.v). products of ansatz represent products of functions. Any field of characteristic zero with roots of the naturals and any exponential. The refutations show that the restrictions are needed. Batch strings are parsed as in C33.
* **C59 Pure Gaussian states** (proved; States.v). triples of states and gates; positive definiteness of 1 - A^dagger A. Proved whenever the determinants of the contractions exceed the 1e-12 threshold of complex_gaussian_integral_1; below it the literal claim is false, proved: 28 modes squeezed by 9.5 dB have an infinite probability, and 14 such modes have probability 1 but a density matrix of infinite purity. Gaussian kets without derived variables.
* **C60 Physicality tests of kets** (proved; KetPhys.v). eigenvalues and singular values of A. On several modes is_physical does not imply normalisability (it uses eigenvalues of A instead of singular values), proved: a four-mode ket with is_physical True for every tolerance and vacuum population 3; DM.is_physical does not test it either. math.eigvals is the exact set of eigenvalues.
* **C61 Sums of Bargmann ansatze** (proved; PolyExpAdd.v). padding and concatenation of terms; the represented function of the sum. Any field of characteristic zero with roots of the naturals and any function ex. The refutations show that the restrictions are needed: with 0 < nder F < nder G and one term in F the sum is silently another function (np.array(ndmin) puts the new axes in front of the polynomial), and the sum of two batched superpositions has a new batch axis.
* **C62 The discretized Wigner function is the Wigner function** (proved; Wigner.v). generating function of the Wigner functions of |m><n|; Laguerre recursion; Clenshaw summation. Exact real and complex numbers. The Wigner function of |m><n| is given by its generating function exp(-st + 2a* s + 2a t). For non-Hermitian matrices both methods return the value of the Hermitian matrix with the same upper triangle. The Clenshaw method needs cutoff >= 2: at cutoff 1 it returns twice the Wigner function (C62_refuted).
* **C63 Phase space parametrization of Gaussian states** (proved; PhaseSpace.v). phase-space to Bargmann maps and back on complex matrices. Exact complex matrices; whenever the determinant of the contraction exceeds the 1e-12 threshold of complex_gaussian_integral_1 (the theorems say exactly when). A ket built with coefficient coeff reports |coeff|^2 in phase_space (C63_ket_coeff_refuted).
* **C64 PNR probabilities by the compact recursion** (proved; CompactDiag.v). imperative model of the compact recursion with out-of-range reads returning an arbitrary value; invariant on the written entries. Any field of characteristic zero with roots of the naturals (the complex numbers are an instance). Reads outside the arrays (and the table of 1000 square roots) return an arbitrary value, writes outside set a flag: the result does not depend on the value and the flag stays unset. One batch element; the tests of A (square, NaN, symmetric within tolerance) are a boolean input.
* **C65 Conditional density matrices by the compact recursion (JAX backend)** (proved; CompactProps.v). the same with one undetected mode. As C64 (reads outside the arrays return an arbitrary value, writes outside would set a flag). The disagreements with the NumPy backend are theorems, as the property states them.
* **C66 Gradients of the compact recursions are exact** (proved; CompactProps.v). derivations on the same traversals. Stated for the interleaved order of variables in which the custom VJPs work (the reordering before them is differentiated by JAX). C66_complex is the instance of complex differentiation.
* **C67 Gradients of Fock gates with respect to their physical parameters** (proved; GateGrad.v). derivatives in a real parameter of each amplitude, summed over the visited indices. Exact real and complex numbers. JAX's convention for the cotangent of a complex array under a real loss (dL = Re sum g dG) is stated as has_gradient1/2/4. C67_jax_refuted: for the probability 1/cosh r of no photon the backward pass returns -2 tanh r / cosh r. The displacement theorem needs tol < |alpha| or alpha = 0 (in between the forward pass returns the identity).
* **C68 Applying a beam splitter to an array** (proved; ApplyBS.v). the loop over photon-number sectors as a fold on flattened arrays, the transpositions as permutations of axes; sector unitaries equal to the gate's amplitudes by C25. apply_BS_schwinger, sector_u, sector_idx for arrays of any rank and any two axes of equal size, numpy.linalg.eigh given by its contract (met for all photon numbers and angles, C68_eigh_exists). Axes of different size always raise ValueError (C68_refuted_unequal). Not modelled: that the call may overwrite its argument (reshape returns a view when the axes are adjacent).
* **C69 Expectation values are traces** (proved; ExpectProps.v). Expect.v models validation, the six branches (dual, adjoint, contract of Contract.v / CompAdj.v) and the final trace (ArrayOps.trace). Each branch is reduced with C07_contract (contract_step: sums over the photon numbers of modes) and trace_out_scalar to tr_product, a sum over photon-number assignments written without wires; ExpectProps.v states the six theorems for any enumeration of the remaining modes, the ValueError cases, fidelity = overlap * conj overlap, a two-mode example and the non-Hermitian refutation over the Gaussian integers.. Fock representation without batch. The clause 'Tr(rho O) for every density-matrix-like operator' of the documentation is refuted; what is proved is Tr(rho O^dagger).
* **C70 Norms, probabilities, purity and normalisation** (proved; Norms.v). Norms.v: L2_norm is the contraction with the dual (C07_contract, C05_component_dual), probability the ArrayOps trace over the index lists of the output wires (group_pos, sorted_Z_unique: both lists enumerate the same modes in the same order), ket.dm the contraction with the adjoint. Bounds by Cauchy-Schwarz for finite complex sums, the smaller common cutoff being a sub-box.. Fock representation without batch, exact complex numbers; the Bargmann branch of L2_norm and batched normalisation are not modelled.
* **C71 Quadrature representation and quadrature distributions of Fock components** (proved; QuadProps.v, QuadWave.v). QuadLabels.v: einsum of any number of operands over letters, the string built as in the code, equal to the intended sum when letters do not collide (refuted on mode 1: C71_refuted_letters). QuadWave.v: the hermite_renormalized recursion of C19 at A = -2, b = 2x against Rodrigues' formula by Derive_n, the Schroedinger equation, and the kernel triples by rescaling of the one-variable recurrence (QuadratureEigenstate differs by hbar^(1/4): C71_refuted_eigenstate). QuadProps.v: wires in standard order turn the wire sum into sums over modes (ket_value, dm_value) and positivity removes the absolute value.. Fock branch without batch. Refuted: components on a mode m with n_modes <= m < n_modes + number of wires (e.g. a ket on mode 1) get a colliding einsum letter and wrong values or a ValueError (C71_refuted_letters), modes above 25 a ValueError; the identity in the docstring of BtoQ holds only for hbar = 1 (C71_refuted_eigenstate). Not modelled: convergence of the Bargmann branch's contraction; orthonormality of the wave functions.
* **C72 Photon-number sums equal Gaussian integrals** (proved; TraceProps.v). TraceDecay.v: the recurrence of the amplitudes, used on the larger index, gives geometric decay. TraceScalar.v: with weight t^n the diagonal sum is a power series S(t) solving delta S' = -delta'/2 S + N1 N2 S / delta, so S^2 delta exp(-2E) is constant on [0, 1]; delta avoids the negative real axis, so S exp(-E) stays in the right half plane and is the principal root. TraceSpect.v: induction on the photon numbers of the other axes (both sides satisfy the recurrence of the integrated A, b). TraceMx.v: the 2 x 2 inverse in the code's formulas. TraceProps.v: theorems for the arrays of vanilla and for integrals 1 and 2, and the refutation for three wires from C41.. convergence of the photon-number sum over one pair of axes to the Gaussian integral, with any number of other variables; the claim for several wires in one integral is refuted (wrong sign)
* **C73 Sums of parametrised components** (proved; CompSumProps.v). CompSum.v models __add__ (wires check, function identity, the parameter loop with its four kinds of errors, atleast_nd and concat, the constructor call) over a table of all classes that use from_function (keyword -> parameter, constructor arguments, number of axes of one value); CompSumProps.v proves that the sum of superpositions of n and m terms is the superposition of the n + m terms in order, lifts it to a + b_1 + ... + b_k by induction, computes the classification of the table, and refutes the claim for the classes with renamed or matrix-valued parameters.. proved for the twelve classes whose keyword arguments are their (numeric) parameters; refuted for Attenuator, Amplifier, FockDamping, GDM, Identity, BtoQ, BtoPS, BtoChar (every sum raises) and for matrix-valued parameters
* **C74 Physical stellar decomposition of density matrices** (proved; StellarDM.v). StellarDM.v models the function on (bra, ket)-grouped triples with the eigendecomposition as a parameter constrained by its specification (unitary v, real d, r_squared = v d v^dagger), the displacements and both normalisations with the library's contraction (Channels/ChanAlg). Proof: the bra-ket exchange symmetry is propagated through every block, the recomposition is the block algebra of one contraction with A = 0 on the contracted outputs, the determinant and exponent of the full trace factor through the Schur complement (the same reduced matrix for rho and for the core), square roots are split using that the norm of the core is positive, and complete positivity is a congruence of the bra-ket block.. core modes in the first M positions (the relabelling of modes is not modelled), one batch element, no derived variables. Refuted: rho == core >> phi for unnormalised rho
* **C75 Physical stellar decomposition with a mixed core** (proved; StellarMixed.v). StellarMixed.v models the function on (bra, ket)-grouped triples, reusing the channel part of StellarDM.v with h = r_c^T. The key identity is that the core keeps the reduced matrix of rho (mixed_red), so the trace and recomposition lemmas of StellarDM.v, stated for any state with the core property and the same reduced matrix, apply; positivity of core and channel are the Schur complement and the rank-M part of the bra-ket block of rho. Shapes are a separate small model of slicing, broadcasting and np.block.. core modes in the first M positions (the relabelling of modes is not modelled), one batch element, no derived variables; negative eigenvalues (rounding) are outside the theorems. Finding: only n = 2M modes are accepted, and no pure state
* **C76 Fidelity of Gaussian and of Fock density matrices** (proved; Fidelity.v). Fidelity.v models gaussian.fidelity step by step (V, W, the square root, f0, the exponential, with both inversions able to fail) and fock_utils.fidelity, over a square root function specified by what scipy.linalg.sqrtm guarantees: it commutes with similarity and transposition and takes principal roots of diagonal matrices (such a function is constructed, so the hypothesis is met). A symplectic frame change is a similarity of W, exchanging the states is a similarity, transposition and sign of W; hence invariance and symmetry. In a common frame all matrices are diagonal blocks and the factor of each mode is shown equal to the square of the sum of the series of sqrt(p_k q_k). For a pure state W squares to 1. For Fock matrices symmetry follows from equality of the characteristic polynomials of XY and YX.. Fidelity.v. gaussian.fidelity and fock_utils.fidelity. The matrix square root is any function that commutes with similarity and transposition and takes principal roots on diagonal matrices (root_fun_exists: there is one). Common frame: the value against the series of square roots of products of the thermal photon distributions. Pure: overlap with any state. Symmetry and invariance: all inputs, including the two inversion failures. Not covered: an independent Uhlmann fidelity for two mixed states without a common frame (there only symmetry and invariance are proved). Deviation proved: sqrtm of the numpy backend returns 0 on a matrix whose entries are all at most 1e-8 in modulus, so the fidelity of a nearly pure Gaussian state with itself is below 1 - 1e-5.
* **C77 DM.fidelity of Gaussian density matrices and overlaps** (proved; Overlap.v). Overlap.v combines PhaseSpace.v (from_phase_space and phase_space), the contraction of ChanAlg.v with the dual, and Fidelity.v. In the real quadrature basis a state has A = 1 - xi^-1 with xi = 1/2 + cov/hbar; the contraction matrix of two states is xi1^-1 (xi1 + xi2 - 1) xi2^-1 and xi1 + xi2 - 1 = (cov1 + cov2)/hbar, which gives determinant and exponent. The pure case then follows from C76_pure.. Overlap.v. DM.fidelity(DM) on Gaussian density matrices and DM.expectation(DM). The matrix square root is specified as in C76. The contraction with a ket operator (two steps) is represented by the one with its density matrix. Deviation proved: unnormalised density matrices. Not modelled: density matrices with derived variables; by reading the code, phase_space then counts derived variables as modes and drops the polynomial part c, so the fidelity of two Fock density matrices converted to Bargmann does not depend on the Fock amplitudes.
* **C78 Symplectic spectrum, von Neumann entropy, separability test and mean photon numbers** (proved; Entropy.v). Entropy.v models the four functions on covariance matrices; eigvals is any function that lists the roots of the characteristic polynomial with multiplicity, in any order. S^T J S = J makes i J cov similar to i J diag(nu, nu), which is diagonalised explicitly with eigenvalues nu and -nu; the sorted moduli are then a list with every entry twice. The entropy of a thermal mode is computed as the sum of the series of -p ln p. Every single-mode covariance obeying the uncertainty relation is shown to be thermal in a triangular frame, which gives product states. The mixed counterexample is explicit, with positivity of cov - hbar/2 as certificate of classicality.. Entropy.v. symplectic_eigenvals, von_neumann_entropy, number_means and State.is_separable on covariance matrices. math.eigvals: any listing of the eigenvalues with multiplicity. Deviation proved: is_separable returns False for a separable mixed state. The covariance of rho[mode] is modelled as the submatrix of the covariance of rho; that phase_space returns the covariance of a Gaussian state is C63.
* **C79 Sauron states approximate Fock states** (proved; Sauron.v). Sauron.v models the phases, the ring of coherent triples, the sum over all pairs of overlaps that normalises it and the Fock amplitudes as sums of the recurrence of C19 over the terms. Sums of powers of the root of unity are N or 0; each overlap is the real part of exp(t e^{i phi}), expanded in its power series (RingSeries.v, by the differential equation), so that the normalisation is N^2 times the sum of the weights on the ring. The bound compares that series termwise with the exponential series, since n! q! <= (n + q)!.. Sauron.v, RingSeries.v. sauron_state_Abc and the Fock array and probability of the resulting superposition, in exact arithmetic; the loss of significant digits for small epsilon (about n!/epsilon^(2n) in the normalisation) is outside the model.
* **C80 Building circuits and inspecting their contraction** (proved; CircuitBuild.v). CircuitBuild.v models check_contraction and >> on circuits over any type of components, with the insertion-ordered dictionary of CircuitContract.v. The dictionary of groups and the dictionary of contract are related entry by entry (same index, group multiplies to the value), and the relation is preserved by get, pop and assignment; permutations of the entries give the counting. The pair (i, i) is a two-component counterexample for any operation.. CircuitBuild.v. Components of any type; the printed text is represented by the list of indices and groups, the drawing of a group is not modelled. Deviations proved: the path of the operands of >> is lost; pairs (i, i) are accepted and drop components. That >> of components is associative under the conditions of C09 is proved there.
* **C81 Fock damping** (proved; Damping.v). Damping.v models fock_damping_Abc; >> is the contraction of Compose.v and States.v evaluated at A22 = 0, where its determinant is 1 and never below the threshold. The Fock arrays satisfy the recurrence of C19 and scaling (A, b) by (w^2, w) scales entry n by w^n, by uniqueness of its solution. Unitarity would force exp(-2 beta) = 1.. Damping.v. Kets without derived variables, one batch element; density matrices (damping on both sides) are not treated.
* **C82 Attenuator Kraus family** (proved; Kraus.v). Kraus.v models attenuator_kraus_Abc with complex square roots; the bond is contracted with gthen (ChanAlg.v), whose block at the bond is zero on both sides, so that its determinant is 1 and the value is the closed form gthen_val. The result is compared with the attenuator triple of ChanLaws.v.. Kraus.v. One batch element; negative eta is not treated. The individual Kraus operators in the Fock basis are not written out.

## What Print Assumptions lists

For every theorem named in MANIFEST.json (generated by tools/assumptions.py):

* closed under the global context (no axioms):
  C01_args C01_refuted_far_modes C01_standard_order C02_compose C02_permutation C02_refuted_classical C03_contraction_labels C03_refuted_classical C04_assoc C04_assoc_defined C04_refuted C05_adjoint_wires C05_component_adjoint C05_component_adjoint_involution C05_component_dual C05_dual_wires C05_involutions_commute C06_overlap_rejected C06_refuted_other_repr C06_refuted_stale_hash C06_refuted_stale_hash_dual C07_contract C08_direct C08_other_twice C08_plan C08_refuses C08_self_twice C09_any_adjacent_path C09_refuted_scalar C09_refuted_skipping_path C09_wrong_length C10_optimal C10_refuted_crash C10_refuted_skipping_path C10_solution C10_terminates C11_fock_shapes C12_heuristic C12_reduce_first C12_refuted_never_fires C13_from_ansatz C13_from_bargmann C13_from_fock_actual C13_from_fock_same_modes C13_refuted_from_fock C13_unsorted C14_actual C14_labelled_0_to_n C14_refuted_index C14_refuted_input_changed C15_getitem C15_getitem_error C15_probability C15_refuted_keep_all C15_refuted_set_order C15_trace_out_same_order C15_two_steps C15_unique C16_general C16_ket C16_refuted_separable C16_separable_actual C16_separable_one_mode C17_cxgate_rejects C18_default C18_refuted C19_recurrence C19_taylor C20_batch C20_stable C21_vjp C22_cutoff C24_by_weight C24_default_fills C24_dict C24_dict_default_refuted C24_early_stop_agrees C24_enumeration C24_numba_default_refuted C24_schedule_free C24_top_nonzero C25_beamsplitter C25_conservation C25_example C25_refuted_example C25_refuted_wide_input C25_refuted_wide_input_value C25_schwinger_refuted_error C25_schwinger_refuted_missing C25_schwinger_square C25_sector_idx C25_sector_refuted C25_stable C26_correct C26_refuted_small_cutoff C26_weights C27_corner C27_displacement C27_jacobian C27_squeezed C27_squeezer C28_all_neighbors C28_all_pivots C28_bitstring_neighbors C28_example C28_first_available_pivot C28_lower_neighbors C28_neighbors_once C28_row_major C28_smallest_pivot C28_upper_neighbors C29_argsort C29_example C29_integers C29_refuted_infinity C30_example C30_refuted_tolerance C30_simplify C31_components C31_example C31_pairing C31_refuted C32_compose C32_defined C32_error C32_reduce C32_refuted_mixed C33_example C33_kron C33_lin_sup C33_refuted_no_args C33_refuted_order C33_reshape C33_zip C34_backend C34_cleanup C34_example C34_history C34_modes_sorted C34_refuted_backend_key C34_refuted_converted C34_refuted_empty C34_refuted_same_name C34_refuted_superposition C34_refuted_trainable C34_roundtrip C34_saves C35_duplicate C35_example C35_history C35_refuted_order C35_refuted_reserved C35_slice C36_example C36_example_hyps C36_nested_actual C36_refuted_failing_setter C36_refuted_nested C36_refuted_rng C36_restore C36_sequence C36_unknown C37_bounded C37_example C37_refuted_aliasing C37_transparent C40_errors C40_example C40_integral C40_total C40_twice C46_sparse C46_sparse_example C47_example C47_full C47_path_independent C47_refuted_equal_pair C47_refuted_outer C47_refuted_single C47_returns C47_union_example C47_union_paths C51_equality C51_example C51_refuted_broadcast C52_add C52_add_error C52_and C52_eq C52_refuted_eq_trans C52_refuted_shape_of_self C52_reorder C52_reorder_batch C56_call C56_call_too_many C56_documented C56_eval_too_many C56_refuted_call_skips C56_some_variables C57_conj C57_decompose C57_reorder C57_scalar C57_scale C58_and C58_and_error C58_and_refuted C58_join C58_join_refuted C61_add C61_add_batch_refuted C61_add_guards C61_add_refuted C61_add_rejected C61_sub C64_diagonal C64_interleaved C64_rejected C65_backends C65_backends_refuted_reordered C65_backends_refuted_small C65_conditional C65_interleaved C65_rejected C66_diagonal_vjp C66_leftover_vjp C69_dm_dm C69_dm_ket C69_dm_unitary C69_example C69_fidelity C69_fidelity_modes C69_fidelity_symmetric C69_invalid C69_ket_dm C69_ket_ket C69_ket_unitary C69_modes C69_refuted_nonhermitian C73_catalog C73_lambda C73_refuted_matrix C73_refuted_renamed C73_sum C73_sum_list C75_square_only C80_append C80_check C80_contract C80_default C80_example C80_invalid C80_partition C80_path_lost C80_prefix C80_rshift C80_self_pair_refuted before_total product_assoc traced_perm

* `ClassicalDedekindReals.sig_forall_dec`:
  C39_seed_one_mode

* `ClassicalDedekindReals.sig_forall_dec`, `FunctionalExtensionality.functional_extensionality_dep`:
  C39_distribution C39_example C39_normalised C39_refuted_seed_two_modes C39_refuted_seed_zero C39_rows C49_exact C49_metadata C49_refuted C70_dm_probability

* `ClassicalDedekindReals.sig_forall_dec`, `ClassicalDedekindReals.sig_not_dec`, `FunctionalExtensionality.functional_extensionality_dep`:
  C17_actual C17_increasing C17_refuted C21_complex C23_bounds C23_centred C23_example C23_first C23_probability C23_real C23_refuted C23_upper C24_example C26_example C27_displacement_complex C27_displacement_zero C27_example C27_squeezer_complex C42_example C56_complex C56_example C56_refuted_documentation C57_complex C57_example C58_example C61_add_example C62_clenshaw C62_empty C62_iterative C62_methods_agree C62_refuted C62_single_photon C62_vacuum C64_example C65_example C66_complex C66_example C66_rejected C67_table_refuted C68_refuted_unequal C70_dm_of_ket C70_dm_purity C70_example C70_fidelity_bounds C70_hermitian C70_ket_probability C70_normalize_dm C70_normalize_ket C70_purity_bounds C71_example

* `ClassicalDedekindReals.sig_forall_dec`, `ClassicalDedekindReals.sig_not_dec`, `Classical_Prop.classic`, `FunctionalExtensionality.functional_extensionality_dep`:
  C14_refuted_wrong_mode C25_eig_exists C25_schwinger C27_jacobian_complex C37_refuted_hbar C67_beamsplitter C67_grad_displacement C67_jax_beamsplitter C67_jax_displacement C67_jax_refuted C67_jax_squeezed C67_jax_squeezer C67_squeezed C67_squeezer C68_apply C68_eigh_exists C68_example C68_isometry C71_basis C71_distribution_dm C71_distribution_ket C71_dm C71_dm_of_ket C71_eigenstate C71_kernel C71_ket C71_quadrature C71_refuted_eigenstate C71_refuted_letters C71_schroedinger C71_wavefunction C78_thermal_entropy

* `ClassicalDedekindReals.sig_forall_dec`, `ClassicalEpsilon.constructive_indefinite_description`, `Classical_Prop.classic`, `FunctionalExtensionality.functional_extensionality_dep`:
  C43_cx C43_cz C43_interferometer C43_p C43_realinterferometer C45_TP_modes_refuted C45_TP_rank C78_eigenvalues_exist C78_number_passive

* `ClassicalDedekindReals.sig_forall_dec`, `ClassicalDedekindReals.sig_not_dec`, `ClassicalEpsilon.constructive_indefinite_description`, `Classical_Prop.classic`, `FunctionalExtensionality.functional_extensionality_dep`:
  C38_example C38_minimize C38_orthogonal C38_symplectic C38_symplectic_real C38_unbounded C38_unitary C41_example C41_half_plane C41_iff C41_refuted C41_sign C42_amplifier_XY C42_amplifiers C42_attenuator_XY C42_attenuators C42_beamsplitter C42_coherent_loss C42_displacement C42_noise_XY C42_noises C42_passive C42_rotation C42_squeezing C42_twomode C43_example C43_mz C43_symplectic C43_triples C44_channel C44_channel_physical C44_example C44_kernel C44_symplectic C44_unitary C45_CP C45_TP C45_TP_XY C45_TP_refuted C45_TP_refuted_scale C45_attenuator C45_positive C46_dm_formal C46_formal C46_formal_example C46_physical C46_physical_example C46_physical_refuted C46_physical_returns C46_physical_singular C46_physical_unitary C46_physical_unitary_cases C46_physical_unitary_refuted C48 C48_example C48_refuted_tall C48_refuted_wide C50_dual C50_example C50_refuted C50_transformation C50_transformation_example C50_transformation_refuted C50_transformation_returns C50_unitary C50_unitary_left C53 C54 C55 C55_displaced C55_displaced_refuted C55_probability C55_thermal C55_thermal_million C55_thermal_probability_refuted C55_trace_preserving C59_circuit C59_circuit_norm C59_coherent C59_displaced_squeezed C59_dm_probability C59_example C59_gket C59_norm C59_norm_refuted C59_purity C59_purity_refuted C59_squeezed C59_two C59_two_mode C59_vacuum C60_circuit C60_dm C60_dm_refuted C60_eigenvalues C60_example C60_one_mode C60_physical C60_population C60_refuted C63_complete C63_example C63_gaussian C63_ket C63_ket_atol C63_ket_coeff_refuted C63_pure C63_purity C63_roundtrip C72_arrays C72_contract C72_contract_example C72_example C72_refuted_three_wires C72_trace C74_completely_positive C74_core C74_equal C74_example C74_recompose C74_returns C74_singular C74_trace_preserving C74_unnormalised C74_unnormalised_refuted C75_core C75_equal C75_example C75_positive C75_pure_raises C75_recompose C75_returns C75_singular C75_trace_preserving C76_coherent C76_common_frame C76_fock_commuting C76_fock_invariant C76_fock_pure C76_fock_self C76_fock_symmetric C76_fock_transpose C76_invariant C76_near_pure_refuted C76_pure C76_range C76_self C76_symmetric C77_fidelity C77_overlap C77_pure C77_thermal C77_unnormalised_refuted C78_entropy C78_invariant C78_mixed_refuted C78_number_means C78_product C78_product_eigenvalues C78_pure C78_pure_separable C78_symplectic_eigenvalues C79_amplitudes C79_close C79_coherent C79_normalised C79_zero C81_coherent C81_compose C81_damps C81_decreases C81_example C81_not_unitary C82_channel C82_coherent C82_dilation C82_example C82_noconj C82_unchecked XY_hermitian displacement_unitary from_symplectic_unitary identity_neutral identity_unitary root_fun_exists squeezers_unitary

