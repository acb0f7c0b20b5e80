# Formal model of XanaduAI/MrMustard in Rocq (Coq 8.16.1)

The code is *not run*; the tie between code and model is reading. Every definition of the model cites the file and lines of
`/repo` it models and says what is simplified (`tools/cites.py` checks the citations, `tools/coverage.py` lists the functions that no
citation covers). The statement of a property uses a small specification of its own (Taylor coefficients, sums over indices,
represented functions, positive definiteness, derivatives) and not the model's helpers. Where the code violates what a user
would expect, `properties.jsonl` says what the code does instead, and there is a `_refuted` theorem with a concrete witness beside the
strongest positive theorem that does hold. Each property has an example theorem (or concrete witness) that meets its hypotheses.

This file is written by `tools/design.py` (head: `tools/design_head.md`, methods: `tools/methods.py`).

## Modelling conventions

* **Numbers.** Floating point is modelled by exact arithmetic: integers, Coq's reals, complex numbers (Coquelicot's `C`), or an arbitrary
  commutative ring / field with square roots of the naturals (`RootField.v`; `C` is an instance, `ComplexRF.v`). Tolerances and thresholds that
  change results (1e-12 on determinants, ATOL, allclose, tol of the displacement gate) are modelled as such.
* **Arrays** are functions on (multi-)indices with a shape; matrices of complex numbers are mathcomp matrices over `C` (`CMat.v`). Numba code does not
  check bounds: a read outside an array returns an arbitrary value `junk`, so a theorem that holds for every `junk` shows that no such read matters.
* **Exceptions** are `Err ValueError` etc. of `result` (`Base.v`). Python exceptions inside NumPy are modelled when the code can reach them.
* **State** (settings, caches, parameter sets, files, random generators, the optimizer) is a record; programs are histories of calls.
* **External code** is given by its contract and never by an axiom: numpy.linalg eig/eigh/inv/det, Generator.choice, opt_einsum's paths, adamw, zip/npz/JSON containers.

## Trusted base

The kernel of Coq 8.16.1 (`coqchk` is run by the gate); the axioms listed at the end of this file, all from the standard library
(`ClassicalDedekindReals.sig_forall_dec`, `sig_not_dec` and functional extensionality come with Coq's reals, `classic` with Coquelicot,
`constructive_indefinite_description` with `Epsilon`-based choice where the complex numbers are made a mathcomp field); that the definitions transcribe the cited
code; that exact arithmetic is what the code approximates. No axioms of our own, no module types or functors, no disabled checks.

## Not modelled

Rounding; JAX tracing, jit and automatic differentiation (only the hand-written custom VJPs are modelled); plotting, widgets, progress bars, logging; operating
system failures; the thin wrappers of `math/backend_*.py` around NumPy/JAX primitives (they are read as the mathematical operation they name);
batch dimensions where the comment of a definition says "one batch element".
