# Formal model of cyjax in Rocq (Coq 8.16.1)

Subject: `/repo/cyjax` (read as text, never run).  Properties: `properties.jsonl`.
Claims: `MANIFEST.json`.  Seeded bugs: `seeded/LOG.jsonl`.

## Layout

* `rocq/theories/Model*.v`: the model, function by function.  Every definition cites file and lines.
* `rocq/theories/Spec*.v`: notions used in statements only (never by the model).
* `rocq/theories/Proof*.v` and `Deriv.v`, `Wirtinger.v`, `WMatrix.v`, `Herm*.v`, `Bridge.v`,
  `PolyGrad.v`, `Implicit*.v`, `RealField.v`, `RealLog.v`, `ComplexR.v`: lemmas and background mathematics.
* `rocq/theories/Props*.v`: the claims, each closed by `exact`, followed by `Print Assumptions`,
  with concrete examples beside them.
* `tools/`: generators of `properties.jsonl`, `MANIFEST.json` and this file; the mutation script.

Build: `cd rocq && coq_makefile -f _CoqProject -o Makefile && make -j4`.

## Approach

* Models are total Gallina functions that follow the Python functions branch by branch.  Arrays are
  lists (`seq`) or functions of finitely many indices, Python ints are `Z` (negative indices are
  visible), Python exceptions are values (`res A := Ok a | Err e`).
* Complex numbers are an arbitrary `C : numClosedFieldType` of mathcomp (instances: `algC`, `R[i]`).
  All statements outside `PropsRandom` and `PropsComplex` are quantified over this field and need no axiom.
  `random.py` and the complex logarithm use the real numbers of Coq's standard library;
  `ComplexR.v` builds the instance `CR = R[i]` with `cexp`, `clog` and `pi = PI`.
* Derivatives: `Deriv.v` defines the derivative of a function of several variables by epsilon and delta
  over any numeric field; `Wirtinger.v` the derivatives by z and its conjugate (`is_wgrad`) and the mixed
  second derivatives (`is_mixed`).  What JAX differentiates is an argument with the contract "this is
  the derivative of that"; `PolyGrad.v` shows that the contract holds for all polynomials,
  `Implicit2.v` proves the implicit function theorem for polynomials, so that
  the statements about local coordinates have no unproved hypothesis left (`PropsSections`, `PropsComplex`).
* External functions (sympy's normal form and iteration order, `jnp.roots`, random draws) are universally
  quantified arguments; what is assumed about them is an explicit hypothesis of the theorem
  and an example shows it can be met.
* A documented behaviour that the code does not have is stated as a theorem with suffix `_refuted`,
  with a witness, next to an exact description of what the code does instead.

## Trusted base

1. The Coq 8.16.1 kernel (and `coqchk`), and the mathcomp libraries it checks with them.
2. The assumptions of each theorem, listed below.  No axiom is added by this development.
   Those that occur all belong to the standard library: `ClassicalDedekindReals.sig_forall_dec`,
   `ClassicalDedekindReals.sig_not_dec` and `FunctionalExtensionality.functional_extensionality_dep` come with
   the real numbers, `Classical_Prop.classic` with their trigonometric functions and
   `Epsilon.epsilon_statement` with the choice structure of mathcomp on `R`.
3. That the model says what the code does (next sections).

## What is modelled and what is not

Everywhere:

* Arithmetic is exact.  Rounding, overflow, nan and inf are not modelled, except where a definition says so
  (weights that are not finite in `donaldson_step`).  Division by zero is 0 in the model; theorems that
  depend on it assume the denominator nonzero.
* Batch dimensions (`auto_vmap`, `vmap`) are maps over lists; one point is modelled.  `jit` is the identity.
* sympy: an expression is a tree of numbers, symbols, sums, products and natural powers.  `sympy.Poly(...)`
  is represented by the normal form `norm` of its expression; what the theorems need of it (same value,
  same free symbols) is assumed where used.
* `jnp.roots` is a function `roots` with the contract that it returns the roots with multiplicity.
* jax.random: draws are arguments.  Nothing is said about their distribution.
* numpy's rejection of ragged or wrongly shaped input is modelled where the code can reach it.  Indexing out of
  range follows NumPy (an exception); JAX arrays, which return the last entry, are in `ModelClamp` (C141).

Not modelled: `latex`, `__repr__`, `_repr_latex_`, `any_symbolic` (the numeric and the symbolic calls are
separate functions of the model), `_replace_float_ints` (floats that are integers: numbers of the model are
exact), `_transform_if_static` (doc strings and jit), `LBSections` (abstract base class),
`Poly.domain`, flax's module system and optimiser code, the progeval library (its lazy evaluation is
replaced by direct calls), device placement, dtypes (except in C80).

The correspondence of functions of the package and definitions of the model is listed at the end.

## Plan per property

| property | model | proof idea |
|---|---|---|
| C01-C04 | `ModelUtil` roll/pop/insert | nth characterisation of roll, case analysis on the index |
| C05, C06 | `ModelUtil` arrays as shape and flat data | index arithmetic, induction on the shape |
| C07 | `ModelUtil` factorial division | mathcomp `bin_fact` |
| C08, C09 | `ModelMC`, samplers are arbitrary functions | sums over lists |
| C10 | `ModelUtil` state machine | induction on calls |
| C11-C15 | `ModelProjective` | C01/C03 and field algebra |
| C16-C18 | `ModelProjective`, `Deriv` | Cauchy-Schwarz, derivative rules |
| C19-C21 | `ModelDiff` | determinant of the change of basis, rank-one update |
| C67 | `ModelProjective` | as C11 |
| C68 | `ModelDiff` | as C19 |
| C69 | `ModelML` | list reasoning |
| C22-C38, C70-C72 | `ModelStr`, `ModelExpr`, `ModelPoly`, `ModelMon`, `ModelStore`, `ModelHom` | induction on expressions, lists, strings |
| C39-C43 | `ModelVariety` | root contract and C33 |
| C44-C47, C73 | `ModelBasis` | counting, leading terms, division with remainder |
| C48-C53, C74-C76 | `ModelGeom` | Wirtinger calculus, Jacobi's formula, Hermitian forms |
| C54, C55, C77-C80 | `ModelDonaldson` | bigop algebra, Hermitian forms |
| C56-C62 | `ModelML` | triangular matrices, Cholesky by induction, invariants over histories |
| C63-C66, C81, C82 | `ModelRandom` over `R` | real analysis |
| C83-C87 | `SpecSections`, `ModelBasis`, `ModelGeom` | Newton-free implicit function theorem from roots of univariate polynomials; sections generate all forms modulo P, so they separate tangent vectors |
| C88-C91 | `SpecPatch`, `SpecSections`, `ModelProjective`, `ModelGeom`, `ModelVariety` | sections and defining polynomial are homogeneous: derivative of x^k f(chart z); the extra terms cancel in the metric; rank-one determinant identity and det of the Fubini-Study metric give the measures |
| C92, C93 | `SpecPatch`, `ModelGeom` over `R[i]` | the change of local coordinates is twice complex differentiable, log of a squared modulus of such a function has no mixed derivative, chain rule for mixed derivatives |
| C94-C101 | `ModelAlg`, `ModelHom`, `ModelVariety`, `ModelBasis`, `ModelGeom` | expressions are polynomials; the derivatives taken by the code are those of polynomials; then C88-C93 |
| C102-C109 | `ModelAlg`, `ModelHom`, `ModelDiff`, `ModelProjective` | derivatives of power sums and products; singular points solved by hand; conjugation of expressions with real numbers; C88 and C96 |
| C110-C117 | `ModelPipe`, `ModelAlg`, `ModelVariety`, `ModelMC`, `ModelDonaldson` | C90 at homogeneous coordinates; sections and weights are homogeneous, so affine and homogeneous means agree; C39-C43 give the points; C54, C55 and C103 combined |
| C118 | `ModelPipe`, `ModelVariety`, `ModelPoly` | a coefficient polynomial which can be called has no imaginary unit, so is real at real points; the line equation at psi = 0 and 1 then gives a real factor |
| C119-C123 | `ModelOps`, `ModelPoly`, `ModelHom` | put a polynomial in one variable for each symbol, chain rule for expressions; homogeneity and Euler by substituting x rho; operations reduced to those with one-symbol polynomials |
| C124-C127 | `ModelDonaldson`, `ModelPipe` | trace of H H'^-1 is N; Cholesky, Hadamard's inequality and that of the means bound the determinant; simultaneous diagonalisation of two forms turns order, energy and uniqueness into statements on eigenvalues |
| C128-C131 | `ModelDonaldson`, `ModelPipe` | the step is continuous, so limit points are balanced; it does not expand (C125), so a limit point is the limit; bounded sequences of matrices have limit points (Bolzano-Weierstrass); for a stable sample summation by parts over the flag of eigenspaces bounds the energy below by the logarithm of the ratio of eigenvalues, which bounds the steps; the projection orthogonal for a balanced metric gives the converse |
| C132, C133 | `ModelVariety`, `ModelPoly`, `ModelInput` | evaluation looks a symbol up among the variables first, so such parameters are never read; names as the image of a set, permuting it permutes the dictionary of keyword arguments |
| C134, C135 | `ModelHom`, `ModelVariety` | the mixed-radix number of a patch padded with zeros; a cache filled with a polynomial that still has the other variables, evaluated with one coordinate missing; the polynomial in the missing coordinate is monic of full degree, and factors over its roots |
| C136 | `ModelGeom` | conjugation of the contractions, hermiticity of the inverse |
| C137, C138, C139 | `ModelGeom`, `ModelAlg` | eta is det g over \|dP/dz_d\|^2, the denominator is pluriharmonic; the second derivative along real lines at a minimum; trace of a product of semidefinite matrices; eta does not depend on patch and scale, so it is continuous on the compact unit vectors in the hypersurface, which is not empty |
| C140 | `ModelPoly`, `ModelHom` | characters by their codes |
| C141 | `ModelPoly`, `ModelClamp` | one symbol at a time, then induction on the expression |
| C142 | `ModelML` | induction on the layers |
| C143 | `ModelProjective`, `ModelHom` | `roll` is periodic; Euclidean division of the patch; one evaluation for the disagreement |
| C144 | `ModelAlg`, `ModelProjective` | multinomial theorem by coefficients, differentiated once in each argument; sections have real coefficients |
| C145 | `ModelDonaldson` | change of basis (C78) and invariance under order and rescaling; uniqueness of the balanced metric up to scale, fixed by the determinant |
| C146 | `ModelPipe`, `ModelVariety` | weights and sections at moved points by the chain rule and reindexing; then C145 with a monomial matrix |
| C147 | `ModelAlg`, `ModelGeom` | the moved chart is a linear map with unitary matrix; sections change by a matrix keeping H; determinants of the bordered metric |
| C148 | `ModelAlg`, `ModelGeom` | as C92, with the moved chart in place of the change of patch |
| C149 | `ModelAlg`, `ModelGeom` | conjugate values of section derivatives conjugate every quantity of GeometricObjects; derivatives of the conjugate function at the conjugate point |
| C150 | `ModelDonaldson`, `ModelPipe` | as C145 with conjugation; uniqueness of the balanced metric |
| C151 | `ModelDonaldson`, `ModelPipe` | in a frame of the balanced metric the step is, to first order, an averaging operator on Hermitian matrices with a spectral gap on matrices of trace zero; the trace follows by summing the geometric series |
| C152 | `ModelML` | the quotient of two triangular factors is triangular and unitary, so diagonal |
| C153 | `ModelPipe` | C113 with eta from C144 |
| C154 | `ModelAlg`, `ModelGeom` | monomials of the product degree are products of monomials, so values and derivatives of sections follow the product rule; positivity of the tensor product by a Cholesky factor |
| C155 | `ModelAlg`, `ModelGeom` | powers of H by C154; third and fourth derivatives of the logarithm of a product by the product rule |
| C156 | `ModelML`, `ModelDonaldson` | Cauchy-Schwarz inequality with weights |
| C157 | `ModelGeom` | sections at x A by homogeneity and independence of the monomials; derivative of the projective map; determinant of its Jacobian by row and column operations; galg_shift/galg_scale of C88 |
| C158 | `ModelAlg`, `ModelPipe` | lengths of point and gradient under unitary maps; change of basis of the step (step_basis) |
| C159 | `ModelGeom` | mixed derivatives of log det in two parametrisations by the implicit function theorem, as for C92, with the linear map in place of the chart change |
| C160 | `ModelAlg`, `ModelML` | polarisation: a polynomial in one real variable through x and y; independence of the monomials (C157); uniqueness of the Cholesky parameters (C152) |
| C161 | `ModelBasis` | multinomial theorem for the inner product; reflections move any vector to any other of the same length; C160 |
| C162 | `ModelGeom.v` | g_proj on one patch determines H up to a positive factor |
| C163 | `ModelPipe.alg_donaldson_step` | the sections at x A are those at x times R (SpecLinear.lin_sections); |det R| = 1 from the Fubini-Study matrix, so R is a symmetry of the weighted sample |
| C164 | `ModelBasis`, `ModelAlg`, `ModelPipe` | `SpecReduce` says when two matrices give the same metrics. A monomial is a combination of reduced monomials modulo Q, so H is carried to T H T^*; the matrix T has full row rank, so every H' is reached. Equal eta on V gives equal curvature. |
| C165 | `ModelPipe`, `ModelDonaldson`, `ModelBasis` | T is a sum of rank-one matrices; x0^(k-e) Q vanishes on the sample; division modulo Q; a resultant in the first variable shows that a form of small degree in it which vanishes on the variety is zero; points added one at a time |
| C166 | `ModelPipe.alg_donaldson_step` | s(x A) = s(x) R on the hypersurface by division modulo Q; |det R| = 1 from the Gram matrix of the sample weighted by |z|^(-2k), which R keeps and which is invertible by spanning |
| C167 | `ModelGeom`, `ModelBasis` (objects on a patch) | H is induced from h over the full basis; by independence R h R* induces H as well, so the statements for the full basis (C157, C159) apply; the Fubini-Study matrix induces an invariant H |
