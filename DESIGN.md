# Formal model of cyjax in Rocq (Coq 8.16.1)

Subject: `/repo/cyjax` (read as text, never run).  Properties: `properties.jsonl`.
Claims: `MANIFEST.json`.  Seeded bugs: `seeded/LOG.jsonl`.

## Layout

* `rocq/theories/Model*.v`: the model, function by function.  Every definition cites file and lines.
* `rocq/theories/Spec*.v`: notions used in statements only (never by the model).
* `rocq/theories/Proof*.v` and `Deriv.v`, `Wirtinger.v`, `WMatrix.v`, `Herm*.v`, `Bridge.v`,
  `PolyGrad.v`, `Implicit*.v`, `RealField.v`, `RealLog.v`, `ComplexR.v`: lemmas and background mathematics.
* `rocq/theories/Props*.v`: the claims, each closed by `exact`, followed by `Print Assumptions`,
  with concrete examples beside them.
* `tools/`: generators of `properties.jsonl`, `MANIFEST.json` and this file; the mutation script.

Build: `cd rocq && coq_makefile -f _CoqProject -o Makefile && make -j4`.

## Approach

* Models are total Gallina functions that follow the Python functions branch by branch.  Arrays are
  lists (`seq`) or functions of finitely many indices, Python ints are `Z` (negative indices are
  visible), Python exceptions are values (`res A := Ok a | Err e`).
* Complex numbers are an arbitrary `C : numClosedFieldType` of mathcomp (instances: `algC`, `R[i]`).
  All statements outside `PropsRandom` and `PropsComplex` are quantified over this field and need no axiom.
  `random.py` and the complex logarithm use the real numbers of Coq's standard library;
  `ComplexR.v` builds the instance `CR = R[i]` with `cexp`, `clog` and `pi = PI`.
* Derivatives: `Deriv.v` defines the derivative of a function of several variables by epsilon and delta
  over any numeric field; `Wirtinger.v` the derivatives by z and its conjugate (`is_wgrad`) and the mixed
  second derivatives (`is_mixed`).  What JAX differentiates is an argument with the contract "this is
  the derivative of that"; `PolyGrad.v` shows that the contract holds for all polynomials,
  `Implicit2.v` proves the implicit function theorem for polynomials, so that
  the statements about local coordinates have no unproved hypothesis left (`PropsSections`, `PropsComplex`).
* External functions (sympy's normal form and iteration order, `jnp.roots`, random draws) are universally
  quantified arguments; what is assumed about them is an explicit hypothesis of the theorem
  and an example shows it can be met.
* A documented behaviour that the code does not have is stated as a theorem with suffix `_refuted`,
  with a witness, next to an exact description of what the code does instead.

## Trusted base

1. The Coq 8.16.1 kernel (and `coqchk`), and the mathcomp libraries it checks with them.
2. The assumptions of each theorem, listed below.  No axiom is added by this development.
   Those that occur all belong to the standard library: `ClassicalDedekindReals.sig_forall_dec`,
   `ClassicalDedekindReals.sig_not_dec` and `FunctionalExtensionality.functional_extensionality_dep` come with
   the real numbers, `Classical_Prop.classic` with their trigonometric functions and
   `Epsilon.epsilon_statement` with the choice structure of mathcomp on `R`.
3. That the model says what the code does (next sections).

## What is modelled and what is not

Everywhere:

* Arithmetic is exact.  Rounding, overflow, nan and inf are not modelled, except where a definition says so
  (weights that are not finite in `donaldson_step`).  Division by zero is 0 in the model; theorems that
  depend on it assume the denominator nonzero.
* Batch dimensions (`auto_vmap`, `vmap`) are maps over lists; one point is modelled.  `jit` is the identity.
* sympy: an expression is a tree of numbers, symbols, sums, products and natural powers.  `sympy.Poly(...)`
  is represented by the normal form `norm` of its expression; what the theorems need of it (same value,
  same free symbols) is assumed where used.
* `jnp.roots` is a function `roots` with the contract that it returns the roots with multiplicity.
* jax.random: draws are arguments.  Nothing is said about their distribution.
* numpy's rejection of ragged or wrongly shaped input is modelled where the code can reach it.  Indexing out of
  range follows NumPy (an exception); JAX arrays, which return the last entry, are in `ModelClamp` (C141).

Not modelled: `latex`, `__repr__`, `_repr_latex_`, `any_symbolic` (the numeric and the symbolic calls are
separate functions of the model), `_replace_float_ints` (floats that are integers: numbers of the model are
exact), `_transform_if_static` (doc strings and jit), `LBSections` (abstract base class),
`Poly.domain`, flax's module system and optimiser code, the progeval library (its lazy evaluation is
replaced by direct calls), device placement, dtypes (except in C80).

The correspondence of functions of the package and definitions of the model is listed at the end.

## Plan per property

| property | model | proof idea |
|---|---|---|
| C01-C04 | `ModelUtil` roll/pop/insert | nth characterisation of roll, case analysis on the index |
| C05, C06 | `ModelUtil` arrays as shape and flat data | index arithmetic, induction on the shape |
| C07 | `ModelUtil` factorial division | mathcomp `bin_fact` |
| C08, C09 | `ModelMC`, samplers are arbitrary functions | sums over lists |
| C10 | `ModelUtil` state machine | induction on calls |
| C11-C15 | `ModelProjective` | C01/C03 and field algebra |
| C16-C18 | `ModelProjective`, `Deriv` | Cauchy-Schwarz, derivative rules |
| C19-C21 | `ModelDiff` | determinant of the change of basis, rank-one update |
| C67 | `ModelProjective` | as C11 |
| C68 | `ModelDiff` | as C19 |
| C69 | `ModelML` | list reasoning |
| C22-C38, C70-C72 | `ModelStr`, `ModelExpr`, `ModelPoly`, `ModelMon`, `ModelStore`, `ModelHom` | induction on expressions, lists, strings |
| C39-C43 | `ModelVariety` | root contract and C33 |
| C44-C47, C73 | `ModelBasis` | counting, leading terms, division with remainder |
| C48-C53, C74-C76 | `ModelGeom` | Wirtinger calculus, Jacobi's formula, Hermitian forms |
| C54, C55, C77-C80 | `ModelDonaldson` | bigop algebra, Hermitian forms |
| C56-C62 | `ModelML` | triangular matrices, Cholesky by induction, invariants over histories |
| C63-C66, C81, C82 | `ModelRandom` over `R` | real analysis |
| C83-C87 | `SpecSections`, `ModelBasis`, `ModelGeom` | Newton-free implicit function theorem from roots of univariate polynomials; sections generate all forms modulo P, so they separate tangent vectors |
| C88-C91 | `SpecPatch`, `SpecSections`, `ModelProjective`, `ModelGeom`, `ModelVariety` | sections and defining polynomial are homogeneous: derivative of x^k f(chart z); the extra terms cancel in the metric; rank-one determinant identity and det of the Fubini-Study metric give the measures |
| C92, C93 | `SpecPatch`, `ModelGeom` over `R[i]` | the change of local coordinates is twice complex differentiable, log of a squared modulus of such a function has no mixed derivative, chain rule for mixed derivatives |
| C94-C101 | `ModelAlg`, `ModelHom`, `ModelVariety`, `ModelBasis`, `ModelGeom` | expressions are polynomials; the derivatives taken by the code are those of polynomials; then C88-C93 |
| C102-C109 | `ModelAlg`, `ModelHom`, `ModelDiff`, `ModelProjective` | derivatives of power sums and products; singular points solved by hand; conjugation of expressions with real numbers; C88 and C96 |
| C110-C117 | `ModelPipe`, `ModelAlg`, `ModelVariety`, `ModelMC`, `ModelDonaldson` | C90 at homogeneous coordinates; sections and weights are homogeneous, so affine and homogeneous means agree; C39-C43 give the points; C54, C55 and C103 combined |
| C118 | `ModelPipe`, `ModelVariety`, `ModelPoly` | a coefficient polynomial which can be called has no imaginary unit, so is real at real points; the line equation at psi = 0 and 1 then gives a real factor |
| C119-C123 | `ModelOps`, `ModelPoly`, `ModelHom` | put a polynomial in one variable for each symbol, chain rule for expressions; homogeneity and Euler by substituting x rho; operations reduced to those with one-symbol polynomials |
| C124-C127 | `ModelDonaldson`, `ModelPipe` | trace of H H'^-1 is N; Cholesky, Hadamard's inequality and that of the means bound the determinant; simultaneous diagonalisation of two forms turns order, energy and uniqueness into statements on eigenvalues |
| C128-C131 | `ModelDonaldson`, `ModelPipe` | the step is continuous, so limit points are balanced; it does not expand (C125), so a limit point is the limit; bounded sequences of matrices have limit points (Bolzano-Weierstrass); for a stable sample summation by parts over the flag of eigenspaces bounds the energy below by the logarithm of the ratio of eigenvalues, which bounds the steps; the projection orthogonal for a balanced metric gives the converse |
| C132, C133 | `ModelVariety`, `ModelPoly`, `ModelInput` | evaluation looks a symbol up among the variables first, so such parameters are never read; names as the image of a set, permuting it permutes the dictionary of keyword arguments |
| C134, C135 | `ModelHom`, `ModelVariety` | the mixed-radix number of a patch padded with zeros; a cache filled with a polynomial that still has the other variables, evaluated with one coordinate missing; the polynomial in the missing coordinate is monic of full degree, and factors over its roots |
| C136 | `ModelGeom` | conjugation of the contractions, hermiticity of the inverse |
| C137, C138, C139 | `ModelGeom`, `ModelAlg` | eta is det g over \|dP/dz_d\|^2, the denominator is pluriharmonic; the second derivative along real lines at a minimum; trace of a product of semidefinite matrices; eta does not depend on patch and scale, so it is continuous on the compact unit vectors in the hypersurface, which is not empty |
| C140 | `ModelPoly`, `ModelHom` | characters by their codes |
| C141 | `ModelPoly`, `ModelClamp` | one symbol at a time, then induction on the expression |
| C142 | `ModelML` | induction on the layers |
| C143 | `ModelProjective`, `ModelHom` | `roll` is periodic; Euclidean division of the patch; one evaluation for the disagreement |
| C144 | `ModelAlg`, `ModelProjective` | multinomial theorem by coefficients, differentiated once in each argument; sections have real coefficients |
| C145 | `ModelDonaldson` | change of basis (C78) and invariance under order and rescaling; uniqueness of the balanced metric up to scale, fixed by the determinant |
| C146 | `ModelPipe`, `ModelVariety` | weights and sections at moved points by the chain rule and reindexing; then C145 with a monomial matrix |
| C147 | `ModelAlg`, `ModelGeom` | the moved chart is a linear map with unitary matrix; sections change by a matrix keeping H; determinants of the bordered metric |
| C148 | `ModelAlg`, `ModelGeom` | as C92, with the moved chart in place of the change of patch |
| C149 | `ModelAlg`, `ModelGeom` | conjugate values of section derivatives conjugate every quantity of GeometricObjects; derivatives of the conjugate function at the conjugate point |
| C150 | `ModelDonaldson`, `ModelPipe` | as C145 with conjugation; uniqueness of the balanced metric |
| C151 | `ModelDonaldson`, `ModelPipe` | in a frame of the balanced metric the step is, to first order, an averaging operator on Hermitian matrices with a spectral gap on matrices of trace zero; the trace follows by summing the geometric series |
| C152 | `ModelML` | the quotient of two triangular factors is triangular and unitary, so diagonal |
| C153 | `ModelPipe` | C113 with eta from C144 |
| C154 | `ModelAlg`, `ModelGeom` | monomials of the product degree are products of monomials, so values and derivatives of sections follow the product rule; positivity of the tensor product by a Cholesky factor |
| C155 | `ModelAlg`, `ModelGeom` | powers of H by C154; third and fourth derivatives of the logarithm of a product by the product rule |
| C156 | `ModelML`, `ModelDonaldson` | Cauchy-Schwarz inequality with weights |
| C157 | `ModelGeom` | sections at x A by homogeneity and independence of the monomials; derivative of the projective map; determinant of its Jacobian by row and column operations; galg_shift/galg_scale of C88 |
| C158 | `ModelAlg`, `ModelPipe` | lengths of point and gradient under unitary maps; change of basis of the step (step_basis) |
| C159 | `ModelGeom` | mixed derivatives of log det in two parametrisations by the implicit function theorem, as for C92, with the linear map in place of the chart change |
| C160 | `ModelAlg`, `ModelML` | polarisation: a polynomial in one real variable through x and y; independence of the monomials (C157); uniqueness of the Cholesky parameters (C152) |
| C161 | `ModelBasis` | multinomial theorem for the inner product; reflections move any vector to any other of the same length; C160 |
| C162 | `ModelGeom.v` | g_proj on one patch determines H up to a positive factor |
| C163 | `ModelPipe.alg_donaldson_step` | the sections at x A are those at x times R (SpecLinear.lin_sections); |det R| = 1 from the Fubini-Study matrix, so R is a symmetry of the weighted sample |
| C164 | `ModelBasis`, `ModelAlg`, `ModelPipe` | `SpecReduce` says when two matrices give the same metrics. A monomial is a combination of reduced monomials modulo Q, so H is carried to T H T^*; the matrix T has full row rank, so every H' is reached. Equal eta on V gives equal curvature. |
| C165 | `ModelPipe`, `ModelDonaldson`, `ModelBasis` | T is a sum of rank-one matrices; x0^(k-e) Q vanishes on the sample; division modulo Q; a resultant in the first variable shows that a form of small degree in it which vanishes on the variety is zero; points added one at a time |
| C166 | `ModelPipe.alg_donaldson_step` | s(x A) = s(x) R on the hypersurface by division modulo Q; |det R| = 1 from the Gram matrix of the sample weighted by |z|^(-2k), which R keeps and which is invertible by spanning |
| C167 | `ModelGeom`, `ModelBasis` (objects on a patch) | H is induced from h over the full basis; by independence R h R* induces H as well, so the statements for the full basis (C157, C159) apply; the Fubini-Study matrix induces an invariant H |

## Property by property

| property | title | status | theorems | note |
|---|---|---|---|---|
| C01 | pop removes exactly one entry | proved | PropsUtil: pop_removes_entry, pop_any_index, pop_empty |  |
| C02 | pop with a negative index | proved | PropsUtil: pop_negative, pop_negative_order_refuted, pop_any_index | The documented remainder is refuted for every negative index; the exact behaviour is proved. |
| C03 | insert_1d inserts at the requested place | proved | PropsUtil: insert_1d_nonneg, insert_1d_negative, insert_1d_negative_block, pop_insert_1d |  |
| C04 | insert_col inserts one column in every row | proved | PropsUtil: insert_col_rows, insert_col_bad_rows |  |
| C05 | flatten/unflatten keeps batches aligned | proved | PropsUtil: flatten_unflatten_pointwise, flatten_coord_total, flatten_unflatten_identity, flatten_coord_c_shape, flatten_coord_c_default | last axis of positive length (reshape(-1, 0) raises) |
| C06 | shuffle_axis only permutes one axis | proved | PropsUtil: shuffle_axis_permutes | random permutations are an arbitrary input |
| C07 | binomial coefficients are exact | proved | PropsUtil: binomial_exact, binomial_raises |  |
| C08 | Monte Carlo integral uses the integrand | proved | PropsUtil: mc_integrate_value, mc_integrate_documented_refuted | documented contract refuted; exact behaviour proved |
| C09 | batched Monte Carlo integration equals one big batch | proved | PropsUtil: mc_integrate_batched_value | exact field arithmetic; stated for every integrand |
| C10 | PRNGSequence is a deterministic stream | proved | PropsUtil: prng_sequence_stream, prng_sequence_history, prng_seed_int_key | jax.random.split arbitrary |
| C100 | AlgebraicMetric rejects a wrong number of coordinates | proved | PropsAlg: algebraic_wrong_length | one point at a time; jax.grad and jax.jacfwd are an operator which returns the complex derivative where there is one; the parameters as an array; without a patch the coordinates are not all zero |
| C101 | AlgebraicMetric with the gradient passed as argument | proved | PropsAlg: algebraic_gradient_argument, algebraic_gradient_scaled | one point at a time; jax.grad and jax.jacfwd are an operator which returns the complex derivative where there is one; the parameters as an array |
| C102 | gradients of the predefined equations | proved | PropsVariety2: dwork_gradient_formula, fermat_gradient_formula | one point at a time; jax.grad and jax.jacfwd are an operator which returns the complex derivative where there is one; the parameters as an array |
| C103 | smooth members of the predefined families | proved | PropsVariety2: dwork_smooth_iff, fermat_is_smooth | one point at a time; jax.grad and jax.jacfwd are an operator which returns the complex derivative where there is one; the parameters as an array |
| C104 | AlgebraicMetric on a smooth hypersurface | proved | PropsVariety2: hypersurface_is_polynomial, smooth_metric_everywhere | one point at a time; jax.grad and jax.jacfwd are an operator which returns the complex derivative where there is one; the parameters as an array |
| C105 | VarietySingle.jacobian_embed | proved | PropsVariety2: variety_jacobian | one point at a time; jax.grad and jax.jacfwd are an operator which returns the complex derivative where there is one; the parameters as an array |
| C106 | induced_metric with explicit conjugate coordinates | proved | PropsVariety2: induced_metric_conjugate, induced_metric_conjugate_refuted, induced_metric_no_parameters_refuted | one point at a time; jax.grad and jax.jacfwd are an operator which returns the complex derivative where there is one; the parameters as an array; the equivalence is refuted for a complex factor and for params=None |
| C107 | the induced Fubini-Study metric | proved | PropsVariety2: induced_fs_point_patch | one point at a time; jax.grad and jax.jacfwd are an operator which returns the complex derivative where there is one; the parameters as an array |
| C108 | dimensions of a hypersurface | proved | PropsVariety2: variety_dimensions, variety_one_variable, variety_parameter_count |  |
| C109 | VarietySingle.from_sympy takes the number of coordinates for the degree | proved | PropsVariety2: from_sympy_coordinates, from_sympy_degree_refuted | documented meaning of poly_degree refuted |
| C11 | affine and homogeneous indices correspond | proved | PropsProjective: index_conversions_inverse, index_affine_to_hom_addresses |  |
| C110 | weights in homogeneous coordinates | proved | PropsPipe: weights_homogeneous, weights_calabi_yau, dwork_weights, fermat_weights | one point at a time; jax.grad and jax.jacfwd are an operator which returns the complex derivative where there is one; the parameters as an array |
| C111 | the four forms of sample_intersect | proved | PropsPipe: samples_with_weights | one point at a time; jax.grad and jax.jacfwd are an operator which returns the complex derivative where there is one; the parameters as an array; the sampler is an argument, floats and NaN not modelled |
| C112 | compute_vol | proved | PropsPipe: volume_estimate | one point at a time; jax.grad and jax.jacfwd are an operator which returns the complex derivative where there is one; the parameters as an array; the sampler is an argument, floats and NaN not modelled |
| C113 | sigma accuracy of sampled points | proved | PropsPipe: sigma_of_samples | one point at a time; jax.grad and jax.jacfwd are an operator which returns the complex derivative where there is one; the parameters as an array; the sampler is an argument, floats and NaN not modelled |
| C114 | samples may be rescaled | proved | PropsPipe: samples_rescaled | one point at a time; jax.grad and jax.jacfwd are an operator which returns the complex derivative where there is one; the parameters as an array; the sampler is an argument, floats and NaN not modelled |
| C115 | donaldson_step on sampled points | proved | PropsPipe: step_of_samples | one point at a time; jax.grad and jax.jacfwd are an operator which returns the complex derivative where there is one; the parameters as an array; the sampler is an argument, floats and NaN not modelled; H of complex dtype, C80 covers the real one |
| C116 | points drawn by intersection lie on the variety | proved | PropsPipe: poly_sampler, dwork_sampler, fermat_sampler | root finder, normal form and terms in t of sympy under their contracts; lines with q not on the variety and p no multiple of q; Dwork with a non-real factor is C118 |
| C117 | from the equation to the results | proved | PropsPipe: dwork_end_to_end, fermat_end_to_end | contracts as in C116; jax.grad as in C95 |
| C118 | Dwork with a factor which is not real cannot be sampled | proved | PropsPipe: dwork_complex_factor_refuted | that factor may be any number is refuted for sample_intersect; terms in t and normal form of sympy under their contracts (numbers real, imaginary unit written I) |
| C119 | derivatives of polynomials | proved | PropsOps: diff_is_derivative, diff_of_any_polynomial, diff_needs_variable | sympy's normal form and Poly.diff under their contracts (C28); polynomials without the imaginary unit |
| C12 | affine/homogeneous coordinate round trip | proved | PropsProjective: affine_hom_affine, hom_affine_hom, hom_to_affine_projective | exact field arithmetic |
| C120 | derivatives of homogeneous polynomials | proved | PropsOps: diff_lowers_degree, euler_identity | sympy's normal form and Poly.diff under their contracts (C28); polynomials without the imaginary unit |
| C121 | derivatives of the predefined polynomials | proved | PropsOps: dwork_derivative, fermat_derivative | sympy's normal form and Poly.diff under their contracts (C28); polynomials without the imaginary unit; real factors |
| C122 | arithmetic with numbers and symbols | proved | PropsOps: operation_with_number, operation_with_parameter, operation_with_variable, operation_index_mismatch, operation_with_polynomial | sympy's normal form and Poly.diff under their contracts (C28); polynomials without the imaginary unit; with C32 for two polynomials |
| C123 | operations with other spellings of a coordinate | proved | PropsOps: operation_spelling_refuted | that the symbol becomes a variable is refuted for symbolic calls and derivatives, with witness az_spelling; sympy's normal form and Poly.diff under their contracts (C28); polynomials without the imaginary unit |
| C124 | repeated Donaldson steps on one sample raise the determinant | proved | PropsStep: step_raises_determinant, step_mean_norm, step_lowers_energy, complex_log_is_like, steps_do_not_cycle | the same sample in every step; H of complex dtype; floats not modelled; the logarithm is any function with log x <= x - 1 turning quotients into differences, as that of stdlib R does |
| C125 | the Donaldson step keeps the order of Hermitian matrices | proved | PropsStep: step_keeps_order, step_is_not_expanding, steps_stay_bounded | the same sample in every step; H of complex dtype; floats not modelled |
| C126 | balanced metrics of a sample | proved | PropsStep: balanced_minimises_energy, balanced_unique_to_scale, balanced_not_unique | the same sample in every step; H of complex dtype; floats not modelled; existence and convergence are C128-C130 |
| C127 | AlgebraicMetric.donaldson_step with the same key | proved | PropsStep: sampled_steps, sampled_steps_raise_determinant | the same sample in every step; H of complex dtype; floats not modelled; as C115 |
| C128 | limits of repeated Donaldson steps | proved | PropsStep2: steps_limit_is_balanced, steps_accumulate_only_at_limit, steps_converge_to_balanced | the same sample in every step; H of complex dtype; floats not modelled; the complex numbers over the reals of the standard library, whose axioms it uses (the first two hold in every closed field, without axioms) |
| C129 | which samples have a balanced metric | proved | PropsStep2: balanced_bounds_weight, balanced_exists_iff_stable, stable_steps_converge, steps_may_diverge | the same sample in every step; H of complex dtype; floats not modelled; the complex numbers over the reals of the standard library, whose axioms it uses; that steps always converge is refuted by steps_may_diverge |
| C13 | automatic patch bounds the coordinates | proved | PropsProjective: hom_to_affine_auto_patch | any closed numeric field |
| C130 | Donaldson steps for points in general position | proved | PropsStep2: general_position_stable_iff, general_position_converges | the same sample in every step; H of complex dtype; floats not modelled; the complex numbers over the reals of the standard library, whose axioms it uses |
| C131 | AlgebraicMetric.donaldson_step with the same key converges | proved | PropsStep2: sampled_steps_converge | the same sample in every step; H of complex dtype; floats not modelled; the complex numbers over the reals of the standard library, whose axioms it uses; as C127 |
| C132 | sampling with parameters named like the line | proved | PropsVariety3: call_ignores_clashing_refuted, sample_ignores_clashing_refuted, clash_conic_refuted | that all parameters are used is refuted, with witness clash_conic; normal form, terms and roots under their contracts (C42) |
| C133 | from_sympy of a sympy.Poly | proved | PropsInput, PropsSig: sympy_poly_evaluates, sympy_poly_keyword_calls, sympy_poly_positional_refuted, sympy_poly_generators_refuted, sympy_poly_given_names, sympy_poly_as_expression, sympy_poly_indices_need_names | that the generators are the variables is refuted, with witness z0^2 + zn^2; generators, domain symbols and free symbols of the sympy.Poly are inputs of the model, and the order of a set is any permutation |
| C134 | an integer patch for several variables | proved | PropsShort: short_patch_number, short_patch_refuted | that short patches are harmless is refuted; normal form under its contract |
| C135 | solve_defining returns all solutions | proved | PropsSolve: solve_defining_all, dwork_solve_defining, fermat_solve_defining | normal form and terms under their contracts; jnp.roots is assumed to return all roots with multiplicities (roots_exact, satisfied by all_roots_ex) |
| C136 | the Ricci tensor is Hermitian | proved | PropsEta: ricci_is_hermitian | over every numClosedFieldType; symmetry of the second derivatives of the sections is a hypothesis |
| C137 | the Ricci tensor comes from eta | proved | PropsEta: ricci_from_eta, eta_determines_ricci | over the complex numbers built on the reals of the standard library, pi = PI |
| C138 | the Ricci tensor where eta is extremal | proved | PropsEta: ricci_at_eta_maximum, ricci_at_eta_minimum | over the complex numbers built on the reals of the standard library, pi = PI; extrema are local extrema on the zeros in one patch |
| C139 | eta and Ricci on a whole Calabi-Yau hypersurface | proved | PropsEta: calabi_yau_ricci_signs | diff_ok is the contract of jax differentiation; patch and dependent coordinate are chosen by the code |
| C14 | change_chart is the transition map | proved | PropsProjective: change_chart_transition, change_chart_cocycle |  |
| C140 | which variable names are accepted | proved | PropsSig: poly_names, hom_poly_names, hom_poly_scalar | ASCII names; reserved words are not modelled |
| C141 | points with too few coordinates | proved | PropsSig: short_point_numpy, short_point_jax_refuted, full_point_jax | that short points are rejected is refuted for JAX arrays, whose indexing is modelled by item_clamp (documented behaviour of JAX); index lists without repetition |
| C142 | the values of HNetMLP | proved | PropsSig: hnet_forward_value, hnet_powers | integer powers; the dropout function is arbitrary, weights are given |
| C143 | patches out of range | proved | PropsRange: hom_to_affine_any_patch, affine_to_hom_any_patch, affine_hom_affine_any_patch, patch_out_of_range_refuted | that a patch out of range means the same everywhere is refuted |
| C144 | the Fubini-Study metric as an algebraic metric | proved | PropsFubini: fubini_algebraic_metric, fubini_algebraic_kahler, fubini_eta_weight, degree_one_metric | exact arithmetic; the logarithm is only assumed additive on positive products; reduced bases of degree at least that of the equation do not contain all monomials and are not covered |
| C145 | symmetries of the sample | proved | PropsSymmetry: step_keeps_symmetry, steps_keep_symmetry, balanced_is_symmetric, steps_restore_symmetry, step_conjugate | the same sample in every step; H of complex dtype; floats not modelled; convergence over the reals of the standard library, with its axioms; linear maps are normalised to determinant of absolute value one where the metric itself (not only up to scale) is compared |
| C146 | symmetries of the coordinates | proved | PropsSymmetry: sampled_steps_symmetric, sampled_steps_symmetric_limit, symmetric_entries_vanish, dwork_equation_symmetries, full_basis_permuted | the same sample in every step; H of complex dtype; floats not modelled; as C127 and C131 |
| C147 | eta and Kaehler potential under symmetries of the coordinates | proved | PropsSymmetry2: eta_at_moved_point, kahler_at_moved_point, dwork_eta_symmetric | diff_ok is the contract of jax differentiation; exact arithmetic |
| C148 | curvature under symmetries of the coordinates | proved | PropsSymmetry2: ricci_at_moved_point | diff_ok is the contract of jax differentiation; over the reals of the standard library, with its axioms |
| C149 | the conjugate point | proved | PropsConj: conjugate_point, conjugate_point_same_eta, real_point_real_metric | diff_ok is the contract of jax differentiation; exact arithmetic; real_hypersurface holds for the Fermat and Dwork varieties and for string equations with real coefficients |
| C15 | change_chart to the same patch | proved | PropsProjective: change_chart_same_patch, change_chart_same_patch_refuted | identity law refuted; exact fixed points proved |
| C150 | real H | proved | PropsConj: step_keeps_real, steps_keep_real, balanced_is_real, steps_real_limit, sampled_steps_keep_real, sampled_steps_real_limit | the same sample in every step; H of complex dtype; floats not modelled; convergence over the reals of the standard library, with its axioms |
| C151 | how fast the steps converge | proved | PropsRate: steps_converge_geometrically, stable_steps_converge_geometrically, sampled_steps_converge_geometrically | the same sample in every step; H of complex dtype; floats not modelled; the complex numbers over the reals of the standard library, whose axioms it uses (the first holds in every closed field, without axioms); as C127; the ratio depends on the sample, no explicit value is given |
| C152 | uniqueness of the Cholesky parameters | proved | PropsChol: cholesky_decode_same, cholesky_param_unique, cholesky_param_bijective | exact arithmetic; real diagonal as documented |
| C153 | sigma accuracy of the Fubini-Study metric | proved | PropsFubini2: sigma_of_fubini, sigma_of_fubini_zero | diff_ok is the contract of jax differentiation; exact arithmetic; H as diagonal matrix |
| C154 | products of algebraic metrics | proved | PropsProduct: product_positive, product_metric, product_kahler, product_same_metric | diff_ok is the contract of jax differentiation; full monomial bases; exact arithmetic; log only needs to turn products of positive numbers into sums |
| C155 | metrics of higher degree include those of lower degree | proved | PropsProduct: lift_to_multiple_degree | as C154; H as a matrix |
| C156 | the variance loss bounds sigma accuracy | proved | PropsVar: sigma_below_variance | real closed fields; exact arithmetic; weights with positive mean, as in the code eta real |
| C157 | Linear changes of the homogeneous coordinates | proved | PropsLinear: linear_sections, linear_metric, linear_measures, linear_local_metric | Stated on the objects of the model on each patch (on_patch), as C88-C91 are. |
| C158 | Unitary changes of coordinates, sample weights and Donaldson steps | proved | PropsLinear: unitary_weight, unitary_step | Degree equal to the number of coordinates; for other degrees the weights depend on the patch (C90). |
| C159 | Curvature under linear changes of the homogeneous coordinates | proved | PropsLinear2: linear_curvature | Over CR (stdlib reals): the complex logarithm is needed for the Ricci tensor. |
| C16 | Fubini-Study metric is Hermitian positive definite | proved | PropsProjective: fs_metric_value, fs_metric_hermitian, fs_metric_positive |  |
| C160 | The Kaehler potential determines H | proved | PropsIdent: kahler_determines_h, kahler_determines_parameters | Any logarithm which turns products into sums and is injective on positive numbers; this holds for the complex logarithm (Example complex_log). |
| C161 | The Fubini-Study matrix is the invariant one | proved | PropsIdent: fubini_unitary, fubini_only_invariant |  |
| C162 | The metric of the ambient space determines H up to a positive factor | proved | PropsIdent2: metric_determines_h | Both directions. The equality of the metrics is polarised to independent z and w; logarithmic derivatives of polynomials along lines show that the two polarised potentials differ by a factor a(z) b(w), and degrees show that both are constant. |
| C163 | Donaldson steps keep unitary symmetries of the sample | proved | PropsLinear3: rotation_steps, rotation_balanced, rotation_limit | All unitary symmetries, not just monomial ones (those are C145 and C146). Full monomial basis, whose sections span on a sample only for k below the degree of the variety (C165); C166 has the statement for the reduced basis. The limit uses the classical axioms of the Coq reals. |
| C164 | The reduced basis describes the same metrics as the full basis | proved | PropsReduce: reduced_same_metrics, reduced_same_ricci, same_metrics_same_sigma | reduced_same_metrics and same_metrics_same_sigma over any algebraically closed field with a norm; the curvature over the complex numbers, where eta on the hypersurface determines it. |
| C165 | When a Donaldson step can be inverted | proved | PropsRank: T_invertible_iff, T_few_points, T_full_basis_singular, reduced_independent_iff, reduced_independent_line, reduced_independent_dwork, reduced_independent_fermat, T_sample_exists | T_mean is the matrix inverted by the modelled donaldson_step (C115). The model writes the inverse of a singular matrix as mathcomp's invmx; what LAPACK returns is not modelled. T_sample_exists uses classical logic. |
| C166 | Unitary symmetries with the reduced basis | proved | PropsLinear4: rotation_kernel_steps, rotation_kernel_balanced, rotation_kernel_limit, kernel_invariant_norms | Contains the case k at least the degree of the variety, which the full basis of C163 excludes. Invariance is stated for pairs of points, because the monomials of the reduced basis are independent only on the hypersurface. The limit uses the classical axioms of the Coq reals. |
| C167 | Metrics with an invariant kernel are invariant | proved | PropsLinear5: kernel_isometry, kernel_curvature, invariant_kernel_exists | Together with C166 the limit of the Donaldson steps on a sample with a unitary symmetry has metric and curvature with this symmetry. Stated for the objects of the pipeline on a patch (on_patch); C95 to C98 relate them to the methods. kernel_curvature uses the classical axioms of the Coq reals. |
| C17 | Fubini-Study metric is the complex Hessian of the potential | proved | PropsProjective: fs_metric_is_hessian | log is any function with derivative 1/x near 1 + sum z zc |
| C18 | Fubini-Study geometry does not depend on the patch | proved | PropsProjective: fs_metric_patch_independent, fs_potential_homogeneous |  |
| C19 | Jacobian of the embedding is tangent to the variety | proved | PropsDiff: jacobian_embed_tangent, jacobian_embed_is_jacobian |  |
| C20 | induced metric is the Hermitian positive definite pullback | proved | PropsDiff: induced_metric_pullback |  |
| C21 | volume ratio does not depend on the dependent coordinate | proved | PropsDiff: volume_ratio_closed_form, volume_ratio_dependent_free | no invertibility or positivity needed |
| C22 | subscript parsing is stable | proved | PropsStr: merge_split_subscript, split_subscript_plain, split_subscript_spellings, split_subscript_two, split_subscript_digits_and_sub, split_subscript_not_integer, merge_split_negative_refuted, merge_split_inner_digit_refuted | limits (negative subscripts, digits inside names) given as refutations |
| C23 | index union | proved | PropsPoly: union_indices_members, union_indices_sorted, union_indices_members_rep |  |
| C24 | from_sympy does not depend on symbol iteration order (names given) | proved | PropsPoly: from_sympy_visit_order, from_sympy_names | the normal form of sympy.Poly is an arbitrary function |
| C25 | from_sympy with automatic variables | proved | PropsPoly: from_sympy_auto_refuted, from_sympy_auto_result | documented detection refuted; exact result proved |
| C26 | mixed subscripted and plain use of a variable | proved | PropsPoly: from_sympy_mixed_use, from_sympy_two_spellings |  |
| C27 | argument binding of polynomials | proved | PropsPoly: arguments_by_keyword, arguments_positional, arguments_without_params, arguments_too_many, arguments_missing, arguments_number_of_params |  |
| C28 | numeric evaluation equals substitution | proved | PropsPoly: from_sympy_evaluates, poly_call_value, poly_call_all_inputs, symbolic_call_agrees | scalar arithmetic (no batch broadcasting); expressions without the imaginary unit (see C71) |
| C29 | evaluation does not modify its inputs | proved | PropsStore: evaluation_preserves_store, evaluation_mutable_safe, evaluation_overwrites_refuted, evaluation_history_refuted | refuted for mutable 0-d arrays; exact effect proved |
| C30 | monomial evaluation strategies agree | proved | PropsMon: monomials_value, monomials_rejects, monomials_missing_value | exp and log enter through their functional equations; shapes that numpy would broadcast are rejected in the model |
| C31 | coefficient extraction inverts construction | proved | PropsMon: to_coeffs_value, to_coeffs_accepts, to_coeffs_imaginary_refuted, from_coeffs_value, from_coeffs_accepts, coeffs_round_trip, from_coeffs_absent_refuted, from_coeffs_defaults, from_coeffs_names_exhausted | the terms of the sympy polynomial are a stated contract; partly refuted: multiples of the imaginary unit lose their magnitude, powers of parameters are rejected, tables of absent variables are rejected without explicit indices |
| C32 | polynomial arithmetic is pointwise | proved | PropsPoly: poly_add_pointwise, poly_mul_pointwise, poly_sub_pointwise, poly_arith_metadata, poly_arith_succeeds, poly_arith_mixed_use | two Poly objects |
| C33 | univariate coefficients rebuild the polynomial | proved | PropsUniv: univariate_coefficients_value, univariate_no_variables_refuted | sympy.Poly(poly, var).terms() is a stated contract; raises when no variable is left but coefficients have parameters |
| C34 | patch numbering is a bijection | proved | PropsHom: patch_number_formula, patch_number_range, patch_number_injective, patch_number_onto |  |
| C35 | affine polynomial equals homogeneous polynomial with coordinate 1 | proved | PropsHom: affine_poly_value, affine_poly_subscript, affine_poly_position_refuted, affine_poly_missing_refuted, affine_poly_single_refuted | positional contract proved for indices 0..d-1 and refuted otherwise; sympy's evaluation of a generator at 1 is a stated contract (norm) |
| C36 | affine polynomial cache is transparent | proved | PropsHom: affine_cache_transparent, hom_call_patch, affine_cache_negative_refuted, affine_cache_range_refuted | refuted for requests out of range |
| C37 | compiled evaluation dispatches to the right patch | proved | PropsHom: compiled_eval_patch, compiled_eval_clamped, compiled_eval_homogeneous | jax.lax.switch: traces all branches, clamps the number |
| C38 | Dwork and Fermat polynomials are homogeneous and symmetric | proved | PropsHom: dwork_scaling, dwork_symmetric, dwork_affine_value, dwork_accepts, dwork_closed_form, dwork_all_ones, dwork_is_generic, fermat_scaling, fermat_symmetric, fermat_affine_value, fermat_is_dwork |  |
| C39 | sampled points lie on the variety | proved | PropsVariety: sample_on_variety, sample_affine_on_variety | for lines whose direction q is not on the variety (and, in affine coordinates, not through the origin); jnp.roots and sympy's terms are stated contracts; random numbers are arbitrary |
| C40 | number of sampled points | proved | PropsVariety: sample_on_variety, sample_count_enough, sample_count_short_refuted | documented count refuted for degree below the number of coordinates |
| C41 | sampling weights are positive and consistent | proved | PropsVariety: weights_closed_form, weights_separate_parts, weights_vol_refuted | consistency with separate=True refuted for vol other than 1 (or None) |
| C42 | solve_defining completes points | proved | PropsVariety: solve_defining_completes, solve_defining_no_patch_refuted | for integer patch and position, more than two coordinates, and points where the degree in the solved coordinate does not drop; default patch=None raises |
| C43 | best_dependent | proved | PropsVariety: best_dependent_refuted, best_dependent_swapped_refuted | documented behaviour refuted |
| C44 | monomial basis is complete | proved | PropsBasis: monomial_basis_complete, monomial_basis_indices_match, monomial_basis_negative |  |
| C45 | section evaluation | proved | PropsBasis: sections_value, sections_value_affine, basis_full_complete | patches counted from 0 to n; exp and log enter through their functional equations |
| C46 | basis reduction never fails and has the predicted size | proved | PropsBasis, PropsDraw: reduced_basis_constant, reduced_basis_list, reduced_basis_size, reduced_basis_inhomogeneous |  |
| C47 | reduced monomials are a basis modulo the polynomial | proved | PropsBasis: reduced_class_basis, reduced_sections_span, reduced_order_refuted, reduced_missing_variable_refuted | proved for the order of MonomialBasisReduced when every variable occurs; refuted for arbitrary order and for polynomials that do not use some variable. The terms of the sympy polynomial are those of a polynomial of the SsrMultinomials library |
| C48 | algebraic metric is the Hessian of the Kaehler potential | proved | PropsGeom: metric_is_hessian, local_metric_is_hessian | log enters through its derivative 1/x; the derivatives s_1, s_2, grad_def, jac_h taken by JAX are a stated contract, proved for polynomials (C74) |
| C49 | derivatives of the ambient metric | proved | PropsGeom: ambient_metric_derivatives | log enters through its derivative 1/x; the derivatives s_1, s_2, grad_def, jac_h taken by JAX are a stated contract, proved for polynomials (C74) |
| C50 | derivatives of the local metric | proved | PropsGeom: local_metric_derivatives | log enters through its derivative 1/x; the derivatives s_1, s_2, grad_def, jac_h taken by JAX are a stated contract, proved for polynomials (C74) |
| C51 | Ricci tensor | proved | PropsGeom: ricci_is_mixed_derivative, ricci_on_variety, scale_invariance | log enters through its derivative 1/x; the derivatives s_1, s_2, grad_def, jac_h taken by JAX are a stated contract, proved for polynomials (C74) |
| C52 | metric is insensitive to the scale of H and eta is positive | proved | PropsGeom: scale_invariance, eta_is_real, eta_is_positive, eta_dependent_free |  |
| C53 | diagonal H | proved | PropsGeom: diagonal_h, diagonal_h_refuted | documented support for a 1-d H refuted for everything that needs psi_hh |
| C54 | sigma accuracy | proved | PropsDonaldson: sigma_nonnegative, sigma_zero_iff, sigma_below_two, sigma_eta_scale, sigma_accuracy_value, sigma_accuracy_scale | sampled points, their weights and section values are arguments; float rounding not modelled |
| C55 | Donaldson step | proved | PropsDonaldson: step_is_inverse, step_is_hermitian, step_is_positive, step_batching, step_trace_identity, step_scaling_h, step_antihermitian_part | sampled points, their weights and section values are arguments; float rounding not modelled |
| C56 | Cholesky decoding | proved | PropsML: cholesky_decode_posdef, cholesky_decode_onto, cholesky_decode_bad_size |  |
| C57 | Hermitian parametrisation starts at the identity | proved | PropsML: hermitian_param_init_identity, hermitian_param_init_fluctuate, cholesky_from_param_square, cholesky_from_param_onto, cholesky_from_param_rejects, hermitian_param_init_range_refuted | the documented uniform range of the fluctuation is refuted (normal draws) |
| C58 | initial network output | proved | PropsML: hnet_initial_matrix, hnet_initial_identity_refuted | the stated intention is refuted for sig_suppress; exact initial matrix proved; weights and activations arbitrary |
| C59 | network input features | proved | PropsML: hnet_features_value, hnet_features_raises, hnet_output_size, hnet_angle_features_refuted | integer powers; the documented angle features are refuted |
| C60 | batch sampler is a gap-free stream | proved | PropsML: batch_sampler_stream, batch_sampler_zero_buffer | sampling function and key splitting arbitrary |
| C61 | batch sampler after a failed refill | proved | PropsML: batch_sampler_failure_refuted | refuted; exact behaviour proved |
| C62 | variance loss | proved | PropsML: variance_loss_nonneg, variance_part_scale_free, variance_loss_zero | log: any function with log 1 = 0, positive above 1; eta given as values |
| C63 | random complex numbers are in range | proved | PropsRandom: uniform_components_range, uniform_components_onto, uniform_components_refuted, uniform_angle_polar, uniform_angle_area, uniform_angle_unit_circle | draws of jax.random are arguments; real numbers of the standard library instead of floats; that the draws are uniform resp. normal is not modelled; the documented range [0, 1) of the components is refuted |
| C64 | points on spheres | proved | PropsDraw, PropsRandom: uniform_projective_homogeneous, real_sphere_norm, complex_sphere_norm, uniform_projective_patch | draws of jax.random are arguments; real numbers of the standard library instead of floats; that the draws are uniform resp. normal is not modelled |
| C65 | overlap samples stay in the overlap | proved | PropsRandom: overlap_in_both_patches | draws of jax.random are arguments; real numbers of the standard library instead of floats; that the draws are uniform resp. normal is not modelled |
| C66 | overlap sampling is symmetric under change_chart | proved | PropsRandom: overlap_symmetric_01, overlap_flip_involution, overlap_symmetric_refuted | draws of jax.random are arguments; real numbers of the standard library instead of floats; that the draws are uniform resp. normal is not modelled; documented invariance refuted except for the patches 0 and 1 |
| C67 | negative patch index | proved | PropsProjective: hom_to_affine_negative_patch |  |
| C68 | negative dependent index | proved | PropsDiff: jacobian_embed_negative_refuted | refuted by a witness |
| C69 | hidden layers with a dropout list | proved | PropsML: hnet_hidden_layers_count, hnet_layer_sizes_refuted | refuted; exact count proved |
| C70 | symbolic substitution | proved | PropsPoly: symbolic_call_value, symbolic_call_swap_refuted | refuted in general; proved when replacements contain no symbol of the polynomial |
| C71 | complex coefficients | proved | PropsPoly: imaginary_unit_refuted | refuted |
| C72 | parameters sharing a base name with a variable | proved | PropsPoly: parameter_clash_scalar_refuted, parameter_clash_vector_refuted, parameter_clash_missing | refuted |
| C73 | sections are homogeneous and change patch by a power | proved | PropsBasis: sections_homogeneous, sections_patch_factor |  |
| C74 | polynomial sections satisfy the differentiability contract | proved | PropsGeom: polynomial_sections, polynomial_embedding |  |
| C75 | the algebraic metric is positive | proved | PropsGeom: metric_semidefinite, metric_positive_iff |  |
| C76 | default dependent coordinate | proved | PropsGeom: dependent_default |  |
| C77 | Donaldson step and the volume argument | proved | PropsDonaldson: step_scaling_vol, step_fixed_point_volume | sampled points, their weights and section values are arguments; float rounding not modelled |
| C78 | Donaldson step: patch and basis | proved | PropsDonaldson: step_patch_independent, step_basis_change | sampled points, their weights and section values are arguments; float rounding not modelled |
| C79 | Donaldson step: weights that are not finite | proved | PropsDonaldson: step_nonfinite_weights | sampled points, their weights and section values are arguments; float rounding not modelled |
| C80 | Donaldson step: real h | proved | PropsDonaldson: step_real_h_refuted | documented contract refuted: the carry of fori_loop would change its dtype, which JAX rejects with TypeError |
| C81 | random spheres are equivariant under unitary matrices | proved | PropsRandom: complex_sphere_unitary | draws of jax.random are arguments; real numbers of the standard library instead of floats; that the draws are uniform resp. normal is not modelled |
| C82 | overlap samples cover the overlap region | proved | PropsRandom: overlap_covers, overlap_covers_refuted | draws of jax.random are arguments; real numbers of the standard library instead of floats; that the draws are uniform resp. normal is not modelled |
| C83 | smooth points of the variety have local coordinates | proved | PropsSections: smooth_point_parametrised |  |
| C84 | sections are the monomials with the patch coordinate set to one | proved | PropsSections: sections_are_polynomials, dehomogenised_value | log strategy under its contract, which C86 discharges over the complex numbers |
| C85 | the algebraic metric of a monomial basis is positive | proved | PropsSections: full_basis_metric_positive, reduced_basis_metric_positive, degree_zero_degenerate | the reduced basis needs every variable to occur in the polynomial, otherwise C46 applies |
| C86 | exp and log strategy over the complex numbers | proved | PropsComplex: complex_exp_log, complex_log_near, complex_log_product, complex_log_real | uses the real numbers of the standard library |
| C87 | metric and Ricci tensor over the complex numbers | proved | PropsComplex: full_basis_metric, reduced_basis_metric | uses the real numbers of the standard library; automatic differentiation is represented by exact derivatives |
| C88 | the algebraic metric does not depend on the patch | proved | PropsPatch: algebraic_metric_patch | sections and defining polynomial as exact polynomials; the derivative arrays as exact derivatives |
| C89 | the defining equation on two patches | proved | PropsPatch: gradient_patch | sections and defining polynomial as exact polynomials; the derivative arrays as exact derivatives |
| C90 | measures depend on the patch unless the hypersurface is Calabi-Yau | proved | PropsPatch: measures_patch | sections and defining polynomial as exact polynomials; the derivative arrays as exact derivatives; dependent coordinates explicit, C76 covers the default |
| C91 | the metric in local coordinates on two patches | proved | PropsPatch: local_metric_patch | sections and defining polynomial as exact polynomials; the derivative arrays as exact derivatives |
| C92 | Ricci tensor and scalar on two patches | proved | PropsRicci: ricci_patch | over the complex numbers on stdlib R; exact arithmetic; basis full, or reduced by the same polynomial with every variable occurring |
| C93 | Ricci tensor and scalar for two dependent coordinates | proved | PropsRicci: ricci_dependent | over the complex numbers on stdlib R; exact arithmetic; basis full, or reduced by the same polynomial with every variable occurring |
| C94 | the defining equation of a hypersurface is a polynomial function | proved | PropsAlg: defining_is_polynomial | norm is the normal form of sympy, under its contract |
| C95 | AlgebraicMetric on homogeneous coordinates is a function of the projective point | proved | PropsAlg: algebraic_rescaling, algebraic_default_patch | one point at a time; jax.grad and jax.jacfwd are an operator which returns the complex derivative where there is one; the parameters as an array |
| C96 | AlgebraicMetric.metric does not depend on the arguments chosen for the coordinates | proved | PropsAlg: algebraic_metric_point | one point at a time; jax.grad and jax.jacfwd are an operator which returns the complex derivative where there is one; the parameters as an array |
| C97 | AlgebraicMetric.ricci and ricci_scalar do not depend on the arguments chosen for the coordinates | proved | PropsAlg: algebraic_ricci_point | one point at a time; jax.grad and jax.jacfwd are an operator which returns the complex derivative where there is one; the parameters as an array; over the complex numbers on stdlib R |
| C98 | AlgebraicMetric.eta and the patch | proved | PropsAlg: algebraic_eta_point | one point at a time; jax.grad and jax.jacfwd are an operator which returns the complex derivative where there is one; the parameters as an array |
| C99 | AlgebraicMetric.kahler_potential and the patch | proved | PropsAlg: algebraic_kahler_point | one point at a time; jax.grad and jax.jacfwd are an operator which returns the complex derivative where there is one; the parameters as an array; the logarithm is any function turning products of positive numbers into sums |

## Print Assumptions

**Closed under the global context**

* `PropsAlg`: defining_is_polynomial, algebraic_rescaling, algebraic_default_patch, algebraic_kahler_point, algebraic_wrong_length, algebraic_gradient_argument, algebraic_gradient_scaled
* `PropsBasis`: monomial_basis_complete, monomial_basis_indices_match, monomial_basis_negative, sections_value, sections_value_affine, basis_full_complete, sections_homogeneous, sections_patch_factor, reduced_basis_list, reduced_basis_size, reduced_basis_inhomogeneous, reduced_class_basis, reduced_sections_span, reduced_order_refuted, reduced_missing_variable_refuted
* `PropsChol`: cholesky_decode_same, cholesky_param_unique, cholesky_param_bijective
* `PropsConj`: step_keeps_real, steps_keep_real, balanced_is_real, sampled_steps_keep_real
* `PropsDiff`: jacobian_embed_tangent, jacobian_embed_is_jacobian, jacobian_embed_negative_refuted, induced_metric_pullback, volume_ratio_closed_form, volume_ratio_dependent_free
* `PropsDonaldson`: sigma_nonnegative, sigma_zero_iff, sigma_below_two, sigma_eta_scale, sigma_accuracy_value, sigma_accuracy_scale, step_is_inverse, step_is_hermitian, step_is_positive, step_batching, step_trace_identity, step_scaling_h, step_antihermitian_part, step_scaling_vol, step_fixed_point_volume, step_patch_independent, step_basis_change, step_nonfinite_weights, step_real_h_refuted
* `PropsDraw`: reduced_basis_constant
* `PropsEta`: ricci_is_hermitian
* `PropsFubini`: fubini_algebraic_metric, fubini_algebraic_kahler, fubini_eta_weight, degree_one_metric
* `PropsFubini2`: sigma_of_fubini_zero
* `PropsGeom`: metric_is_hessian, local_metric_is_hessian, ambient_metric_derivatives, local_metric_derivatives, ricci_is_mixed_derivative, ricci_on_variety, scale_invariance, eta_is_real, eta_is_positive, eta_dependent_free, diagonal_h, diagonal_h_refuted, polynomial_sections, polynomial_embedding, metric_semidefinite, metric_positive_iff, dependent_default
* `PropsHom`: patch_number_formula, patch_number_range, patch_number_injective, patch_number_onto, affine_poly_value, affine_poly_subscript, affine_poly_position_refuted, affine_poly_missing_refuted, affine_poly_single_refuted, affine_cache_transparent, hom_call_patch, affine_cache_negative_refuted, affine_cache_range_refuted, compiled_eval_patch, compiled_eval_clamped, compiled_eval_homogeneous, dwork_scaling, dwork_symmetric, dwork_affine_value, dwork_accepts, dwork_closed_form, dwork_all_ones, dwork_is_generic, fermat_scaling, fermat_symmetric, fermat_affine_value, fermat_is_dwork
* `PropsIdent`: kahler_determines_h, kahler_determines_parameters, fubini_unitary, fubini_only_invariant
* `PropsIdent2`: metric_determines_h
* `PropsInput`: sympy_poly_evaluates, sympy_poly_keyword_calls, sympy_poly_positional_refuted, sympy_poly_generators_refuted
* `PropsLinear`: linear_sections, linear_metric, linear_measures, linear_local_metric, unitary_weight, unitary_step
* `PropsLinear3`: rotation_steps, rotation_balanced
* `PropsLinear4`: rotation_kernel_steps, rotation_kernel_balanced, kernel_invariant_norms
* `PropsLinear5`: kernel_isometry, invariant_kernel_exists
* `PropsML`: cholesky_decode_posdef, cholesky_decode_onto, cholesky_decode_bad_size, hermitian_param_init_identity, hermitian_param_init_fluctuate, cholesky_from_param_square, cholesky_from_param_onto, cholesky_from_param_rejects, hermitian_param_init_range_refuted, hnet_initial_matrix, hnet_initial_identity_refuted, hnet_features_value, hnet_features_raises, hnet_angle_features_refuted, hnet_output_size, batch_sampler_stream, batch_sampler_zero_buffer, batch_sampler_failure_refuted, variance_loss_nonneg, variance_part_scale_free, variance_loss_zero, hnet_hidden_layers_count, hnet_layer_sizes_refuted
* `PropsMon`: monomials_value, monomials_rejects, monomials_missing_value, to_coeffs_value, to_coeffs_accepts, to_coeffs_imaginary_refuted, from_coeffs_value, from_coeffs_accepts, coeffs_round_trip, from_coeffs_absent_refuted, from_coeffs_defaults, from_coeffs_names_exhausted
* `PropsOps`: diff_is_derivative, diff_of_any_polynomial, diff_needs_variable, diff_lowers_degree, euler_identity, dwork_derivative, fermat_derivative, operation_with_number, operation_with_parameter, operation_with_variable, operation_index_mismatch, operation_with_polynomial, operation_spelling_refuted
* `PropsPatch`: algebraic_metric_patch, gradient_patch, measures_patch, local_metric_patch
* `PropsPipe`: weights_homogeneous, weights_calabi_yau, dwork_weights, fermat_weights, samples_with_weights, volume_estimate, samples_rescaled, step_of_samples, poly_sampler, dwork_sampler, fermat_sampler, dwork_complex_factor_refuted
* `PropsPoly`: union_indices_members, union_indices_sorted, union_indices_members_rep, from_sympy_visit_order, from_sympy_names, from_sympy_auto_refuted, from_sympy_auto_result, from_sympy_mixed_use, from_sympy_two_spellings, arguments_by_keyword, arguments_positional, arguments_without_params, arguments_too_many, arguments_missing, arguments_number_of_params, from_sympy_evaluates, poly_call_value, poly_call_all_inputs, symbolic_call_agrees, symbolic_call_value, symbolic_call_swap_refuted, imaginary_unit_refuted, parameter_clash_scalar_refuted, parameter_clash_vector_refuted, parameter_clash_missing, poly_add_pointwise, poly_mul_pointwise, poly_sub_pointwise, poly_arith_metadata, poly_arith_succeeds, poly_arith_mixed_use
* `PropsProduct`: product_positive, product_metric, product_kahler, product_same_metric, lift_to_multiple_degree
* `PropsProjective`: index_conversions_inverse, index_affine_to_hom_addresses, affine_hom_affine, hom_affine_hom, hom_to_affine_projective, hom_to_affine_auto_patch, change_chart_transition, change_chart_cocycle, change_chart_same_patch, change_chart_same_patch_refuted, fs_metric_value, fs_metric_hermitian, fs_metric_positive, fs_metric_is_hessian, fs_metric_patch_independent, fs_potential_homogeneous, hom_to_affine_negative_patch
* `PropsRange`: hom_to_affine_any_patch, affine_to_hom_any_patch, affine_hom_affine_any_patch, patch_out_of_range_refuted
* `PropsRank`: T_invertible_iff, T_few_points, T_full_basis_singular, reduced_independent_iff, reduced_independent_line, reduced_independent_dwork, reduced_independent_fermat
* `PropsRate`: steps_converge_geometrically
* `PropsSections`: smooth_point_parametrised, sections_are_polynomials, dehomogenised_value, full_basis_metric_positive, reduced_basis_metric_positive, degree_zero_degenerate
* `PropsShort`: short_patch_number, short_patch_refuted
* `PropsSig`: poly_names, hom_poly_names, hom_poly_scalar, short_point_numpy, short_point_jax_refuted, full_point_jax, sympy_poly_given_names, sympy_poly_as_expression, sympy_poly_indices_need_names, hnet_forward_value, hnet_powers
* `PropsSolve`: solve_defining_all, dwork_solve_defining, fermat_solve_defining
* `PropsStep`: step_raises_determinant, step_mean_norm, step_lowers_energy, steps_do_not_cycle, step_keeps_order, step_is_not_expanding, steps_stay_bounded, balanced_minimises_energy, balanced_unique_to_scale, balanced_not_unique, sampled_steps, sampled_steps_raise_determinant
* `PropsStep2`: steps_limit_is_balanced, steps_accumulate_only_at_limit, balanced_bounds_weight, steps_may_diverge, general_position_stable_iff
* `PropsStore`: evaluation_preserves_store, evaluation_mutable_safe, evaluation_overwrites_refuted, evaluation_history_refuted
* `PropsStr`: merge_split_subscript, split_subscript_plain, split_subscript_spellings, split_subscript_two, split_subscript_digits_and_sub, split_subscript_not_integer, merge_split_negative_refuted, merge_split_inner_digit_refuted
* `PropsSymmetry`: step_keeps_symmetry, steps_keep_symmetry, balanced_is_symmetric, step_conjugate, sampled_steps_symmetric, symmetric_entries_vanish, dwork_equation_symmetries, full_basis_permuted
* `PropsSymmetry2`: kahler_at_moved_point
* `PropsUniv`: univariate_coefficients_value, univariate_no_variables_refuted
* `PropsUtil`: pop_removes_entry, pop_any_index, pop_empty, pop_negative, pop_negative_order_refuted, insert_1d_nonneg, insert_1d_negative, insert_1d_negative_block, pop_insert_1d, insert_col_rows, insert_col_bad_rows, flatten_unflatten_pointwise, flatten_coord_total, flatten_unflatten_identity, flatten_coord_c_shape, flatten_coord_c_default, shuffle_axis_permutes, binomial_exact, binomial_raises, mc_integrate_value, mc_integrate_documented_refuted, mc_integrate_batched_value, prng_sequence_stream, prng_sequence_history, prng_seed_int_key
* `PropsVar`: sigma_below_variance
* `PropsVariety`: sample_on_variety, sample_affine_on_variety, sample_count_enough, sample_count_short_refuted, weights_closed_form, weights_separate_parts, weights_vol_refuted, solve_defining_completes, solve_defining_no_patch_refuted, best_dependent_refuted, best_dependent_swapped_refuted
* `PropsVariety2`: dwork_gradient_formula, fermat_gradient_formula, dwork_smooth_iff, fermat_is_smooth, hypersurface_is_polynomial, variety_jacobian, induced_metric_conjugate, induced_metric_conjugate_refuted, induced_metric_no_parameters_refuted, induced_fs_point_patch, variety_dimensions, variety_one_variable, variety_parameter_count, from_sympy_coordinates, from_sympy_degree_refuted
* `PropsVariety3`: call_ignores_clashing_refuted, sample_ignores_clashing_refuted, clash_conic_refuted

**Axioms: `ClassicalDedekindReals.sig_forall_dec`, `ClassicalDedekindReals.sig_not_dec`, `Classical_Prop.classic`, `Epsilon.epsilon_statement`, `FunctionalExtensionality.functional_extensionality_dep`**

* `PropsAlg`: algebraic_ricci_point
* `PropsComplex`: complex_exp_log, complex_log_near, complex_log_product, complex_log_real, full_basis_metric, reduced_basis_metric
* `PropsConj`: steps_real_limit, sampled_steps_real_limit
* `PropsEta`: ricci_from_eta, eta_determines_ricci, ricci_at_eta_maximum, ricci_at_eta_minimum, calabi_yau_ricci_signs
* `PropsLinear2`: linear_curvature
* `PropsLinear3`: rotation_limit
* `PropsLinear4`: rotation_kernel_limit
* `PropsLinear5`: kernel_curvature
* `PropsRandom`: uniform_angle_unit_circle, overlap_in_both_patches, overlap_symmetric_01, overlap_symmetric_refuted, overlap_covers, overlap_covers_refuted
* `PropsRate`: stable_steps_converge_geometrically, sampled_steps_converge_geometrically
* `PropsReduce`: reduced_same_ricci
* `PropsRicci`: ricci_patch, ricci_dependent
* `PropsStep`: complex_log_is_like
* `PropsStep2`: steps_converge_to_balanced, balanced_exists_iff_stable, stable_steps_converge, general_position_converges, sampled_steps_converge
* `PropsSymmetry`: steps_restore_symmetry, sampled_steps_symmetric_limit
* `PropsSymmetry2`: ricci_at_moved_point

**Axioms: `ClassicalDedekindReals.sig_forall_dec`, `ClassicalDedekindReals.sig_not_dec`, `Epsilon.epsilon_statement`, `FunctionalExtensionality.functional_extensionality_dep`**

* `PropsDraw`: uniform_projective_homogeneous
* `PropsRandom`: uniform_components_onto, uniform_angle_polar, uniform_angle_area, real_sphere_norm, complex_sphere_norm, uniform_projective_patch, complex_sphere_unitary

**Axioms: `ClassicalDedekindReals.sig_forall_dec`, `FunctionalExtensionality.functional_extensionality_dep`**

* `PropsRandom`: uniform_components_range, uniform_components_refuted, overlap_flip_involution

**Axioms: `Classical_Prop.classic`**

* `PropsRank`: T_sample_exists

**Axioms: `FunctionalExtensionality.functional_extensionality_dep`**

* `PropsAlg`: algebraic_metric_point, algebraic_eta_point
* `PropsConj`: conjugate_point, conjugate_point_same_eta, real_point_real_metric
* `PropsFubini2`: sigma_of_fubini
* `PropsPipe`: sigma_of_samples, dwork_end_to_end, fermat_end_to_end
* `PropsReduce`: reduced_same_metrics, same_metrics_same_sigma
* `PropsSymmetry2`: eta_at_moved_point, dwork_eta_symmetric
* `PropsVariety2`: smooth_metric_everywhere


## Functions of the package and definitions citing them

A dash means that no definition cites the function; see above for the reasons.

```
differential.py:27 complex_hessian -> ModelDiff, ModelDiff.mixed_hessian
differential.py:71 jacobian_embed -> ModelDiff.jacobian_embed
differential.py:108 induced_metric -> ModelDiff.induced_metric
donaldson.py:36 monomial_basis_indices -> ModelBasis.monomial_basis_indices
donaldson.py:55 monomial_basis -> ModelBasis.monomial_basis
donaldson.py:82 monomial_basis_size -> ModelBasis.monomial_basis_size
donaldson.py:92 _getpows -> ModelBasis.pow_scan
donaldson.py:100 _compute_monomials_index -> ModelBasis.compute_monomials_index
donaldson.py:116 _compute_monomials_log -> ModelBasis.compute_monomials_log
donaldson.py:144 LBSections.size -> -
donaldson.py:148 LBSections.__init__ -> -
donaldson.py:151 LBSections.__call__ -> -
donaldson.py:174 _MonomialBasis.__init__ -> ModelBasis.basis
donaldson.py:179 _MonomialBasis.size -> ModelBasis.basis, ModelBasis.basis_size
donaldson.py:183 _MonomialBasis.__call__ -> ModelBasis.basis, ModelBasis.basis_call
donaldson.py:196 MonomialBasisFull.__init__ -> ModelBasis.basis, ModelBasis.basis_full
donaldson.py:202 reduced_monomial_basis -> ModelBasis
donaldson.py:273 MonomialBasisReduced.__init__ -> ModelBasis.basis, ModelBasis.lexge
donaldson.py:296 _transform_if_static -> -
donaldson.py:318 GeometricObjects.__init__ -> ModelAlg.alg_objects, ModelAlg.alg_point, ModelAlg.alg_sections, ModelGeom
donaldson.py:380 GeometricObjects.dependent -> ModelGeom.ob_dependent
donaldson.py:393 GeometricObjects.s_c -> ModelGeom.s_c
donaldson.py:398 GeometricObjects.s_1_c -> ModelGeom.s_1_c
donaldson.py:408 GeometricObjects.s_2_c -> ModelGeom.s_2_c
donaldson.py:421 GeometricObjects.kahler -> ModelGeom.kahler
donaldson.py:426 GeometricObjects.psi -> ModelGeom.psi
donaldson.py:433 GeometricObjects.psi_h -> ModelGeom.psi_h
donaldson.py:440 GeometricObjects.psi_a -> ModelGeom.psi_a
donaldson.py:445 GeometricObjects.psi_ha -> ModelGeom.psi_ha
donaldson.py:452 GeometricObjects.psi_hh -> ModelGeom.psi_hh
donaldson.py:459 GeometricObjects.psi_aa -> ModelGeom.psi_aa
donaldson.py:464 GeometricObjects.psi_hha -> ModelGeom.psi_hha
donaldson.py:471 GeometricObjects.psi_hhaa -> ModelGeom.psi_hhaa
donaldson.py:481 GeometricObjects.g_proj -> ModelGeom.g_proj
donaldson.py:487 GeometricObjects.psi_h_psi_ha -> ModelGeom.psi_h_psi_ha
donaldson.py:492 GeometricObjects.two_hha -> ModelGeom.two_hha
donaldson.py:502 GeometricObjects.three_hha -> ModelGeom.three_hha
donaldson.py:510 GeometricObjects.g_proj_h -> ModelGeom.g_proj_h
donaldson.py:523 GeometricObjects.g_proj_a -> ModelGeom.g_proj_a
donaldson.py:528 GeometricObjects.psi_hha_psi_a -> ModelGeom.psi_hha_psi_a
donaldson.py:536 GeometricObjects.psi_ha_psi_ha -> ModelGeom.psi_ha_psi_ha
donaldson.py:543 GeometricObjects.two_haha -> ModelGeom.two_haha
donaldson.py:561 GeometricObjects.three_haha -> ModelGeom.three_haha
donaldson.py:575 GeometricObjects.four_haha -> ModelGeom.four_haha
donaldson.py:583 GeometricObjects.g_proj_ha -> ModelGeom.g_proj_ha
donaldson.py:599 GeometricObjects.grad_def -> ModelAlg.alg_grad
donaldson.py:604 GeometricObjects.jac -> ModelGeom.jac
donaldson.py:609 GeometricObjects.jac_c -> ModelGeom.jac_c
donaldson.py:615 GeometricObjects.jac_h -> ModelAlg.alg_jac_h, ModelGeom
donaldson.py:621 GeometricObjects.g_loc -> ModelGeom.g_loc
donaldson.py:626 GeometricObjects.g_loc_h -> ModelGeom.g_loc_h
donaldson.py:636 GeometricObjects.g_loc_ha -> ModelGeom.g_loc_ha
donaldson.py:651 GeometricObjects.g_loc_inv -> ModelGeom.g_loc_inv
donaldson.py:656 GeometricObjects.g_loc_a -> ModelGeom.g_loc_a
donaldson.py:661 GeometricObjects.ricci_proj -> ModelGeom.ricci_proj
donaldson.py:673 GeometricObjects.ricci_loc -> ModelGeom.ricci_loc
donaldson.py:678 GeometricObjects.ricci_scalar -> ModelGeom.ricci_scalar
donaldson.py:683 GeometricObjects.eta -> ModelGeom.eta
donaldson.py:695 AlgebraicMetric.degree -> ModelAlg.alg_kahler
donaldson.py:699 AlgebraicMetric.__init__ -> ModelAlg.alg_kahler
donaldson.py:713 AlgebraicMetric.kahler_potential -> ModelAlg.alg_kahler
donaldson.py:734 AlgebraicMetric.metric -> ModelAlg.alg_metric
donaldson.py:755 AlgebraicMetric.eta -> ModelAlg.alg_eta
donaldson.py:776 AlgebraicMetric.ricci -> ModelAlg.alg_ricci
donaldson.py:799 AlgebraicMetric.ricci_scalar -> ModelAlg.alg_ricci_scalar
donaldson.py:820 AlgebraicMetric.sigma_accuracy -> ModelDonaldson.sigma_accuracy, ModelDonaldson.sigma_of, ModelPipe.alg_sigma_accuracy
donaldson.py:850 AlgebraicMetric.donaldson_step -> ModelDonaldson.den, ModelDonaldson.donaldson_step, ModelDonaldson.sym_h, ModelPipe.alg_donaldson_step, ModelPipe.step_points
ml.py:32 cholesky_decode -> ModelML.cholesky_decode
ml.py:63 cholesky_from_param -> ModelML.cholesky_from_param
ml.py:84 hermitian_param_init -> ModelML.hermitian_param_init
ml.py:106 BatchSampler.__init__ -> ModelML.sampler
ml.py:163 BatchSampler.new_buffer -> ModelML.sampler
ml.py:172 BatchSampler.__iter__ -> ModelML.sampler
ml.py:175 BatchSampler.__next__ -> ModelML.sampler
ml.py:184 variance_eta_loss -> ModelML.variance_eta_mean
ml.py:265 HNetMLP.__call__ -> ModelML.feature_powers, ModelML.hidden_layer, ModelML.hidden_layers, ModelML.hnet_bias_init, ModelML.hnet_features, ModelML.hnet_forward
polynomial.py:55 latex -> -
polynomial.py:62 split_subscript -> ModelStr.split_subscript
polynomial.py:93 merge_subscript -> ModelStr.merge_subscript
polynomial.py:102 _union_indices -> ModelPoly.add_new
polynomial.py:129 any_symbolic -> -
polynomial.py:139 _sort_var_args -> ModelExpr.sort_var_args
polynomial.py:167 _sympy_eval_num -> ModelMon.sympy_eval_num
polynomial.py:181 _eval_sympy_poly -> ModelClamp.eval_clamp, ModelExpr.pyfun, ModelStore.eval_store
polynomial.py:217 _replace_float_ints -> -
polynomial.py:227 _compute_mon_scalar -> ModelMon.mon_scalar
polynomial.py:238 _compute_mon -> ModelMon.mon_scan
polynomial.py:248 compute_monomials -> ModelMon.mon_step
polynomial.py:332 Poly.__init__ -> ModelPoly.check_signature
polynomial.py:368 Poly.domain -> -
polynomial.py:380 Poly.sympy_poly -> ModelOps.z_symbols
polynomial.py:389 Poly.parameter_position -> ModelPoly.parameter_position
polynomial.py:398 Poly.variable_position -> ModelPoly.parameter_position
polynomial.py:407 Poly.variable_index_dict -> ModelPoly.parameter_position
polynomial.py:421 Poly._extra_args -> -
polynomial.py:430 Poly.transform_eval -> -
polynomial.py:453 Poly.from_poly -> ModelOps.hom_diff
polynomial.py:467 Poly.from_sympy -> ModelAlg.variety_from_sympy, ModelInput.from_sympy_obj, ModelInput.gen_bases, ModelPoly.dim_indices, ModelPoly.fs_state, ModelPoly.symarray_name
polynomial.py:646 Poly.all_symbols -> ModelPoly.symbols_of
polynomial.py:682 Poly.from_coeffs_and_powers -> ModelMon
polynomial.py:766 Poly.to_coeffs_and_powers -> ModelMon.add_coeff, ModelMon.factors, ModelMon.term
polynomial.py:833 Poly._combine_metadata -> ModelOps, ModelOps.operand, ModelPoly.merge_vars
polynomial.py:878 Poly.diff -> ModelOps, ModelOps.poly_diff
polynomial.py:885 Poly.__mul__ -> ModelOps, ModelOps.arith, ModelOps.poly_op, ModelPoly.sp_gens
polynomial.py:896 Poly.__add__ -> ModelOps, ModelOps.arith, ModelOps.poly_op, ModelPoly.sp_gens
polynomial.py:907 Poly.__sub__ -> ModelOps, ModelOps.arith, ModelOps.poly_op, ModelPoly.sp_gens
polynomial.py:918 Poly.__repr__ -> -
polynomial.py:934 Poly._repr_latex_ -> -
polynomial.py:949 Poly.__call__ -> ModelClamp.call_clamp, ModelPoly.call_num, ModelPoly.call_sym
polynomial.py:997 univariate_coefficients -> ModelPoly.coefficient
polynomial.py:1065 HomPoly.__init__ -> ModelHom, ModelHom.hom_init
polynomial.py:1088 HomPoly.unique_patch_index -> ModelHom, ModelHom.unique_patch_index
polynomial.py:1112 HomPoly.affine_poly -> ModelHom, ModelHom.affine_build, ModelHom.affine_poly
polynomial.py:1144 HomPoly._extra_args -> ModelHom
polynomial.py:1147 HomPoly.transform_eval -> ModelHom, ModelHom.cartesian
polynomial.py:1185 HomPoly.__call__ -> ModelHom, ModelHom.hom_call
polynomial.py:1203 DworkPoly.__init__ -> ModelHom, ModelHom.dwork_factor
polynomial.py:1214 DworkPoly.from_poly -> ModelHom, ModelHom.dwork_factor, ModelOps.dwork_diff
polynomial.py:1217 DworkPoly.__call__ -> ModelHom, ModelHom.dwork_factor, ModelPipe.num_expr
polynomial.py:1233 FermatPoly.__init__ -> ModelHom, ModelHom.fermat_call
polynomial.py:1239 FermatPoly.from_poly -> ModelHom, ModelHom.fermat_call, ModelOps.dwork_diff
polynomial.py:1242 FermatPoly.__call__ -> ModelHom, ModelHom.fermat_call, ModelPipe.num_expr
projective.py:30 index_hom_to_affine -> ModelProjective.index_hom_to_affine
projective.py:43 index_affine_to_hom -> ModelProjective.index_affine_to_hom
projective.py:57 change_chart -> ModelProjective.change_chart
projective.py:74 hom_to_affine -> ModelProjective.hom_to_affine, ModelProjective.hom_to_affine_auto
projective.py:104 affine_to_hom -> ModelProjective.affine_to_hom
projective.py:119 _fs_metric -> ModelProjective.norm2p1
projective.py:127 fs_metric -> ModelProjective.conj_row
projective.py:157 _fs_potential -> ModelProjective.fs_potential
projective.py:162 _fs_potential_hom -> ModelProjective.fs_potential
projective.py:168 fs_potential -> ModelProjective.fs_potential
random.py:25 uniform_components -> ModelRandom.uniform_components
random.py:49 uniform_angle -> ModelRandom.uniform_angle
random.py:74 uniform_angle_unit -> ModelRandom.uniform_angle_unit
random.py:91 real_sphere -> ModelRandom.real_sphere
random.py:116 complex_sphere -> ModelRandom.complex_sphere
random.py:142 uniform_projective -> ModelRandom.uniform_projective_hom
random.py:170 projective_overlap -> ModelRandom.log_rad_min
util.py:29 prod -> ModelExpr.prod_list, ModelStore.imul
util.py:41 pop -> ModelUtil.pop, ModelUtil.roll
util.py:56 insert_1d -> ModelUtil.insert_1d, ModelUtil.roll
util.py:81 insert_col -> ModelUtil.insert_col, ModelUtil.insert_col1, ModelUtil.roll
util.py:104 shuffle_axis -> ModelUtil.shuffle_axis
util.py:121 binomial -> ModelUtil.py_factorial
util.py:130 flatten_coord -> ModelUtil.flatten_coord
util.py:157 unflatten_coord -> ModelUtil.unflatten_coord
util.py:167 mc_integrate -> ModelMC, ModelMC.mc_integrate
util.py:206 mc_integrate_batched -> ModelMC, ModelMC.mc_integrate_batched, ModelMC.mc_step, ModelPipe.scan_keys
util.py:251 PRNGSequence.__init__ -> ModelUtil
util.py:263 PRNGSequence.__next__ -> ModelUtil
variety.py:37 _solve_intersect -> ModelVariety.coeff_call
variety.py:50 VarietySingle.__init__ -> ModelAlg.variety, ModelAlg.variety_init
variety.py:63 VarietySingle.from_sympy -> ModelAlg.variety_from_sympy
variety.py:84 VarietySingle.num_defining -> ModelAlg.v_num_defining
variety.py:89 VarietySingle.parameters -> ModelAlg.v_num_defining
variety.py:94 VarietySingle.par_count -> ModelAlg.v_num_defining
variety.py:99 VarietySingle.dim_complex -> ModelAlg.v_num_defining, ModelVariety.dim_complex
variety.py:104 VarietySingle.dim_projective -> ModelAlg.v_num_defining
variety.py:109 VarietySingle.dim_variety -> ModelAlg.v_num_defining
variety.py:114 VarietySingle.dim -> ModelAlg.v_num_defining
variety.py:119 VarietySingle.defining_poly -> -
variety.py:123 VarietySingle.defining -> ModelVariety.parg
variety.py:136 VarietySingle.grad_defining -> ModelAlg.grad_fn, ModelVariety.parg
variety.py:141 VarietySingle.best_dependent -> ModelVariety.parg
variety.py:154 VarietySingle.jacobian_embed -> ModelAlg.v_jacobian_embed
variety.py:166 VarietySingle.induced_metric -> ModelAlg.v_induced_metric
variety.py:187 VarietySingle.induced_fs -> ModelAlg.v_induced_fs
variety.py:196 VarietySingle.sample_intersect_weights -> ModelPipe.v_weights, ModelVariety
variety.py:233 VarietySingle.sample_intersect -> ModelPipe.fermat_draw, ModelPipe.sample_intersect, ModelPipe.sampled, ModelVariety.line_exprs, ModelVariety.line_poly, ModelVariety.line_poly_of, ModelVariety.sample_affine, ModelVariety.sample_count, ModelVariety.sample_hom, ModelVariety.sample_line
variety.py:275 VarietySingle.compute_vol -> ModelPipe.compute_vol, ModelPipe.vol_sample
variety.py:285 VarietySingle.solve_defining -> ModelVariety.solve_defining
variety.py:323 VarietySingle.__repr__ -> -
variety.py:327 VarietySingle._repr_latex_ -> -
variety.py:335 Fermat.__init__ -> ModelAlg.fermat_variety
variety.py:340 Fermat.from_sympy -> ModelAlg.fermat_variety
variety.py:347 Dwork.__init__ -> ModelAlg.dwork_variety
variety.py:352 Dwork.from_sympy -> ModelAlg.dwork_variety
```
