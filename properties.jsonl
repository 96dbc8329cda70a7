{"id": "C01", "title": "pop removes exactly one entry", "statement": "util.pop(arr, i) for 0 <= i < len(arr) returns arr[i] together with the other entries in their original order.", "quantifier": "every array length, every entry type (scalars or rows), every valid index", "why_tests_cant": "tests use arrays of length 3 and 4; the roll-based implementation has to be right for every length and index", "anchors": ["cyjax/util.py:pop"]}
{"id": "C02", "title": "pop with a negative index", "statement": "util.pop(arr, i) with -len(arr) <= i < 0 returns the value arr[i], but the remaining entries come back rotated by one place (the first one moved to the end); hence the documented 'remaining array' is only returned in order when that rotation is trivial. For any integer whatsoever the value is arr[i mod n] and the remainder is rolled by floor(i/n). (Documented contract is violated: refuted for every array of >= 3 distinct entries and every negative index.)", "quantifier": "every array and every negative Python index in range", "why_tests_cant": "no test uses a negative index; the failure depends on length and index", "anchors": ["cyjax/util.py:pop"]}
{"id": "C03", "title": "insert_1d inserts at the requested place", "statement": "insert_1d(arr, val, i) puts the block val before position i of arr for 0 <= i <= len(arr); for -(len(arr)+1) <= i < 0 a single value ends up at output position i counted from the end; pop of the result at that place gives val and arr back.", "quantifier": "every array, every inserted value or block, every valid index of either sign", "why_tests_cant": "tests use one array of length four", "anchors": ["cyjax/util.py:insert_1d"]}
{"id": "C04", "title": "insert_col inserts one column in every row", "statement": "insert_col(mat, col, i) is insert_1d applied to every row with the matching entries of col, for every valid index of either sign, and it is rejected when the number of rows differs.", "quantifier": "every matrix, every column block, every index", "why_tests_cant": "tests use one 2x2 matrix", "anchors": ["cyjax/util.py:insert_col"]}
{"id": "C05", "title": "flatten/unflatten keeps batches aligned", "statement": "flatten_coord followed by a per-point function and unflatten_coord gives, at every batch index, the function value of the coordinates at that batch index, and the identity function gives the input back; passing conjugates of another shape is rejected.", "quantifier": "every batch shape and coordinate dimension, every per-point function", "why_tests_cant": "infinitely many batch shapes", "anchors": ["cyjax/util.py:flatten_coord", "cyjax/util.py:unflatten_coord"]}
{"id": "C06", "title": "shuffle_axis only permutes one axis", "statement": "shuffle_axis(key, x, axis) returns an array of the same shape in which, for every fixed leading index, the slices along the axis are a permutation of those of x (whatever permutations the generator yields).", "quantifier": "every shape, axis and every outcome of the random generator", "why_tests_cant": "the existing test compares an array with itself; the claim ranges over all random outcomes", "anchors": ["cyjax/util.py:shuffle_axis"]}
{"id": "C07", "title": "binomial coefficients are exact", "statement": "util.binomial(n, k) is the number of k-element subsets of an n-element set for 0 <= k <= n (the integer division never truncates), and raises for k > n or negative arguments.", "quantifier": "all integers n, k", "why_tests_cant": "tests use four literals", "anchors": ["cyjax/util.py:binomial"]}
{"id": "C08", "title": "Monte Carlo integral uses the integrand", "statement": "mc_integrate(key, count, fn, sample) is documented to return mean(fn(z) * w). The code returns mean(w) for every integrand, so the documented value is returned exactly when mean(fn(z)*w) = mean(w); for the constant integrand 1 value and variance are as documented. (Documented contract refuted.)", "quantifier": "every integrand, sampler, key and count", "why_tests_cant": "no test calls mc_integrate; the statement is about all integrands", "anchors": ["cyjax/util.py:mc_integrate"]}
{"id": "C09", "title": "batched Monte Carlo integration equals one big batch", "statement": "For the integrand 1, mc_integrate_batched returns the mean of the weights over all batches*batch_size samples and, with var=True, (mean of squared weights - square of the mean) / (batches*batch_size); batch number i is drawn with the i-fold second-half-split of the key.", "quantifier": "every key, sampler, number of batches and batch size", "why_tests_cant": "ranges over all samplers and batch counts", "anchors": ["cyjax/util.py:mc_integrate_batched", "cyjax/variety.py:VarietySingle.compute_vol"]}
{"id": "C10", "title": "PRNGSequence is a deterministic stream", "statement": "the n-th call of next() on a PRNGSequence returns the first half of the split of the key obtained by taking the second half n times, whatever was drawn before; an int seed and the key made from it give the same stream, and two sequences with equal seed agree at every position.", "quantifier": "every seed and every number of previous calls", "why_tests_cant": "infinite stream", "anchors": ["cyjax/util.py:PRNGSequence"]}
{"id": "C11", "title": "affine and homogeneous indices correspond", "statement": "for a fixed patch, index_affine_to_hom is a strictly increasing bijection from affine positions 0..n-1 onto homogeneous positions 0..n without the patch, and index_hom_to_affine is its inverse; the two conversions address the same entry of affine_to_hom(z, patch).", "quantifier": "every dimension, patch and index", "why_tests_cant": "tests check five pairs", "anchors": ["cyjax/projective.py:index_hom_to_affine", "cyjax/projective.py:index_affine_to_hom"]}
{"id": "C12", "title": "affine/homogeneous coordinate round trip", "statement": "hom_to_affine(affine_to_hom(z, p), p) = z, and affine_to_hom(hom_to_affine(h, p), p) = h / h[p] whenever h[p] is nonzero; hom_to_affine is unchanged when h is rescaled by a nonzero number.", "quantifier": "every dimension, point and patch", "why_tests_cant": "tests sample random points; claim is for all", "anchors": ["cyjax/projective.py:hom_to_affine", "cyjax/projective.py:affine_to_hom"]}
{"id": "C13", "title": "automatic patch bounds the coordinates", "statement": "hom_to_affine without a patch chooses the first index of largest modulus and, for any nonzero point, returns coordinates of modulus at most 1 that represent the same projective point; the documented strict bound |z_i| < 1 fails exactly when another entry attains the maximum.", "quantifier": "every nonzero homogeneous point", "why_tests_cant": "boundary ties have measure zero for random tests", "anchors": ["cyjax/projective.py:hom_to_affine"]}
{"id": "C14", "title": "change_chart is the transition map", "statement": "for different patches and a point in the overlap, change_chart(z, i, j) = hom_to_affine(affine_to_hom(z, i), j); going back returns z, and going i -> j -> k equals i -> k.", "quantifier": "every dimension, pair or triple of distinct patches and overlap point", "why_tests_cant": "tests only check a bound on moduli for one dimension", "anchors": ["cyjax/projective.py:change_chart"]}
{"id": "C15", "title": "change_chart to the same patch", "statement": "change_chart(z, p, p) should return z. The code instead divides every coordinate by z[q] and replaces coordinate q by 1/z[q], with q = p modulo len(z) (so the last patch acts like patch 0): the identity law holds only if z[q] = 1, or z[q] = -1 and all other coordinates vanish. (Refuted.)", "quantifier": "every point and every patch", "why_tests_cant": "tests only use different patches", "anchors": ["cyjax/projective.py:change_chart"]}
{"id": "C16", "title": "Fubini-Study metric is Hermitian positive definite", "statement": "fs_metric(z) is a Hermitian, positive definite matrix at every point, equal to 1/(1+|z|^2) - conj(z) z^T/(1+|z|^2)^2.", "quantifier": "every dimension and point", "why_tests_cant": "claim over all points and dimensions", "anchors": ["cyjax/projective.py:fs_metric"]}
{"id": "C17", "title": "Fubini-Study metric is the complex Hessian of the potential", "statement": "fs_metric(z, zc)[i, j] is the derivative by z_i of the derivative by zc_j of fs_potential(z, zc) = log(1 + sum z zc).", "quantifier": "every dimension, every pair (z, zc) off the zero set of 1 + sum z zc", "why_tests_cant": "limits cannot be tested", "anchors": ["cyjax/projective.py:fs_metric", "cyjax/projective.py:fs_potential", "cyjax/differential.py:complex_hessian"]}
{"id": "C18", "title": "Fubini-Study geometry does not depend on the patch", "statement": "fs_potential of homogeneous coordinates is the affine potential plus log |z_p|^2, and the metric in one patch is the pullback under change_chart of the metric in any other patch.", "quantifier": "every dimension, distinct patches and overlap point", "why_tests_cant": "identity of functions", "anchors": ["cyjax/projective.py:fs_metric", "cyjax/projective.py:change_chart"]}
{"id": "C19", "title": "Jacobian of the embedding is tangent to the variety", "statement": "every row r of jacobian_embed(G, dep) has entry 1 at its own coordinate, 0 at the other independent coordinates and -G/G[dep] at the dependent coordinate, so it is annihilated by G; the rows form a basis of the kernel of G.", "quantifier": "every gradient vector with nonzero dependent entry and every dependent index", "why_tests_cant": "all dimensions and indices", "anchors": ["cyjax/differential.py:jacobian_embed"]}
{"id": "C20", "title": "induced metric is the Hermitian positive definite pullback", "statement": "induced_metric(g, G, dep) = J g J^dagger; it is Hermitian if g is, positive definite if g is, and passing the conjugate gradient explicitly changes nothing.", "quantifier": "every metric, gradient and dependent index", "why_tests_cant": "all matrices", "anchors": ["cyjax/differential.py:induced_metric", "cyjax/variety.py:VarietySingle.induced_metric"]}
{"id": "C21", "title": "volume ratio does not depend on the dependent coordinate", "statement": "det(induced_metric(g, G, dep)) * |G[dep]|^2 is the same for every dependent index with nonzero gradient entry; hence eta and the sampling weights do not depend on that choice.", "quantifier": "every metric, gradient, pair of dependent indices", "why_tests_cant": "algebraic identity in all dimensions", "anchors": ["cyjax/donaldson.py:GeometricObjects.eta", "cyjax/variety.py:VarietySingle.sample_intersect_weights"]}
{"id": "C22", "title": "subscript parsing is stable", "statement": "for alphabetic names, split_subscript(merge_subscript(name, i)) = (name, i), and 'z1' and 'z_1' are read the same way; a name without subscript yields None; two subscripts raise.", "quantifier": "all alphabetic names and all subscripts", "why_tests_cant": "infinitely many strings", "anchors": ["cyjax/polynomial.py:split_subscript", "cyjax/polynomial.py:merge_subscript"]}
{"id": "C23", "title": "index union", "statement": "the indices of a variable after adding/multiplying two polynomials are the union of both index lists without repetition, sorted if both were sorted.", "quantifier": "all pairs of duplicate-free index lists", "why_tests_cant": "unbounded lists", "anchors": ["cyjax/polynomial.py:_union_indices", "cyjax/polynomial.py:Poly._combine_metadata"]}
{"id": "C24", "title": "from_sympy does not depend on symbol iteration order (names given)", "statement": "with (alphabetic) variable names given, Poly.from_sympy succeeds for every order in which the free symbols of the expression are visited or for none, with the same result: the given names, strictly sorted indices of exactly the subscripts that occur, the given parameters or else the sorted other symbols; every free symbol is accounted for.", "quantifier": "all expressions and all iteration orders of the symbol set", "why_tests_cant": "the order is decided by hash seeds", "anchors": ["cyjax/polynomial.py:Poly.from_sympy"]}
{"id": "C25", "title": "from_sympy with automatic variables", "statement": "without variable names, Poly.from_sympy is documented to detect the variables; the code registers one new variable per symbol, in visiting order, so any expression with two symbols of the same base name (z0, z1) raises ValueError. (Refuted; the exact result is characterised.)", "quantifier": "all expressions whose symbols carry subscripts", "why_tests_cant": "depends on all symbol sets", "anchors": ["cyjax/polynomial.py:Poly.from_sympy"]}
{"id": "C26", "title": "mixed subscripted and plain use of a variable", "statement": "a variable used both with and without subscript is rejected for every iteration order of the symbol set (which exception depends on the order); so is a variable written in both spellings z1 and z_1.", "quantifier": "all iteration orders", "why_tests_cant": "hash-seed dependent", "anchors": ["cyjax/polynomial.py:Poly.from_sympy"]}
{"id": "C27", "title": "argument binding of polynomials", "statement": "values passed positionally, by keyword or mixed bind to the same variables and parameters; too many positional arguments, a missing variable or a wrong number of parameters is rejected.", "quantifier": "all variable lists and all ways to split the arguments", "why_tests_cant": "exponentially many splits", "anchors": ["cyjax/polynomial.py:_sort_var_args"]}
{"id": "C28", "title": "numeric evaluation equals substitution", "statement": "calling a polynomial on numbers gives the value of its expression with every indexed symbol replaced by the entry of the matching variable and every parameter by its value, i.e. the same as symbolic substitution.", "quantifier": "all expressions built from numbers, symbols, sums, products and natural powers; all index lists; all values", "why_tests_cant": "unbounded expressions", "anchors": ["cyjax/polynomial.py:_eval_sympy_poly", "cyjax/polynomial.py:Poly.__call__"]}
{"id": "C29", "title": "evaluation does not modify its inputs", "statement": "evaluating a polynomial must leave the input arrays unchanged and not depend on evaluation history. The product helper multiplies in place, so a scalar variable given as a mutable 0-d array is overwritten; inputs are preserved when they are immutable. (Refuted for mutable scalars.)", "quantifier": "all expressions and all memory states", "why_tests_cant": "aliasing depends on term order", "anchors": ["cyjax/util.py:prod", "cyjax/polynomial.py:_eval_sympy_poly"]}
{"id": "C30", "title": "monomial evaluation strategies agree", "statement": "compute_monomials returns coeff * prod v^p for every term, identically for the symbolic, plain, optimised and logarithmic strategy (the latter for nonzero values, or zero values with zero powers), skipping absent variables.", "quantifier": "all coefficient/power tables and values", "why_tests_cant": "unbounded tables", "anchors": ["cyjax/polynomial.py:compute_monomials"]}
{"id": "C31", "title": "coefficient extraction inverts construction", "statement": "to_coeffs_and_powers returns terms whose sum is the polynomial provided every coefficient is a product of one number and distinct parameters; coefficients with a numeric multiple of the imaginary unit lose their magnitude, and squared parameters raise. (Partly refuted.)", "quantifier": "all polynomials", "why_tests_cant": "unbounded", "anchors": ["cyjax/polynomial.py:Poly.to_coeffs_and_powers", "cyjax/polynomial.py:Poly.from_coeffs_and_powers"]}
{"id": "C32", "title": "polynomial arithmetic is pointwise", "statement": "the sum, difference and product of two Poly objects evaluate to the sum, difference and product of the values at the same variables and parameters, with merged variable and parameter lists.", "quantifier": "all pairs of polynomials with compatible variables", "why_tests_cant": "unbounded", "anchors": ["cyjax/polynomial.py:Poly.__add__", "cyjax/polynomial.py:Poly.__sub__", "cyjax/polynomial.py:Poly.__mul__"]}
{"id": "C33", "title": "univariate coefficients rebuild the polynomial", "statement": "univariate_coefficients(poly, t) lists, from the highest power of t down to the constant, coefficients with poly = sum coeff_k t^k at every value of the other variables; the list has degree+1 entries.", "quantifier": "all polynomials and values", "why_tests_cant": "unbounded", "anchors": ["cyjax/polynomial.py:univariate_coefficients"]}
{"id": "C34", "title": "patch numbering is a bijection", "statement": "unique_patch_index maps the patch tuples of a product of projective spaces bijectively onto 0..(number of patches - 1) as i + d1*(j + d2*k ...).", "quantifier": "all lists of dimensions and all patch tuples", "why_tests_cant": "unbounded", "anchors": ["cyjax/polynomial.py:HomPoly.unique_patch_index"]}
{"id": "C35", "title": "affine polynomial equals homogeneous polynomial with coordinate 1", "statement": "for variables with indices 0..d-1, evaluating HomPoly with patch=p at affine coordinates z equals evaluating it at affine_to_hom(z, p); for other index lists the code substitutes the coordinate whose printed subscript is p instead of the p-th coordinate. (Documented behaviour refuted for non-consecutive indices.)", "quantifier": "all polynomials, points and patches", "why_tests_cant": "unbounded", "anchors": ["cyjax/polynomial.py:HomPoly.affine_poly"]}
{"id": "C36", "title": "affine polynomial cache is transparent", "statement": "affine_poly(p) returns the same polynomial whatever patches were requested before, as long as all requests are in range; one request with a negative patch poisons the cache entry of a valid patch. (Refuted for negative requests.)", "quantifier": "all request histories", "why_tests_cant": "histories are unbounded", "anchors": ["cyjax/polynomial.py:HomPoly.affine_poly"]}
{"id": "C37", "title": "compiled evaluation dispatches to the right patch", "statement": "the function made by transform_eval evaluates, for every valid patch tuple, the affine polynomial of that patch, and without patch the homogeneous polynomial; out-of-range patches are silently clamped to the nearest valid number.", "quantifier": "all dimension lists, patches, points", "why_tests_cant": "unbounded", "anchors": ["cyjax/polynomial.py:HomPoly.transform_eval"]}
{"id": "C38", "title": "Dwork and Fermat polynomials are homogeneous and symmetric", "statement": "DworkPoly/FermatPoly of degree n in n variables scale with lambda^n, are invariant under permutations of the coordinates, and their affine value equals the homogeneous value at affine_to_hom(z, p) in every patch p.", "quantifier": "all degrees, factors, moduli, points, patches", "why_tests_cant": "unbounded", "anchors": ["cyjax/polynomial.py:DworkPoly", "cyjax/polynomial.py:FermatPoly"]}
{"id": "C39", "title": "sampled points lie on the variety", "statement": "every point returned by sample_intersect satisfies the defining equation for the given parameters, in homogeneous coordinates and in the returned affine patch, whatever the random lines are (roots being roots).", "quantifier": "all homogeneous polynomials, parameters, keys/outcomes", "why_tests_cant": "all random outcomes", "anchors": ["cyjax/variety.py:VarietySingle.sample_intersect", "cyjax/variety.py:_solve_intersect"]}
{"id": "C40", "title": "number of sampled points", "statement": "sample_intersect(key, params, count) returns min(count, degree*ceil(count/n)) points for n homogeneous coordinates, so count points whenever the degree is at least n (Calabi-Yau case); for lower degree it may return fewer than requested. (Documented count refuted for low degree.)", "quantifier": "all degrees, dimensions and counts", "why_tests_cant": "unbounded", "anchors": ["cyjax/variety.py:VarietySingle.sample_intersect"]}
{"id": "C41", "title": "sampling weights are positive and consistent", "statement": "sample_intersect_weights is positive real, independent of the dependent coordinate, and equals dVolCy/dA of the separate=True output when vol is 1; for other vol the factor is dropped from the ratio but kept in the separate output. (Consistency refuted for vol != 1.)", "quantifier": "all points, gradients, dependent indices and vol", "why_tests_cant": "all inputs", "anchors": ["cyjax/variety.py:VarietySingle.sample_intersect_weights"]}
{"id": "C42", "title": "solve_defining completes points", "statement": "solve_defining(zs, params, dep, patch) returns points that contain zs in order with one value inserted at position dep, and each of them satisfies the affine defining equation.", "quantifier": "all polynomials, partial points, patches, dependent positions", "why_tests_cant": "unbounded", "anchors": ["cyjax/variety.py:VarietySingle.solve_defining"]}
{"id": "C43", "title": "best_dependent", "statement": "best_dependent(zs, params, patch) should return the index maximising the gradient; the code passes patch and params in swapped positions, so the gradient is requested with parameters := patch and patch := params. (Refuted.)", "quantifier": "all inputs", "why_tests_cant": "never tested", "anchors": ["cyjax/variety.py:VarietySingle.best_dependent"]}
{"id": "C44", "title": "monomial basis is complete", "statement": "monomial_basis(n, d) lists every exponent vector of length n+1 and degree d exactly once, and nothing else; monomial_basis_size(n, d) is its length.", "quantifier": "all dimensions and degrees", "why_tests_cant": "unbounded", "anchors": ["cyjax/donaldson.py:monomial_basis", "cyjax/donaldson.py:monomial_basis_indices", "cyjax/donaldson.py:monomial_basis_size"]}
{"id": "C45", "title": "section evaluation", "statement": "MonomialBasisFull/Reduced sections evaluate to prod z_j^P_ij at homogeneous coordinates and, given a patch, to the same at affine_to_hom(z, patch); the logarithmic variant agrees where all coordinates are nonzero.", "quantifier": "all degrees, dimensions, points, patches", "why_tests_cant": "unbounded", "anchors": ["cyjax/donaldson.py:_compute_monomials_index", "cyjax/donaldson.py:_compute_monomials_log"]}
{"id": "C46", "title": "basis reduction never fails and has the predicted size", "statement": "reduced_monomial_basis(d, P) never raises for a homogeneous polynomial; it returns, in order, exactly the monomials of degree d not divisible by the first listed term of P, and their number is monomial_basis_size(n, d, reduced=True) when P has degree n+1.", "quantifier": "all homogeneous polynomials and degrees", "why_tests_cant": "unbounded; the RuntimeError branch must be unreachable", "anchors": ["cyjax/donaldson.py:reduced_monomial_basis", "cyjax/donaldson.py:monomial_basis_size"]}
{"id": "C47", "title": "reduced monomials are a basis modulo the polynomial", "statement": "with terms listed in lexicographic order (as MonomialBasisReduced does), every degree-d form is congruent modulo P to a unique combination of the reduced monomials; for another term order the result need not be a basis. (Basis claim refuted for arbitrary term order.)", "quantifier": "all homogeneous polynomials over a field, all degrees", "why_tests_cant": "linear independence over infinitely many forms", "anchors": ["cyjax/donaldson.py:reduced_monomial_basis", "cyjax/donaldson.py:MonomialBasisReduced"]}
{"id": "C48", "title": "algebraic metric is the Hessian of the Kaehler potential", "statement": "g_proj[i, j] is the mixed derivative of K = log(s H sbar)/(pi k); it is Hermitian for Hermitian H.", "quantifier": "all sections, Hermitian H, points with nonzero psi", "why_tests_cant": "limits", "anchors": ["cyjax/donaldson.py:GeometricObjects.g_proj", "cyjax/donaldson.py:GeometricObjects.kahler", "cyjax/donaldson.py:GeometricObjects.psi"]}
{"id": "C49", "title": "derivatives of the ambient metric", "statement": "g_proj_h, g_proj_a and g_proj_ha are the holomorphic, anti-holomorphic and mixed second derivatives of g_proj.", "quantifier": "all sections, Hermitian H, points with nonzero psi", "why_tests_cant": "limits", "anchors": ["cyjax/donaldson.py:GeometricObjects.g_proj_h", "cyjax/donaldson.py:GeometricObjects.g_proj_a", "cyjax/donaldson.py:GeometricObjects.g_proj_ha"]}
{"id": "C50", "title": "derivatives of the local metric", "statement": "g_loc = J g_proj J^dagger and g_loc_h, g_loc_a, g_loc_ha are its holomorphic, anti-holomorphic and mixed derivatives.", "quantifier": "all sections, gradients, Hermitian H, points", "why_tests_cant": "limits", "anchors": ["cyjax/donaldson.py:GeometricObjects.g_loc", "cyjax/donaldson.py:GeometricObjects.g_loc_h", "cyjax/donaldson.py:GeometricObjects.g_loc_ha"]}
{"id": "C51", "title": "Ricci tensor", "statement": "ricci_proj[a, b] is minus the mixed derivative of log det g_loc, ricci_loc is its pullback J R J^dagger and ricci_scalar the trace with the inverse metric; it is unchanged when H is rescaled.", "quantifier": "all points with invertible metric", "why_tests_cant": "limits", "anchors": ["cyjax/donaldson.py:GeometricObjects.ricci_proj", "cyjax/donaldson.py:GeometricObjects.ricci_loc", "cyjax/donaldson.py:GeometricObjects.ricci_scalar"]}
{"id": "C52", "title": "metric is insensitive to the scale of H and eta is positive", "statement": "rescaling H by a positive number leaves g_proj, g_loc and eta unchanged; eta is real for Hermitian H and positive for positive definite local metric.", "quantifier": "all H, scales, points", "why_tests_cant": "all inputs", "anchors": ["cyjax/donaldson.py:GeometricObjects.eta", "cyjax/donaldson.py:AlgebraicMetric"]}
{"id": "C53", "title": "diagonal H", "statement": "a 1-d H is treated as the diagonal matrix by psi, psi_h, psi_ha, psi_hha, psi_hhaa; psi_hh however always raises for 1-d H because the result of the diagonal branch is discarded. (Refuted for psi_hh and everything depending on it.)", "quantifier": "all diagonal H and sections", "why_tests_cant": "branch never tested", "anchors": ["cyjax/donaldson.py:GeometricObjects.psi_hh"]}
{"id": "C54", "title": "sigma accuracy", "statement": "sigma_accuracy is a nonnegative number, zero exactly when eta is constant on the sampled points of nonzero weight, at most 2 for positive eta, and unchanged when eta is rescaled.", "quantifier": "all samples, weights and eta values", "why_tests_cant": "all inputs", "anchors": ["cyjax/donaldson.py:AlgebraicMetric.sigma_accuracy"]}
{"id": "C55", "title": "Donaldson step", "statement": "donaldson_step returns a Hermitian matrix, positive definite if the sampled sections span; splitting the same samples into batches does not change the result; sum_ab h_ab T_ab = N * mean(weights) / vol; scaling h scales the result; only the Hermitian part of h matters.", "quantifier": "all samples, weights, batchings and Hermitian matrices", "why_tests_cant": "all inputs", "anchors": ["cyjax/donaldson.py:AlgebraicMetric.donaldson_step"]}
{"id": "C56", "title": "Cholesky decoding", "statement": "cholesky_decode(diag, upper) is Hermitian and positive semi-definite for all inputs, positive definite exactly when no diagonal entry is zero; every Hermitian positive definite matrix is reached.", "quantifier": "all sizes and inputs", "why_tests_cant": "all inputs", "anchors": ["cyjax/ml.py:cholesky_decode", "cyjax/ml.py:cholesky_from_param"]}
{"id": "C57", "title": "Hermitian parametrisation starts at the identity", "statement": "cholesky_from_param(hermitian_param_init(key, n)) is the identity matrix of size n; in general it is the matrix of squared diagonal values; parameter vectors whose length is not a square are rejected.", "quantifier": "all sizes", "why_tests_cant": "unbounded", "anchors": ["cyjax/ml.py:hermitian_param_init", "cyjax/ml.py:cholesky_from_param"]}
{"id": "C58", "title": "initial network output", "statement": "HNetMLP is meant to start near the identity; with sig_suppress the initial H is one quarter of the intended matrix, without it the intended matrix. (Refuted for the default setting.)", "quantifier": "all inputs, sizes and activations", "why_tests_cant": "all inputs", "anchors": ["cyjax/ml.py:HNetMLP"]}
{"id": "C59", "title": "network input features", "statement": "HNetMLP builds (number of distinct powers incl. 0)^m - 1 power products for m moduli, each a product of the moduli raised to chosen powers, not all zero, each exactly once, and outputs basis_size^2 real parameters.", "quantifier": "all moduli counts and power lists", "why_tests_cant": "unbounded", "anchors": ["cyjax/ml.py:HNetMLP"]}
{"id": "C60", "title": "batch sampler is a gap-free stream", "statement": "the n-th next() of a BatchSampler returns the sample drawn with the n-th key of its key sequence, for every buffer size >= 1: nothing is skipped or repeated across buffer refills.", "quantifier": "all buffer sizes >= 1, all n", "why_tests_cant": "unbounded histories", "anchors": ["cyjax/ml.py:BatchSampler"]}
{"id": "C61", "title": "batch sampler after a failed refill", "statement": "if drawing a sample raises during a refill, the sampler must stay usable; in the code every later next() raises IndexError and the sample being returned is lost. (Refuted.)", "quantifier": "all buffer sizes and crash points", "why_tests_cant": "crash points", "anchors": ["cyjax/ml.py:BatchSampler.__next__", "cyjax/ml.py:BatchSampler.new_buffer"]}
{"id": "C62", "title": "variance loss", "statement": "variance_eta_loss is nonnegative for nonnegative weights; its first part is unchanged when eta is rescaled by a positive factor; it vanishes exactly when eta is nonnegative and constant on points of nonzero weight.", "quantifier": "all samples", "why_tests_cant": "all inputs", "anchors": ["cyjax/ml.py:variance_eta_loss"]}
{"id": "C63", "title": "random complex numbers are in range", "statement": "uniform_components lies in the square [-1,1)^2 (the documentation says [0,1)), uniform_angle has modulus in [minrad, maxrad], uniform_angle_unit has modulus 1.", "quantifier": "all random outcomes", "why_tests_cant": "all outcomes", "anchors": ["cyjax/random.py:uniform_components", "cyjax/random.py:uniform_angle", "cyjax/random.py:uniform_angle_unit"]}
{"id": "C64", "title": "points on spheres", "statement": "real_sphere and complex_sphere return vectors of norm 1 for every nonzero draw and uniform_projective returns affine coordinates of modulus at most 1 in a valid patch.", "quantifier": "all draws and dimensions", "why_tests_cant": "all outcomes", "anchors": ["cyjax/random.py:real_sphere", "cyjax/random.py:complex_sphere", "cyjax/random.py:uniform_projective"]}
{"id": "C65", "title": "overlap samples stay in the overlap", "statement": "projective_overlap returns coordinates of modulus at most patch_size in this patch, whose change_chart image has modulus at most patch_size too.", "quantifier": "all random outcomes, dimensions, patches, patch_size >= 1", "why_tests_cant": "all outcomes", "anchors": ["cyjax/random.py:projective_overlap"]}
{"id": "C66", "title": "overlap sampling is symmetric under change_chart", "statement": "the distribution of projective_overlap is invariant under change_chart, as documented. For the patches 0 and 1 the change of chart sends the point of a draw to the point of another draw of the reversed sampling; the map on draws reflects the first radial variable and one angle and translates the other angles modulo 1, and is an involution. For two patches other than 0, and for patch 0 seen from a patch above 1, the image of almost every draw is not a point of the reversed sampling at all. (Refuted in general.)", "quantifier": "all random outcomes", "why_tests_cant": "distributional", "anchors": ["cyjax/random.py:projective_overlap"]}
{"id": "C67", "title": "negative patch index", "statement": "hom_to_affine with a negative patch -n <= p < 0 divides by the right coordinate (numpy convention) but returns the remaining coordinates rotated by one place.", "quantifier": "all points and negative patches", "why_tests_cant": "no test uses one", "anchors": ["cyjax/projective.py:hom_to_affine"]}
{"id": "C68", "title": "negative dependent index", "statement": "jacobian_embed with a negative dependent index should be the Jacobian for the coordinate counted from the end; it is not tangent to the variety. (Refuted.)", "quantifier": "some gradient", "why_tests_cant": "no test uses one", "anchors": ["cyjax/differential.py:jacobian_embed"]}
{"id": "C69", "title": "hidden layers with a dropout list", "statement": "HNetMLP builds one hidden layer per entry of layer_sizes; with a dropout_rates list shorter than layer_sizes the last layers are silently dropped. (Refuted.)", "quantifier": "all layer and dropout lists", "why_tests_cant": "tests use equal lengths", "anchors": ["cyjax/ml.py:HNetMLP"]}
{"id": "C70", "title": "symbolic substitution", "statement": "calling a polynomial on symbolic expressions gives the expression with all variables replaced simultaneously, as the documentation suggests. It holds when no replacement contains a symbol of the polynomial; exchanging two variables goes wrong for every order of replacement. (Refuted in general.)", "quantifier": "all polynomials, all replacements, all replacement orders", "why_tests_cant": "depends on the dictionary order inside sympy", "anchors": ["cyjax/polynomial.py:Poly.__call__"]}
{"id": "C71", "title": "complex coefficients", "statement": "a polynomial whose expression contains the imaginary unit cannot be evaluated numerically although the domain is CC and the number conversion has a case for it: evaluation raises for every input. (Refuted.)", "quantifier": "all expressions containing I, all inputs", "why_tests_cant": "unbounded expressions", "anchors": ["cyjax/polynomial.py:_eval_sympy_poly", "cyjax/polynomial.py:_sympy_eval_num"]}
{"id": "C72", "title": "parameters sharing a base name with a variable", "statement": "a parameter must be read from the parameters; a parameter whose name without subscript is a variable name (x1 next to a scalar x, z_1 next to a vector z) is silently read from the variable, or raises KeyError. (Refuted.)", "quantifier": "all such parameter names, all inputs", "why_tests_cant": "needs all names", "anchors": ["cyjax/polynomial.py:_eval_sympy_poly"]}
{"id": "C73", "title": "sections are homogeneous and change patch by a power", "statement": "scaling the homogeneous coordinates by c multiplies every section by c^degree, so evaluating in the affine patch p gives every section divided by the degree-th power of coordinate p.", "quantifier": "all bases of one degree, all points, patches and factors", "why_tests_cant": "holds for all points", "anchors": ["cyjax/donaldson.py:_compute_monomials_index", "cyjax/donaldson.py:_MonomialBasis"]}
{"id": "C74", "title": "polynomial sections satisfy the differentiability contract", "statement": "for polynomial sections and a polynomial defining equation, the arrays s_1, s_2, grad_def and jac_h given by formal differentiation are the derivatives the theorems on the metric and the Ricci tensor ask for, at every point with nonzero gradient entry; so those theorems apply to all bases of the package.", "quantifier": "all polynomial sections and defining polynomials, all points", "why_tests_cant": "for all polynomials", "anchors": ["cyjax/donaldson.py:GeometricObjects"]}
{"id": "C75", "title": "the algebraic metric is positive", "statement": "for positive definite H the metric g_proj is positive semidefinite, and positive definite exactly when no nonzero combination of the derivatives of the sections is a multiple of the sections (the embedding is an immersion).", "quantifier": "all positive definite H, sections, points", "why_tests_cant": "for all H", "anchors": ["cyjax/donaldson.py:GeometricObjects"]}
{"id": "C76", "title": "default dependent coordinate", "statement": "without a dependent index the coordinate with the largest gradient entry is used, and every result is the one for that explicit index.", "quantifier": "all points", "why_tests_cant": "for all gradients", "anchors": ["cyjax/donaldson.py:GeometricObjects"]}
{"id": "C77", "title": "Donaldson step and the volume argument", "statement": "donaldson_step is linear in vol_cy; if h is a fixed point of the step then vol_cy equals the mean of the weights of the sample.", "quantifier": "all samples, weights, matrices", "why_tests_cant": "quantifies over all samples and fixed points", "anchors": ["cyjax/donaldson.py:AlgebraicMetric.donaldson_step"]}
{"id": "C78", "title": "Donaldson step: patch and basis", "statement": "the step does not depend on the patch in which the sections are evaluated at each point, and it follows a change of basis of the sections: with sections s A and A h' A^dagger = h the results satisfy A H2 A^dagger = H1.", "quantifier": "all samples, matrices, rescalings", "why_tests_cant": "quantifies over all changes of basis", "anchors": ["cyjax/donaldson.py:AlgebraicMetric.donaldson_step"]}
{"id": "C79", "title": "Donaldson step: weights that are not finite", "statement": "points whose weight is nan or infinite count like points of weight zero.", "quantifier": "all samples", "why_tests_cant": "quantifies over all samples", "anchors": ["cyjax/donaldson.py:AlgebraicMetric.donaldson_step"]}
{"id": "C80", "title": "Donaldson step: real h", "statement": "donaldson_step accepts every Hermitian matrix h, also one stored with a real dtype such as jnp.eye(n). (Refuted: the accumulator takes the dtype of h.)", "quantifier": "all real h", "why_tests_cant": "contract over all inputs", "anchors": ["cyjax/donaldson.py:AlgebraicMetric.donaldson_step"]}
{"id": "C81", "title": "random spheres are equivariant under unitary matrices", "statement": "multiplying the normal draws, read as a complex vector, by a unitary matrix multiplies the point of complex_sphere by the same matrix; with the rotation invariance of the normal distribution this makes the samples of projective space uniform.", "quantifier": "all draws, dimensions, unitary matrices", "why_tests_cant": "quantifies over the unitary group", "anchors": ["cyjax/random.py:complex_sphere", "cyjax/random.py:uniform_projective"]}
{"id": "C82", "title": "overlap samples cover the overlap region", "statement": "every interior point of the region where the coordinates stay below patch_size in both patches is the image of a draw. True when the other patch's coordinate is stored first; otherwise the modulus of coordinate 0 is a function of the modulus of the other patch's coordinate and the samples lie in a set of measure zero. (Refuted in general.)", "quantifier": "all points of the region, dimensions, patches, patch sizes", "why_tests_cant": "surjectivity onto a continuum", "anchors": ["cyjax/random.py:projective_overlap"]}
{"id": "C83", "title": "smooth points of the variety have local coordinates", "statement": "near every point of a polynomial hypersurface where the derivative by coordinate d is nonzero, the hypersurface is the graph of a differentiable function of the other coordinates: the parametrisation the metric in local coordinates refers to exists, and covers all nearby points of the hypersurface.", "quantifier": "all polynomials, smooth points, dependent coordinates", "why_tests_cant": "existence over a continuum of points", "anchors": ["cyjax/differential.py:jacobian_embed", "cyjax/donaldson.py:GeometricObjects"]}
{"id": "C84", "title": "sections are the monomials with the patch coordinate set to one", "statement": "evaluating a full or a reduced basis in a patch gives, in order, the values of its monomials after setting the patch coordinate to one, with either evaluation strategy; the sections are therefore polynomials in the affine coordinates.", "quantifier": "all bases, points, patches, strategies", "why_tests_cant": "quantifies over all points and degrees", "anchors": ["cyjax/donaldson.py:_MonomialBasis", "cyjax/donaldson.py:MonomialBasisReduced", "cyjax/donaldson.py:_compute_monomials_index"]}
{"id": "C85", "title": "the algebraic metric of a monomial basis is positive", "statement": "for positive definite H and degree at least one, psi is positive everywhere; with the full basis g_proj is positive definite at every point, and with the full or the reduced basis g_loc is positive definite and eta positive at every smooth point of the variety.", "quantifier": "all dimensions, degrees, defining polynomials, H, points, patches", "why_tests_cant": "positivity for all matrices and all points", "anchors": ["cyjax/donaldson.py:GeometricObjects", "cyjax/donaldson.py:MonomialBasisReduced", "cyjax/donaldson.py:AlgebraicMetric"]}
{"id": "C86", "title": "exp and log strategy over the complex numbers", "statement": "the exponential and the principal logarithm of complex numbers satisfy what the log strategy and the Kaehler potential use: exp 0 = 1, exp(a+b) = exp a exp b, exp(log v) = v for v nonzero, log differentiable with derivative 1/x near positive x, log of a product of positives is the sum.", "quantifier": "all complex numbers", "why_tests_cant": "identities over a continuum", "anchors": ["cyjax/polynomial.py:compute_monomials", "cyjax/donaldson.py:_compute_monomials_log", "cyjax/donaldson.py:GeometricObjects.kahler"]}
{"id": "C87", "title": "metric and Ricci tensor over the complex numbers", "statement": "for the full or reduced monomial basis, positive definite H, and a smooth point of the hypersurface: in the local coordinates of the hypersurface g_loc is the matrix of mixed derivatives of log(psi) / (pi degree), it is positive definite, and ricci_loc is the matrix of mixed derivatives of - log det g_loc, with the actual complex logarithm and pi and no differentiability assumption left.", "quantifier": "all dimensions, degrees, polynomials, H, smooth points", "why_tests_cant": "derivative identities for all inputs", "anchors": ["cyjax/donaldson.py:GeometricObjects", "cyjax/donaldson.py:AlgebraicMetric"]}
{"id": "C88", "title": "the algebraic metric does not depend on the patch", "statement": "for the full or the reduced basis the metric g_proj computed on patch i at z equals T g_proj T^dagger computed on patch j at the image w of z, with T the Jacobian of the change of patch; psi is multiplied by |x|^(2 degree) and the Kaehler potential changes by log|x|^2 / pi, with x the homogeneous coordinate j of the point.", "quantifier": "all dimensions, degrees, H, points, pairs of patches", "why_tests_cant": "quantifies over all points and patches", "anchors": ["cyjax/donaldson.py:GeometricObjects", "cyjax/donaldson.py:AlgebraicMetric.metric", "cyjax/projective.py:change_chart"]}
{"id": "C89", "title": "the defining equation on two patches", "statement": "the value of the defining polynomial on patch i is x^degree times its value on patch j, and at points of the variety the gradient on patch i is x^degree times the gradient on patch j pulled back by the Jacobian of the change of patch.", "quantifier": "all homogeneous polynomials, points, patches", "why_tests_cant": "for all polynomials", "anchors": ["cyjax/variety.py:VarietySingle.grad_defining", "cyjax/polynomial.py:HomPoly"]}
{"id": "C90", "title": "measures depend on the patch unless the hypersurface is Calabi-Yau", "statement": "sample_intersect_weights and eta on two patches differ by powers of |x|; the product weight * eta is the same on both; each is the same on both patches when the degree of the hypersurface equals the number of homogeneous coordinates, and at points with |x| different from 1 only then.", "quantifier": "all dimensions, degrees, polynomials, H, smooth points, patches", "why_tests_cant": "for all points and degrees", "anchors": ["cyjax/variety.py:VarietySingle.sample_intersect_weights", "cyjax/donaldson.py:AlgebraicMetric.eta"]}
{"id": "C91", "title": "the metric in local coordinates on two patches", "statement": "g_loc computed with patch i and dependent coordinate d is congruent, by the invertible Jacobian of the change of local coordinates, to g_loc computed with patch j and dependent coordinate d'.", "quantifier": "all dimensions, degrees, polynomials, H, smooth points, patches, dependent coordinates", "why_tests_cant": "for all points and pairs of charts", "anchors": ["cyjax/donaldson.py:AlgebraicMetric.metric", "cyjax/differential.py:jacobian_embed"]}
{"id": "C92", "title": "Ricci tensor and scalar on two patches", "statement": "for the full or the reduced basis and positive definite H, ricci_loc and g_loc on patch i with dependent coordinate d are congruent, by one and the same invertible matrix, to those on patch j with dependent coordinate d'; ricci_scalar is the same number. The metric, not the choice of coordinates, decides the result.", "quantifier": "all dimensions, degrees, polynomials, H, smooth points, patches, dependent coordinates", "why_tests_cant": "curvature identity for all points", "anchors": ["cyjax/donaldson.py:AlgebraicMetric.ricci", "cyjax/donaldson.py:AlgebraicMetric.ricci_scalar"]}
{"id": "C93", "title": "Ricci tensor and scalar for two dependent coordinates", "statement": "on one patch, changing the dependent coordinate changes g_loc and ricci_loc by congruence with one invertible matrix and leaves ricci_scalar unchanged, so the automatic choice of the dependent coordinate has no influence on ricci_scalar.", "quantifier": "all dimensions, degrees, polynomials, H, smooth points", "why_tests_cant": "curvature identity for all points", "anchors": ["cyjax/donaldson.py:AlgebraicMetric.ricci", "cyjax/donaldson.py:AlgebraicMetric.ricci_scalar"]}
{"id": "C94", "title": "the defining equation of a hypersurface is a polynomial function", "statement": "for a homogeneous polynomial object in one variable with n coordinates and given parameter values, VarietySingle.defining without a patch is a unique multivariate polynomial, homogeneous of the degree of the object, and on patch p it is that polynomial with coordinate p set to one.", "quantifier": "all polynomial objects, parameter values, points, patches", "why_tests_cant": "for all polynomials and points", "anchors": ["cyjax/variety.py:VarietySingle.defining", "cyjax/polynomial.py:HomPoly"]}
{"id": "C95", "title": "AlgebraicMetric on homogeneous coordinates is a function of the projective point", "statement": "kahler_potential, metric, eta, ricci and ricci_scalar called without a patch return the same result when all coordinates are multiplied by a nonzero number, and the result is the one for the affine coordinates of the patch of the largest coordinate.", "quantifier": "all points, factors, H, parameters, gradients, dependent coordinates", "why_tests_cant": "for all points and factors", "anchors": ["cyjax/donaldson.py:AlgebraicMetric", "cyjax/donaldson.py:GeometricObjects.__init__", "cyjax/projective.py:hom_to_affine"]}
{"id": "C96", "title": "AlgebraicMetric.metric does not depend on the arguments chosen for the coordinates", "statement": "at a smooth point of the hypersurface, metric called with any patch and any dependent coordinate with nonzero gradient is congruent, by an invertible matrix, to metric called with homogeneous coordinates only; the default takes the largest coordinate and the largest entry of the gradient, returns both indices, and its metric is positive definite.", "quantifier": "all dimensions, degrees, defining polynomials, H, smooth points, patches, dependent coordinates", "why_tests_cant": "for all points and charts", "anchors": ["cyjax/donaldson.py:AlgebraicMetric.metric", "cyjax/donaldson.py:GeometricObjects.__init__", "cyjax/variety.py:VarietySingle.grad_defining"]}
{"id": "C97", "title": "AlgebraicMetric.ricci and ricci_scalar do not depend on the arguments chosen for the coordinates", "statement": "at a smooth point, ricci with any patch and dependent coordinate is congruent to the default by the matrix which relates the metrics, and ricci_scalar returns the same number.", "quantifier": "all dimensions, degrees, defining polynomials, H, smooth points, patches, dependent coordinates", "why_tests_cant": "curvature identity for all points", "anchors": ["cyjax/donaldson.py:AlgebraicMetric.ricci", "cyjax/donaldson.py:AlgebraicMetric.ricci_scalar"]}
{"id": "C98", "title": "AlgebraicMetric.eta and the patch", "statement": "eta with any patch and dependent coordinate is eta for homogeneous coordinates times a power of the ratio of the two patch coordinates, the power being zero if the degree of the hypersurface is the number of homogeneous coordinates; then eta is a function on the variety.", "quantifier": "all dimensions, degrees, defining polynomials, H, smooth points, patches, dependent coordinates", "why_tests_cant": "for all points and charts", "anchors": ["cyjax/donaldson.py:AlgebraicMetric.eta"]}
{"id": "C99", "title": "AlgebraicMetric.kahler_potential and the patch", "statement": "kahler_potential on a patch is kahler_potential for homogeneous coordinates plus log of the squared modulus of the ratio of the two patch coordinates, divided by pi.", "quantifier": "all dimensions, degrees, H, points, patches", "why_tests_cant": "for all points and charts", "anchors": ["cyjax/donaldson.py:AlgebraicMetric.kahler_potential"]}
{"id": "C100", "title": "AlgebraicMetric rejects a wrong number of coordinates", "statement": "with a patch and a number of coordinates other than the dimension of the projective space, or without a patch and a number other than one more, all five functions raise AssertionError.", "quantifier": "all inputs", "why_tests_cant": "for all lengths", "anchors": ["cyjax/donaldson.py:GeometricObjects.__init__"]}
{"id": "C101", "title": "AlgebraicMetric with the gradient passed as argument", "statement": "metric, eta, ricci and ricci_scalar give the same result when the gradient of the defining equation and the dependent coordinate chosen from it are passed as arguments.", "quantifier": "all inputs", "why_tests_cant": "for all points and functions", "anchors": ["cyjax/donaldson.py:GeometricObjects.__init__", "cyjax/donaldson.py:AlgebraicMetric"]}
{"id": "C102", "title": "gradients of the predefined equations", "statement": "grad_defining of Dwork in n affine coordinates, on every patch, has entries (n+1) z_i^n + factor psi times the product of the other coordinates; for Fermat the second term is absent, whatever the parameters.", "quantifier": "all dimensions, factors, parameters, points, patches", "why_tests_cant": "for all points and dimensions", "anchors": ["cyjax/variety.py:Dwork", "cyjax/variety.py:Fermat", "cyjax/variety.py:VarietySingle.grad_defining", "cyjax/polynomial.py:DworkPoly", "cyjax/polynomial.py:FermatPoly"]}
{"id": "C103", "title": "smooth members of the predefined families", "statement": "the gradient of Dwork vanishes at some point of the variety if and only if (factor psi)^n = (-n)^n, with n homogeneous coordinates; for the quintic with the default factor this is psi^5 = 1. Fermat is always smooth.", "quantifier": "all dimensions, factors, parameters", "why_tests_cant": "needs all points of the variety", "anchors": ["cyjax/variety.py:Dwork", "cyjax/variety.py:Fermat", "cyjax/variety.py:VarietySingle.grad_defining"]}
{"id": "C104", "title": "AlgebraicMetric on a smooth hypersurface", "statement": "on a smooth hypersurface, general or predefined, AlgebraicMetric.metric called with homogeneous coordinates returns a positive definite matrix at every point, for every positive Hermitian H and every degree above zero; if the degree of the equation is the number of coordinates, eta returns the same number on every patch with every admissible dependent coordinate.", "quantifier": "all smooth hypersurfaces, degrees, H, points", "why_tests_cant": "for all points of all hypersurfaces", "anchors": ["cyjax/donaldson.py:AlgebraicMetric.metric", "cyjax/donaldson.py:AlgebraicMetric.eta", "cyjax/variety.py:VarietySingle"]}
{"id": "C105", "title": "VarietySingle.jacobian_embed", "statement": "at a smooth point the rows of jacobian_embed are tangent to the hypersurface and restrict to the identity on the independent coordinates; without a dependent coordinate the largest entry of the gradient is taken and its index returned.", "quantifier": "all hypersurfaces, smooth points, patches, dependent coordinates", "why_tests_cant": "for all points", "anchors": ["cyjax/variety.py:VarietySingle.jacobian_embed", "cyjax/differential.py:jacobian_embed"]}
{"id": "C106", "title": "induced_metric with explicit conjugate coordinates", "statement": "for real coefficients and arbitrary complex parameters, VarietySingle.induced_metric with zs_c the conjugate coordinates equals the call without zs_c. For Dwork with a factor which is not real it does not, and without parameters it raises TypeError.", "quantifier": "all hypersurfaces, metrics, points, patches, dependent coordinates", "why_tests_cant": "for all points; the failing case needs a complex factor", "anchors": ["cyjax/variety.py:VarietySingle.induced_metric", "cyjax/differential.py:induced_metric"]}
{"id": "C107", "title": "the induced Fubini-Study metric", "statement": "VarietySingle.induced_fs is positive definite at smooth points, and the results for two patches, with given and with default dependent coordinate, are congruent by an invertible matrix.", "quantifier": "all hypersurfaces, smooth points, patches, dependent coordinates", "why_tests_cant": "for all points and charts", "anchors": ["cyjax/variety.py:VarietySingle.induced_fs", "cyjax/projective.py:fs_metric"]}
{"id": "C108", "title": "dimensions of a hypersurface", "statement": "a hypersurface in n homogeneous coordinates has dim_projective n-1, dim_variety n-2 and one defining equation, which can be evaluated with par_count parameters and not with fewer; polynomials in several variables are rejected with AssertionError.", "quantifier": "all hypersurfaces", "why_tests_cant": "for all polynomials", "anchors": ["cyjax/variety.py:VarietySingle.__init__", "cyjax/variety.py:VarietySingle.dim_variety"]}
{"id": "C109", "title": "VarietySingle.from_sympy takes the number of coordinates for the degree", "statement": "the argument poly_degree of from_sympy, documented as degree of the defining equation, is the number of homogeneous coordinates of the result whatever the degree of the polynomial; a polynomial with an index not below poly_degree is rejected.", "quantifier": "all expressions, names, degrees, parameters", "why_tests_cant": "for all expressions; the documented meaning only fails off the Calabi-Yau case", "anchors": ["cyjax/variety.py:VarietySingle.from_sympy"]}
{"id": "C110", "title": "weights in homogeneous coordinates", "statement": "at a smooth point with homogeneous coordinates x of a hypersurface of degree e in n+1 = m+2 coordinates, sample_intersect_weights on patch i is the volume factor times |x|^(2(m+1)) / |grad Q(x)|^2 times |x_i|^(2e) / |x_i|^(2(m+2)), positive, for every admissible dependent coordinate. For e = m+2 it does not depend on the patch. For Fermat and the smooth members of Dwork it is the explicit rational function of x.", "quantifier": "all hypersurfaces, smooth points, patches, dependent coordinates", "why_tests_cant": "for all points and charts", "anchors": ["cyjax/variety.py:VarietySingle.sample_intersect_weights", "cyjax/variety.py:Dwork", "cyjax/variety.py:Fermat"]}
{"id": "C111", "title": "the four forms of sample_intersect", "statement": "on a smooth hypersurface the flags affine and weights only change the form of the result: the same points in the same order, in affine coordinates on the patch of the largest coordinate or in homogeneous coordinates, with the weights of C110, all positive.", "quantifier": "all smooth hypersurfaces, drawn points, flags", "why_tests_cant": "for all samples", "anchors": ["cyjax/variety.py:VarietySingle.sample_intersect", "cyjax/variety.py:VarietySingle.sample_intersect_weights"]}
{"id": "C112", "title": "compute_vol", "statement": "compute_vol draws with the successive keys of split, and returns the mean of the weights over all batches, which is positive; the variance is the mean of squares minus the square of the mean, over the number of points, is not negative, and is zero exactly if all weights agree.", "quantifier": "all smooth hypersurfaces, keys, numbers of batches and points above zero", "why_tests_cant": "for all samples", "anchors": ["cyjax/variety.py:VarietySingle.compute_vol", "cyjax/util.py:mc_integrate_batched"]}
{"id": "C113", "title": "sigma accuracy of sampled points", "statement": "AlgebraicMetric.sigma_accuracy is the weighted mean of |1 - eta vol / vol_k| over vol with the weights of C110 and the values of eta at the homogeneous coordinates; it lies in [0, 2), is zero exactly if eta is constant on the sample, and does not change if H is multiplied by a positive number.", "quantifier": "all smooth hypersurfaces, degrees above zero, positive Hermitian H, non-empty samples", "why_tests_cant": "for all H and samples", "anchors": ["cyjax/donaldson.py:AlgebraicMetric.sigma_accuracy", "cyjax/donaldson.py:AlgebraicMetric.eta"]}
{"id": "C114", "title": "samples may be rescaled", "statement": "if two samplers return the same points in different homogeneous coordinates, affine samples, weights, compute_vol, sigma_accuracy and donaldson_step are equal, and raise the same exceptions.", "quantifier": "all samplers, varieties, bases, H, keys", "why_tests_cant": "for all rescalings of all points", "anchors": ["cyjax/variety.py:VarietySingle.sample_intersect", "cyjax/variety.py:VarietySingle.compute_vol", "cyjax/donaldson.py:AlgebraicMetric.sigma_accuracy", "cyjax/donaldson.py:AlgebraicMetric.donaldson_step"]}
{"id": "C115", "title": "donaldson_step on sampled points", "statement": "AlgebraicMetric.donaldson_step returns the inverse transpose of the T operator, which is N / vol times the mean over all points of weight times s_a conj(s_b) / (s H s^*), with the monomials s at homogeneous coordinates; if the points separate sections, H is positive and vol is positive the result is Hermitian and positive; with vol the mean of the weights the trace of H times its inverse is N.", "quantifier": "all smooth hypersurfaces, bases of degree above zero, Hermitian H, samples", "why_tests_cant": "for all H and samples", "anchors": ["cyjax/donaldson.py:AlgebraicMetric.donaldson_step"]}
{"id": "C116", "title": "points drawn by intersection lie on the variety", "statement": "sample_intersect of a general homogeneous polynomial of degree e returns min(count, e ceil(count / n)) non-zero solutions of the defining equation; for Fermat and for Dwork with a real factor exactly count, if the lines p + t q are in general position.", "quantifier": "all polynomials, parameters, dimensions, counts, lines in general position", "why_tests_cant": "for all lines and counts", "anchors": ["cyjax/variety.py:VarietySingle.sample_intersect", "cyjax/variety.py:Fermat", "cyjax/variety.py:Dwork", "cyjax/polynomial.py:DworkPoly", "cyjax/polynomial.py:FermatPoly"]}
{"id": "C117", "title": "from the equation to the results", "statement": "for Fermat, and for Dwork with a real factor unless (factor psi)^n = (-n)^n, the calls in sequence succeed: sample_intersect returns points of the variety, compute_vol a positive volume, sigma_accuracy a number in [0, 2) and donaldson_step a matrix, for every full basis of degree above zero and every positive Hermitian H.", "quantifier": "all dimensions, factors, parameters, keys, counts, degrees, H", "why_tests_cant": "for all keys and parameters", "anchors": ["cyjax/variety.py:VarietySingle.sample_intersect", "cyjax/variety.py:VarietySingle.compute_vol", "cyjax/donaldson.py:AlgebraicMetric.sigma_accuracy", "cyjax/donaldson.py:AlgebraicMetric.donaldson_step"]}
{"id": "C118", "title": "Dwork with a factor which is not real cannot be sampled", "statement": "DworkPoly accepts any number as factor and its values and gradients are then right (C102), but sample_intersect always raises for a factor with an imaginary part: the coefficient polynomials of the line equation contain the imaginary unit of sympy, which calls do not evaluate.", "quantifier": "all dimensions, factors, parameters, keys, counts above zero, flags", "why_tests_cant": "for all lines and parameters; existing tests only use real factors", "anchors": ["cyjax/variety.py:VarietySingle.sample_intersect", "cyjax/variety.py:Dwork", "cyjax/polynomial.py:DworkPoly", "cyjax/polynomial.py:_eval_sympy_poly"]}
{"id": "C119", "title": "derivatives of polynomials", "statement": "Poly.diff by the symbol of a variable gives a polynomial with the same variables, indices and parameters whose value is the derivative of the value of the original by that symbol, at all values of the others; by any other symbol (a parameter, another spelling of a coordinate) it raises.", "quantifier": "all polynomials as made by the constructors, symbols, values", "why_tests_cant": "for all polynomials and values; diff is not tested", "anchors": ["cyjax/polynomial.py:Poly.diff"]}
{"id": "C120", "title": "derivatives of homogeneous polynomials", "statement": "HomPoly.diff of a polynomial of degree d+1 is a HomPoly of degree d with no cached affine polynomials, and Euler's identity holds: the sum of coordinate times derivative is the degree times the value.", "quantifier": "all homogeneous polynomials, coordinates, values", "why_tests_cant": "for all polynomials and degrees", "anchors": ["cyjax/polynomial.py:Poly.diff", "cyjax/polynomial.py:Poly.from_poly", "cyjax/polynomial.py:HomPoly.__init__"]}
{"id": "C121", "title": "derivatives of the predefined polynomials", "statement": "diff of DworkPoly with a real factor and of FermatPoly by z_i returns a general polynomial with value n z_i^(n-1) + factor psi prod_{j != i} z_j (without the second term for Fermat).", "quantifier": "all degrees above zero, real factors, coordinates, points", "why_tests_cant": "for all degrees and points", "anchors": ["cyjax/polynomial.py:DworkPoly", "cyjax/polynomial.py:FermatPoly", "cyjax/polynomial.py:Poly.diff"]}
{"id": "C122", "title": "arithmetic with numbers and symbols", "statement": "P + x, P - x and P * x for a real number, a symbol or a polynomial x are pointwise: a parameter or a symbol with a new base name is a parameter (a new one is appended last), a symbol of a variable in the polynomial becomes one of its coordinates; a symbol with index for a variable without, or the other way round, raises.", "quantifier": "all polynomials, numbers, symbols, operations, values", "why_tests_cant": "for all operands", "anchors": ["cyjax/polynomial.py:Poly._combine_metadata", "cyjax/polynomial.py:Poly.__add__", "cyjax/polynomial.py:Poly.__sub__", "cyjax/polynomial.py:Poly.__mul__"]}
{"id": "C123", "title": "operations with other spellings of a coordinate", "statement": "P + z_3 with the symbol spelled with an underscore adds coordinate 3 of z in numeric calls, but symbolic calls leave z_3 in the result, and diff by z3 raises if z3 did not occur before: the symbol is not renamed as in from_sympy.", "quantifier": "all polynomials, spellings, indices, operations", "why_tests_cant": "for all spellings and polynomials", "anchors": ["cyjax/polynomial.py:Poly._combine_metadata", "cyjax/polynomial.py:Poly.__add__"]}
{"id": "C124", "title": "repeated Donaldson steps on one sample raise the determinant", "statement": "if the weights are not negative, the sections are independent on the points, and vol is the mean of the weights, one donaldson_step of a positive Hermitian H gives H' with det H' >= det H, with equality exactly if H' = H; the weighted mean of (s H' s^*) / (s H s^*) is 1; the energy N mean log(s H s^*) - log det H (whose critical points are the balanced metrics) does not grow, and is kept exactly if H' = H. So repeated steps never run in a cycle: if a matrix returns, it is a fixed point.", "quantifier": "all samples, batches, dimensions, positive Hermitian H, numbers of steps", "why_tests_cant": "for all samples and starting points", "anchors": ["cyjax/donaldson.py:AlgebraicMetric.donaldson_step"]}
{"id": "C125", "title": "the Donaldson step keeps the order of Hermitian matrices", "statement": "if a H1 <= H2 <= b H1 as Hermitian forms then the same holds for the results of donaldson_step on the same sample; so if the sample has a balanced metric G (a fixed point) and a G <= H <= b G, all repeated steps stay between a G and b G: numbers neither blow up nor collapse.", "quantifier": "all samples, pairs of positive Hermitian H, factors, numbers of steps", "why_tests_cant": "for all samples and starting points", "anchors": ["cyjax/donaldson.py:AlgebraicMetric.donaldson_step"]}
{"id": "C126", "title": "balanced metrics of a sample", "statement": "a fixed point of donaldson_step minimises the energy of C124 among all positive Hermitian matrices. If the points do not lie in two complementary subspaces, two fixed points are multiples of each other, so the result of the iteration depends on the start only by a factor; without this condition they need not be.", "quantifier": "all samples, fixed points, positive Hermitian H", "why_tests_cant": "for all samples; quantifies over all fixed points", "anchors": ["cyjax/donaldson.py:AlgebraicMetric.donaldson_step"]}
{"id": "C127", "title": "AlgebraicMetric.donaldson_step with the same key", "statement": "calls of AlgebraicMetric.donaldson_step with the same key, parameters and batches are steps on one sample, which satisfies the conditions of C124 if the points separate the sections and vol is the mean of their weights; so the determinants do not decrease and matrices do not return.", "quantifier": "all smooth hypersurfaces, bases of degree above zero, samples, positive Hermitian H", "why_tests_cant": "for all samples, H and numbers of steps", "anchors": ["cyjax/donaldson.py:AlgebraicMetric.donaldson_step"]}
{"id": "C128", "title": "limits of repeated Donaldson steps", "statement": "if repeated donaldson_steps on one sample have a positive definite limit, it is a balanced metric; if only a subsequence has, the whole sequence converges to it. If the sample has a balanced metric, the steps converge from every positive Hermitian start, and if the points do not lie in two complementary subspaces the limit is a multiple of that metric.", "quantifier": "all samples, positive Hermitian starts", "why_tests_cant": "quantifies over infinite sequences and all starts", "anchors": ["cyjax/donaldson.py:AlgebraicMetric.donaldson_step"]}
{"id": "C129", "title": "which samples have a balanced metric", "statement": "call a sample stable if each proper subspace of dimension r contains less than r/N of the total weight. A sample is stable exactly if it has a balanced metric and its points do not lie in two complementary subspaces, and then the steps converge from every start. There are samples satisfying all conditions of C124 on which the steps diverge.", "quantifier": "all samples, subspaces, positive Hermitian starts", "why_tests_cant": "quantifies over all subspaces and infinite sequences", "anchors": ["cyjax/donaldson.py:AlgebraicMetric.donaldson_step"]}
{"id": "C130", "title": "Donaldson steps for points in general position", "statement": "if any N of the sampled points have independent values of the N >= 2 sections, the sample is stable exactly if no single point has 1/N or more of the total weight; so then repeated steps converge from every start to the balanced metric, which is unique up to a factor.", "quantifier": "all samples in general position, weights, positive Hermitian starts", "why_tests_cant": "quantifies over all samples and infinite sequences", "anchors": ["cyjax/donaldson.py:AlgebraicMetric.donaldson_step"]}
{"id": "C131", "title": "AlgebraicMetric.donaldson_step with the same key converges", "statement": "calls of AlgebraicMetric.donaldson_step with the same key, with vol the mean of the weights of its points, converge from every positive Hermitian start to a matrix which the step returns unchanged, if the sample is stable or has a balanced metric.", "quantifier": "all smooth hypersurfaces, bases of degree above zero, samples, positive Hermitian starts", "why_tests_cant": "quantifies over infinite sequences of calls", "anchors": ["cyjax/donaldson.py:AlgebraicMetric.donaldson_step"]}
{"id": "C132", "title": "sampling with parameters named like the line", "statement": "a call does not use the values of parameters whose base name is that of a variable. So sample_intersect of a polynomial with parameters named p_i or q_i (or p, q with any index) silently ignores their values: the same points are returned for all of them, which need not be on the variety.", "quantifier": "all polynomials, parameters, values, lines", "why_tests_cant": "for all polynomials and parameter values", "anchors": ["cyjax/variety.py:VarietySingle.sample_intersect", "cyjax/polynomial.py:Poly.__call__"]}
{"id": "C133", "title": "from_sympy of a sympy.Poly", "statement": "from_sympy of a sympy.Poly takes the variable names from the generators and the parameters from the domain, and calls evaluate the expression. The names come in the order of a set: calls by keyword do not depend on it, positional ones do. Generators which do not occur in the expression are dropped, so points are evaluated at the wrong coordinates.", "quantifier": "all generators, domains, expressions, set orders, points", "why_tests_cant": "for all expressions and set orders", "anchors": ["cyjax/polynomial.py:Poly.from_sympy"]}
{"id": "C134", "title": "an integer patch for several variables", "statement": "patches are numbered, trailing zeros do not change the number. So for a HomPoly in several variables an integer (or short) patch is accepted as the patch padded with zeros, but substitutes only its own entries and is cached under the padded patch: after one request calls at the full patch, and compiled evaluation at any patch, raise.", "quantifier": "all homogeneous polynomials that depend on the variables left out, patches, earlier and later requests", "why_tests_cant": "needs a request of a short patch before; quantifies over histories", "anchors": ["cyjax/polynomial.py:HomPoly.affine_poly", "cyjax/polynomial.py:HomPoly.unique_patch_index", "cyjax/polynomial.py:HomPoly.transform_eval"]}
{"id": "C135", "title": "solve_defining returns all solutions", "statement": "if jnp.roots returns all roots with multiplicity, solve_defining returns all solutions for the missing coordinate with their multiplicities whenever the highest power does not vanish; for the Dwork and Fermat polynomials this is always so, and the number of points is the degree.", "quantifier": "all polynomials, patches, dependent coordinates, points, parameters", "why_tests_cant": "for all points and parameters", "anchors": ["cyjax/variety.py:VarietySingle.solve_defining", "cyjax/variety.py:Dwork", "cyjax/variety.py:Fermat"]}
{"id": "C136", "title": "the Ricci tensor is Hermitian", "statement": "for a Hermitian H the results of ricci_proj and ricci_loc are Hermitian matrices and ricci_scalar is real, at every point where they are defined.", "quantifier": "all Hermitian H, sections with symmetric second derivatives, points", "why_tests_cant": "for all H and points; floating point results are Hermitian only up to rounding", "anchors": ["cyjax/donaldson.py:GeometricObjects.ricci_proj", "cyjax/donaldson.py:GeometricObjects.ricci_loc", "cyjax/donaldson.py:GeometricObjects.ricci_scalar"]}
{"id": "C137", "title": "the Ricci tensor comes from eta", "statement": "in local coordinates on the hypersurface the Ricci tensor is the matrix of mixed derivatives of -log eta; so metrics whose eta are proportional near a point have the same Ricci tensor there, whatever their degree and basis.", "quantifier": "all homogeneous polynomials, bases of degree above zero, positive Hermitian H, regular points", "why_tests_cant": "relates two independent computations for all points; one uses derivatives of the other", "anchors": ["cyjax/donaldson.py:GeometricObjects.ricci_loc", "cyjax/donaldson.py:GeometricObjects.eta"]}
{"id": "C138", "title": "the Ricci tensor where eta is extremal", "statement": "at a local maximum of eta on the hypersurface the Ricci tensor is positive semidefinite and the Ricci scalar not negative; at a local minimum the tensor is negative semidefinite and the scalar not positive.", "quantifier": "all homogeneous polynomials, bases of degree above zero, positive Hermitian H, regular points", "why_tests_cant": "extrema are not found by tests, and the statement is about all of them", "anchors": ["cyjax/donaldson.py:GeometricObjects.ricci_loc", "cyjax/donaldson.py:GeometricObjects.ricci_scalar", "cyjax/donaldson.py:GeometricObjects.eta"]}
{"id": "C139", "title": "eta and Ricci on a whole Calabi-Yau hypersurface", "statement": "on every smooth hypersurface of degree equal to the number of coordinates, AlgebraicMetric.eta has a positive smallest and a largest value; AlgebraicMetric.ricci is positive semidefinite where the largest is attained and negative semidefinite where the smallest is. So ricci_scalar has no strict sign, for any H.", "quantifier": "all smooth hypersurfaces of degree n+1, bases of degree above zero, positive Hermitian H", "why_tests_cant": "a statement about all points of a compact set", "anchors": ["cyjax/donaldson.py:AlgebraicMetric.eta", "cyjax/donaldson.py:AlgebraicMetric.ricci", "cyjax/donaldson.py:AlgebraicMetric.ricci_scalar"]}
{"id": "C140", "title": "which variable names are accepted", "statement": "Poly accepts exactly distinct Python identifiers other than params; HomPoly also excludes patch, and requires indices for all variables: a scalar variable is a TypeError.", "quantifier": "all lists of names and indices", "why_tests_cant": "for all strings", "anchors": ["cyjax/polynomial.py:Poly.__init__", "cyjax/polynomial.py:HomPoly.__init__"]}
{"id": "C141", "title": "points with too few coordinates", "statement": "calling a polynomial at a point with too few coordinates must raise. With NumPy arrays it does (IndexError) exactly if a missing coordinate occurs in the polynomial; with JAX arrays, also inside jit and vmap, the last coordinate is silently used for the missing ones, so forgetting the patch gives wrong values. (Refuted for JAX arrays.) With enough coordinates both agree.", "quantifier": "all polynomials, points, numbers of coordinates", "why_tests_cant": "for all polynomials and points", "anchors": ["cyjax/polynomial.py:_eval_sympy_poly", "cyjax/polynomial.py:Poly.__call__"]}
{"id": "C142", "title": "the values of HNetMLP", "statement": "each hidden layer applies the activation to the sum of products of inputs and kernel plus bias, then dropout if it has a rate; the result is the last linear layer, or its second half times the sigmoid of the first. Powers in the features may be negative.", "quantifier": "all layers, kernels, activations, dropout functions, inputs", "why_tests_cant": "unbounded", "anchors": ["cyjax/ml.py:HNetMLP"]}
{"id": "C143", "title": "patches out of range", "statement": "a patch outside 0..n is either rejected or means the same everywhere. Refuted: hom_to_affine and affine_to_hom reduce it modulo the number of coordinates and rotate the affine coordinates by the quotient (so round trips still work), while the compiled equation takes the nearest valid patch.", "quantifier": "all points, all integer patches", "why_tests_cant": "for all integers and points", "anchors": ["cyjax/projective.py:hom_to_affine", "cyjax/projective.py:affine_to_hom", "cyjax/polynomial.py:HomPoly.transform_eval"]}
{"id": "C144", "title": "the Fubini-Study metric as an algebraic metric", "statement": "for the full basis of any degree above zero, and the multinomial coefficients of its monomials as H (vector or diagonal matrix), AlgebraicMetric.metric is VarietySingle.induced_fs divided by pi, kahler_potential is fs_potential divided by pi, and eta is the inverse of dim! times the weight of sample_intersect_weights. In degree one this H is the identity.", "quantifier": "all varieties, patches, points, degrees, dependent coordinates", "why_tests_cant": "relates independent computations for all degrees and points", "anchors": ["cyjax/donaldson.py:AlgebraicMetric.metric", "cyjax/donaldson.py:AlgebraicMetric.kahler_potential", "cyjax/donaldson.py:AlgebraicMetric.eta", "cyjax/variety.py:VarietySingle.induced_fs", "cyjax/variety.py:VarietySingle.sample_intersect_weights", "cyjax/projective.py:fs_metric"]}
{"id": "C145", "title": "symmetries of the sample", "statement": "if a linear map of the section values takes the sampled points to each other (up to a factor for each) and keeps their weights, a step keeps matrices with this symmetry symmetric; the balanced metric has every symmetry of the sample, so on stable samples the steps converge to a symmetric matrix from each start, symmetric or not. Conjugating sample and matrix conjugates the result.", "quantifier": "all samples, linear maps, numbers of sections, starting matrices", "why_tests_cant": "about limits and all symmetries of all samples", "anchors": ["cyjax/donaldson.py:AlgebraicMetric.donaldson_step"]}
{"id": "C146", "title": "symmetries of the coordinates", "statement": "if multiplying the coordinates by phases and permuting them keeps the equation up to a factor and takes the sampled points to each other, AlgebraicMetric.donaldson_step keeps the corresponding symmetry of H, and repeated steps converge to an H with it: entries at moved pairs of monomials differ by the phases, and for phases alone entries between monomials of different character vanish. The Fermat and Dwork equations have these symmetries for roots of unity, and the full basis is permuted by each permutation of the coordinates.", "quantifier": "all hypersurfaces, phases, permutations, bases, samples", "why_tests_cant": "for all symmetric samples of every size", "anchors": ["cyjax/donaldson.py:AlgebraicMetric.donaldson_step", "cyjax/variety.py:VarietySingle.sample_intersect", "cyjax/variety.py:Dwork", "cyjax/variety.py:Fermat"]}
{"id": "C147", "title": "eta and Kaehler potential under symmetries of the coordinates", "statement": "if phases and a permutation of the coordinates keep the equation up to a factor and H has the corresponding symmetry, AlgebraicMetric.eta and kahler_potential, with patch and dependent coordinate chosen by the code, return the same value at a point and at the moved point in any homogeneous coordinates, though the code works on another patch there. In particular for the identity on the Dwork family.", "quantifier": "all hypersurfaces, degrees, bases, symmetric H, smooth points, phases, permutations", "why_tests_cant": "for all points and symmetries", "anchors": ["cyjax/donaldson.py:AlgebraicMetric.eta", "cyjax/donaldson.py:AlgebraicMetric.kahler_potential", "cyjax/projective.py:hom_to_affine", "cyjax/variety.py:Dwork"]}
{"id": "C148", "title": "curvature under symmetries of the coordinates", "statement": "in the same situation the metric and the Ricci tensor at the two points are related by one invertible matrix, and AlgebraicMetric.ricci_scalar returns the same value.", "quantifier": "all hypersurfaces, degrees, bases, symmetric H, smooth points, phases, permutations", "why_tests_cant": "about fourth derivatives at all points", "anchors": ["cyjax/donaldson.py:AlgebraicMetric.metric", "cyjax/donaldson.py:AlgebraicMetric.ricci", "cyjax/donaldson.py:AlgebraicMetric.ricci_scalar"]}
{"id": "C149", "title": "the conjugate point", "statement": "if the coefficients of the equation are real functions of the parameters (conjugate parameters give the conjugate equation), conjugating coordinates, parameters and H (any matrix) conjugates metric, Ricci tensor, Ricci scalar and eta of AlgebraicMetric and keeps patch and dependent coordinate; for admissible H eta and kahler_potential are the same at both points. At real points with real parameters and real H metric and Ricci tensor are real.", "quantifier": "all such hypersurfaces, degrees, bases, matrices, smooth points", "why_tests_cant": "about fourth derivatives at all points", "anchors": ["cyjax/donaldson.py:AlgebraicMetric.metric", "cyjax/donaldson.py:AlgebraicMetric.ricci", "cyjax/donaldson.py:AlgebraicMetric.ricci_scalar", "cyjax/donaldson.py:AlgebraicMetric.eta", "cyjax/donaldson.py:AlgebraicMetric.kahler_potential"]}
{"id": "C150", "title": "real H", "statement": "if with every sampled point the conjugate point is sampled (in any homogeneous coordinates), donaldson_step takes real H to real H', the balanced metric is real, and on stable samples the steps converge to a real matrix from each admissible start. The same for AlgebraicMetric.donaldson_step on varieties with real equation.", "quantifier": "all samples closed under conjugation, numbers of sections, starting matrices", "why_tests_cant": "about limits and all symmetric samples", "anchors": ["cyjax/donaldson.py:AlgebraicMetric.donaldson_step", "cyjax/variety.py:VarietySingle.sample_intersect"]}
{"id": "C151", "title": "how fast the steps converge", "statement": "on a sample with a balanced metric no two complementary subspaces of which contain all points (stable samples) repeated steps approach their limit geometrically: after k steps each entry is within K s^k of the limit for some s below one, from each admissible start. So the number of steps grows only with the logarithm of the accuracy. The same for AlgebraicMetric.donaldson_step called again with the same key.", "quantifier": "all stable samples, numbers of sections, starting matrices", "why_tests_cant": "about limits of infinitely many steps", "anchors": ["cyjax/donaldson.py:AlgebraicMetric.donaldson_step"]}
{"id": "C152", "title": "uniqueness of the Cholesky parameters", "statement": "two sets of parameters of cholesky_decode (real diagonal without zeros) give the same matrix exactly if they differ by signs of columns of the triangular matrix; real parameter vectors of length n^2 with positive diagonal correspond one to one to the Hermitian positive definite matrices under cholesky_from_param.", "quantifier": "all sizes and parameters", "why_tests_cant": "for all pairs of parameter vectors of every size", "anchors": ["cyjax/ml.py:cholesky_decode", "cyjax/ml.py:cholesky_from_param"]}
{"id": "C153", "title": "sigma accuracy of the Fubini-Study metric", "statement": "for the multinomial coefficients as H, sigma_accuracy is the mean absolute deviation of the sampling weights from their mean, divided by the mean, in every degree; it is zero exactly if all weights agree.", "quantifier": "all smooth hypersurfaces, degrees, samples", "why_tests_cant": "relates independent computations for all degrees and samples", "anchors": ["cyjax/donaldson.py:AlgebraicMetric.sigma_accuracy", "cyjax/variety.py:VarietySingle.sample_intersect_weights"]}
{"id": "C154", "title": "products of algebraic metrics", "statement": "matrices H1, H2 of degrees k1, k2 have a product of degree k1 + k2 (coefficients of the product of the two Hermitian forms in the monomials of sections). It is Hermitian positive definite if they are; AlgebraicMetric.metric returns for it the mean of the two metrics weighted with the degrees, and kahler_potential the mean of the potentials. So where the two metrics agree, metric and eta stay the same: an H may be carried to every multiple of its degree without changing the geometry.", "quantifier": "all varieties, degrees, positive definite H1, H2, points, patches", "why_tests_cant": "for all pairs of matrices and degrees", "anchors": ["cyjax/donaldson.py:AlgebraicMetric.metric", "cyjax/donaldson.py:AlgebraicMetric.kahler_potential", "cyjax/donaldson.py:AlgebraicMetric.eta"]}
{"id": "C155", "title": "metrics of higher degree include those of lower degree", "statement": "for each positive definite Hermitian H of degree k and each j > 0 there is a positive definite Hermitian H' of degree j k with which AlgebraicMetric returns the same metric, eta, Ricci tensor, Ricci scalar and Kaehler potential as with H, for every variety with the same number of coordinates, every point, patch and dependent coordinate. So the best accuracy cannot get worse when the degree is multiplied.", "quantifier": "all degrees, multiples, positive definite H, varieties, points", "why_tests_cant": "about all points and fourth derivatives, existence of H'", "anchors": ["cyjax/donaldson.py:AlgebraicMetric.metric", "cyjax/donaldson.py:AlgebraicMetric.ricci", "cyjax/donaldson.py:AlgebraicMetric.ricci_scalar", "cyjax/donaldson.py:AlgebraicMetric.eta", "cyjax/donaldson.py:AlgebraicMetric.kahler_potential"]}
{"id": "C156", "title": "the variance loss bounds sigma accuracy", "statement": "for the same eta values and non-negative weights the square of sigma_accuracy is at most variance_eta_loss divided by the mean of the weights (already without the penalty for negative eta), so training to a small loss guarantees a small sigma.", "quantifier": "all eta values, weights, numbers of points", "why_tests_cant": "an inequality for all inputs between two independent functions", "anchors": ["cyjax/ml.py:variance_eta_loss", "cyjax/donaldson.py:AlgebraicMetric.sigma_accuracy"]}
{"id": "C157", "title": "Linear changes of the homogeneous coordinates", "statement": "For an invertible matrix A the values of the sections of a full basis at x A are the values at x times one invertible matrix R. The metric of AlgebraicMetric for H on the hypersurface P = 0, read at x A, is the metric for R H R^* on P(x A) = 0 read at x: psi and the Kaehler potential agree up to the change of patch, g_proj is the pullback by the Jacobian of the map, the metrics in local coordinates are those of one hermitian form, and eta changes by |det A|^2 when the degree is the number of coordinates. When A is unitary the sample weights agree too in that case, and weight times eta agrees for every degree.", "quantifier": "all dimensions, degrees, bases, invertible (for the weights: unitary) A, hermitian H, hypersurfaces, pairs of patches, dependent coordinates and points", "why_tests_cant": "Tests compare particular points in the given coordinates; invariance under all linear changes of coordinates involves the sections, the Jacobian and the determinant identity at every point.", "anchors": ["cyjax/donaldson.py:GeometricObjects.g_proj", "cyjax/donaldson.py:AlgebraicMetric.eta", "cyjax/donaldson.py:AlgebraicMetric.kahler_potential"]}
{"id": "C158", "title": "Unitary changes of coordinates, sample weights and Donaldson steps", "statement": "On a hypersurface whose degree is the number of homogeneous coordinates, with defining polynomial Q, a unitary A and the hypersurface Q(x A) = 0: the weight of the point x on the second equals the weight of x A on the first, although the largest coordinate and so the patch may differ. A Donaldson step (AlgebraicMetric.donaldson_step) from R h R^* with the points x gives R H R^*, where H is the result of the step from h with the points x A and R is the matrix by which the sections transform.", "quantifier": "all such hypersurfaces, unitary A, degrees of a full basis, samples with independent sections, hermitian positive definite h", "why_tests_cant": "Compares runs on two different varieties for all unitary matrices; a test fixes one.", "anchors": ["cyjax/donaldson.py:AlgebraicMetric.donaldson_step", "cyjax/variety.py:VarietySingle.sample_intersect_weights"]}
{"id": "C159", "title": "Curvature under linear changes of the homogeneous coordinates", "statement": "For an invertible matrix A of homogeneous coordinates, a full monomial basis with sections s(x A) = s(x) R, and a positive Hermitian H: the objects built from R H R^* and the equation P(x A) = 0 at a point x, and those built from H and P = 0 at x A, have metrics and Ricci tensors which are those of one Hermitian metric and one tensor in two systems of local coordinates related by an invertible matrix, and equal Ricci scalars. The patches and the dependent coordinates on both sides may be chosen freely.", "quantifier": "all dimensions, degrees, invertible A, positive Hermitian H, homogeneous P, patches, dependent coordinates, points where the chosen gradient entries do not vanish", "why_tests_cant": "Fourth derivatives of the potential in two unrelated local coordinate systems; a test compares floating point numbers for a few matrices only.", "anchors": ["cyjax/donaldson.py:GeometricObjects.ricci_loc", "cyjax/donaldson.py:GeometricObjects.ricci_scalar"]}
{"id": "C160", "title": "The Kaehler potential determines H", "statement": "For a full monomial basis of positive degree and positive matrices H, H': if kahler_potential with H' and with H differ by a constant c at all affine coordinates of one patch, then H' = r H for some r > 0 and c = log r / (pi degree); if the potentials agree then H' = H. Hence two sets of Cholesky parameters with positive diagonal entries which give the same potential are equal.", "quantifier": "all dimensions, degrees, patches, positive matrices, parameter lists", "why_tests_cant": "A statement about all pairs of matrices and all points; needs independence of the products of monomials and conjugated monomials.", "anchors": ["cyjax/donaldson.py:AlgebraicMetric.kahler_potential", "cyjax/ml.py:cholesky_from_param"]}
{"id": "C161", "title": "The Fubini-Study matrix is the invariant one", "statement": "For a full monomial basis and a unitary change A of the homogeneous coordinates with s(x A) = s(x) R, the diagonal matrix F of multinomial coefficients satisfies R F R^* = F. Conversely every matrix which is unchanged for all unitary A is a multiple of F.", "quantifier": "all dimensions, degrees, unitary matrices, all matrices H", "why_tests_cant": "Quantifies over all unitary matrices.", "anchors": ["cyjax/donaldson.py:GeometricObjects.psi", "cyjax/donaldson.py:MonomialBasisFull"]}
{"id": "C162", "title": "The metric of the ambient space determines H up to a positive factor", "statement": "For the full monomial basis of positive degree and Hermitian positive definite matrices H and H', the values of g_proj on a single patch agree at all points exactly when H' is a positive multiple of H. So the metric has no redundancy other than the scale of H: any wrong entry of H changes the metric somewhere on every patch.", "quantifier": "for all numClosedFields, all m, k > 0, all patches, all Hermitian positive definite H and H' and all pi != 0", "why_tests_cant": "It is a uniqueness statement over all points and all pairs of matrices; at single points different H give the same metric.", "anchors": ["cyjax/donaldson.py:GeometricObjects.g_proj", "cyjax/donaldson.py:GeometricObjects.psi"]}
{"id": "C163", "title": "Donaldson steps keep unitary symmetries of the sample", "statement": "Let A be a unitary matrix with Q(x A) = Q(x) for the defining polynomial Q, and let the sampled points be their own images under A up to order and rescaling of the homogeneous coordinates. If the norm of the sections with H is the same at x and x A for all x, so is the norm with the matrix donaldson_step returns. A fixed point of the step on an indecomposable sample has this invariance, and on a stable sample the steps converge to a matrix with it from every Hermitian positive definite start.", "quantifier": "all dimensions m, degrees k > 0, unitary A keeping Q, samples spanning the sections and mapped to themselves by A, Hermitian positive definite H (the limit: over the complex numbers over the Coq reals)", "why_tests_cant": "a test can try one A and one sample; a general unitary A mixes the monomials and acts on H through a matrix the code never computes", "anchors": ["cyjax/donaldson.py:AlgebraicMetric.donaldson_step"]}
{"id": "C164", "title": "The reduced basis describes the same metrics as the full basis", "statement": "Let V be a hypersurface whose defining polynomial uses every variable and let k > 0. For every positive definite hermitian H over MonomialBasisFull of degree k there is a positive definite hermitian H' over MonomialBasisReduced of degree k, and for every H' there is such an H, such that the Kaehler potential, the metric, eta, the Ricci tensor and the Ricci scalar agree at every smooth point of V, given by affine or by homogeneous coordinates. Matrices which give the same metrics, also over bases of different degrees, have the same sigma accuracy on every sample.", "quantifier": "all hypersurfaces (Dwork, Fermat or given by a sympy polynomial) of every dimension, all degrees k > 0, all positive definite hermitian matrices, all smooth points, patches and dependent coordinates", "why_tests_cant": "The tests build metrics over one basis at a time and for a few H and points; no run can show that a smaller basis loses no metric at all.", "anchors": ["cyjax/donaldson.py:MonomialBasisReduced", "cyjax/donaldson.py:MonomialBasisFull", "cyjax/donaldson.py:AlgebraicMetric.metric", "cyjax/donaldson.py:AlgebraicMetric.eta", "cyjax/donaldson.py:AlgebraicMetric.sigma_accuracy"]}
{"id": "C165", "title": "When a Donaldson step can be inverted", "statement": "The matrix T that donaldson_step inverts is invertible, for positive definite H and positive weights, exactly if no combination of the monomials vanishes at all sampled points. It is never invertible with fewer points than monomials, nor with MonomialBasisFull when its degree is at least that of the variety, whatever the sample. MonomialBasisReduced gives a basis on the variety (as documented) exactly if the defining polynomial divides every form of that degree vanishing on the variety; this holds if some line through (1:0:...:0) meets the variety in as many points as its degree, so for every Dwork and Fermat variety of positive dimension and every parameter. Then there is a sample with as many points as monomials on which T is invertible for every H and all weights.", "quantifier": "all hypersurfaces, degrees, samples, matrices H, weights and volumes", "why_tests_cant": "A singular T gives inf, nan or large rounding errors for a particular sample; that no sample can repair it, or that one always exists, is a statement about all samples.", "anchors": ["cyjax/donaldson.py:AlgebraicMetric.donaldson_step", "cyjax/donaldson.py:MonomialBasisReduced", "cyjax/donaldson.py:MonomialBasisFull"]}
{"id": "C166", "title": "Unitary symmetries with the reduced basis", "statement": "Let A be a unitary matrix with Q(x A) = Q(x) for the defining polynomial Q, and let the sampled points be their own images under A up to order and rescaling of the homogeneous coordinates. With MonomialBasisFull or MonomialBasisReduced, if the kernel sum_ab s_a(x) H_ab conj(s_b(y)) of the sections is the same at x, y and at x A, y A for all points of the hypersurface, so is the kernel of the matrix donaldson_step returns. A fixed point of the step on an indecomposable sample has this invariance, and on a stable sample the steps converge to a matrix with it from every Hermitian positive definite start. An invariant kernel has invariant norms on the hypersurface.", "quantifier": "all dimensions m, degrees k > 0, both bases, unitary A keeping Q, samples spanning the sections and mapped to themselves by A, Hermitian positive definite H (the limit: over the complex numbers over the Coq reals)", "why_tests_cant": "the monomials of the reduced basis are not kept by A, not even up to linear combination; only modulo Q, which no test of a single sample shows", "anchors": ["cyjax/donaldson.py:AlgebraicMetric.donaldson_step", "cyjax/donaldson.py:MonomialBasisReduced"]}
{"id": "C167", "title": "Metrics with an invariant kernel are invariant", "statement": "Let A be an invertible matrix with Q(x A) = Q(x) for the defining polynomial Q and let H over MonomialBasisReduced have the kernel sum_ab s_a(x) H_ab conj(s_b(y)) which is the same at x, y and at x A, y A for all points of the hypersurface. Then the local metrics at x and at x A, on any patches and with any dependent coordinates, are those of one metric related by the Jacobian of x -> x A. On a Calabi-Yau hypersurface eta at x is |det A|^2 times eta at x A. The Ricci tensors are related in the same way and the Ricci scalars are equal. One H has a kernel which is kept by all unitary A that keep Q.", "quantifier": "all hypersurfaces whose polynomial uses every variable and on which the monomials of the reduced basis are independent, all degrees k > 0, all invertible A keeping Q, all points where the chosen dependent coordinates can be used (Ricci: over the complex numbers over the Coq reals)", "why_tests_cant": "the code never applies A; a test compares the metric at a few pairs of points for one H", "anchors": ["cyjax/donaldson.py:AlgebraicMetric.metric", "cyjax/donaldson.py:AlgebraicMetric.eta", "cyjax/donaldson.py:AlgebraicMetric.ricci", "cyjax/donaldson.py:AlgebraicMetric.ricci_scalar", "cyjax/donaldson.py:MonomialBasisReduced"]}
