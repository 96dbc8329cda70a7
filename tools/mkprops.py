#!/usr/bin/env python3
"""Writes /verif/properties.jsonl (one property per line)."""
import json, os
P = []
def p(title, statement, quantifier, why, *anchors):
    P.append(dict(id="C%02d" % (len(P) + 1), title=title, statement=statement,
                  quantifier=quantifier, why_tests_cant=why, anchors=list(anchors)))

U, PR, PO, V, D, DI, M, R = ("cyjax/" + f for f in (
    "util.py", "projective.py", "polynomial.py", "variety.py", "donaldson.py",
    "differential.py", "ml.py", "random.py"))

p("pop removes exactly one entry",
  "util.pop(arr, i) for 0 <= i < len(arr) returns arr[i] together with the other entries in their original order.",
  "every array length, every entry type (scalars or rows), every valid index",
  "tests use arrays of length 3 and 4; the roll-based implementation has to be right for every length and index",
  U + ":pop")
p("pop with a negative index",
  "util.pop(arr, i) with -len(arr) <= i < 0 returns the value arr[i], but the remaining entries come back rotated by one place (the first one moved to the end); hence the documented 'remaining array' is only returned in order when that rotation is trivial. For any integer whatsoever the value is arr[i mod n] and the remainder is rolled by floor(i/n). (Documented contract is violated: refuted for every array of >= 3 distinct entries and every negative index.)",
  "every array and every negative Python index in range",
  "no test uses a negative index; the failure depends on length and index",
  U + ":pop")
p("insert_1d inserts at the requested place",
  "insert_1d(arr, val, i) puts the block val before position i of arr for 0 <= i <= len(arr); for -(len(arr)+1) <= i < 0 a single value ends up at output position i counted from the end; pop of the result at that place gives val and arr back.",
  "every array, every inserted value or block, every valid index of either sign",
  "tests use one array of length four",
  U + ":insert_1d")
p("insert_col inserts one column in every row",
  "insert_col(mat, col, i) is insert_1d applied to every row with the matching entries of col, for every valid index of either sign, and it is rejected when the number of rows differs.",
  "every matrix, every column block, every index",
  "tests use one 2x2 matrix", U + ":insert_col")
p("flatten/unflatten keeps batches aligned",
  "flatten_coord followed by a per-point function and unflatten_coord gives, at every batch index, the function value of the coordinates at that batch index, and the identity function gives the input back; passing conjugates of another shape is rejected.",
  "every batch shape and coordinate dimension, every per-point function",
  "infinitely many batch shapes", U + ":flatten_coord", U + ":unflatten_coord")
p("shuffle_axis only permutes one axis",
  "shuffle_axis(key, x, axis) returns an array of the same shape in which, for every fixed leading index, the slices along the axis are a permutation of those of x (whatever permutations the generator yields).",
  "every shape, axis and every outcome of the random generator",
  "the existing test compares an array with itself; the claim ranges over all random outcomes",
  U + ":shuffle_axis")
p("binomial coefficients are exact",
  "util.binomial(n, k) is the number of k-element subsets of an n-element set for 0 <= k <= n (the integer division never truncates), and raises for k > n or negative arguments.",
  "all integers n, k", "tests use four literals", U + ":binomial")
p("Monte Carlo integral uses the integrand",
  "mc_integrate(key, count, fn, sample) is documented to return mean(fn(z) * w). The code returns mean(w) for every integrand, so the documented value is returned exactly when mean(fn(z)*w) = mean(w); for the constant integrand 1 value and variance are as documented. (Documented contract refuted.)",
  "every integrand, sampler, key and count",
  "no test calls mc_integrate; the statement is about all integrands", U + ":mc_integrate")
p("batched Monte Carlo integration equals one big batch",
  "For the integrand 1, mc_integrate_batched returns the mean of the weights over all batches*batch_size samples and, with var=True, (mean of squared weights - square of the mean) / (batches*batch_size); batch number i is drawn with the i-fold second-half-split of the key.",
  "every key, sampler, number of batches and batch size",
  "ranges over all samplers and batch counts", U + ":mc_integrate_batched", V + ":VarietySingle.compute_vol")
p("PRNGSequence is a deterministic stream",
  "the n-th call of next() on a PRNGSequence returns the first half of the split of the key obtained by taking the second half n times, whatever was drawn before; an int seed and the key made from it give the same stream, and two sequences with equal seed agree at every position.",
  "every seed and every number of previous calls",
  "infinite stream", U + ":PRNGSequence")
p("affine and homogeneous indices correspond",
  "for a fixed patch, index_affine_to_hom is a strictly increasing bijection from affine positions 0..n-1 onto homogeneous positions 0..n without the patch, and index_hom_to_affine is its inverse; the two conversions address the same entry of affine_to_hom(z, patch).",
  "every dimension, patch and index", "tests check five pairs",
  PR + ":index_hom_to_affine", PR + ":index_affine_to_hom")
p("affine/homogeneous coordinate round trip",
  "hom_to_affine(affine_to_hom(z, p), p) = z, and affine_to_hom(hom_to_affine(h, p), p) = h / h[p] whenever h[p] is nonzero; hom_to_affine is unchanged when h is rescaled by a nonzero number.",
  "every dimension, point and patch", "tests sample random points; claim is for all",
  PR + ":hom_to_affine", PR + ":affine_to_hom")
p("automatic patch bounds the coordinates",
  "hom_to_affine without a patch chooses the first index of largest modulus and, for any nonzero point, returns coordinates of modulus at most 1 that represent the same projective point; the documented strict bound |z_i| < 1 fails exactly when another entry attains the maximum.",
  "every nonzero homogeneous point", "boundary ties have measure zero for random tests",
  PR + ":hom_to_affine")
p("change_chart is the transition map",
  "for different patches and a point in the overlap, change_chart(z, i, j) = hom_to_affine(affine_to_hom(z, i), j); going back returns z, and going i -> j -> k equals i -> k.",
  "every dimension, pair or triple of distinct patches and overlap point",
  "tests only check a bound on moduli for one dimension", PR + ":change_chart")
p("change_chart to the same patch",
  "change_chart(z, p, p) should return z. The code instead divides every coordinate by z[q] and replaces coordinate q by 1/z[q], with q = p modulo len(z) (so the last patch acts like patch 0): the identity law holds only if z[q] = 1, or z[q] = -1 and all other coordinates vanish. (Refuted.)",
  "every point and every patch", "tests only use different patches", PR + ":change_chart")
p("Fubini-Study metric is Hermitian positive definite",
  "fs_metric(z) is a Hermitian, positive definite matrix at every point, equal to 1/(1+|z|^2) - conj(z) z^T/(1+|z|^2)^2.",
  "every dimension and point", "claim over all points and dimensions", PR + ":fs_metric")
p("Fubini-Study metric is the complex Hessian of the potential",
  "fs_metric(z, zc)[i, j] is the derivative by z_i of the derivative by zc_j of fs_potential(z, zc) = log(1 + sum z zc).",
  "every dimension, every pair (z, zc) off the zero set of 1 + sum z zc", "limits cannot be tested",
  PR + ":fs_metric", PR + ":fs_potential", DI + ":complex_hessian")
p("Fubini-Study geometry does not depend on the patch",
  "fs_potential of homogeneous coordinates is the affine potential plus log |z_p|^2, and the metric in one patch is the pullback under change_chart of the metric in any other patch.",
  "every dimension, distinct patches and overlap point", "identity of functions",
  PR + ":fs_metric", PR + ":change_chart")
p("Jacobian of the embedding is tangent to the variety",
  "every row r of jacobian_embed(G, dep) has entry 1 at its own coordinate, 0 at the other independent coordinates and -G/G[dep] at the dependent coordinate, so it is annihilated by G; the rows form a basis of the kernel of G.",
  "every gradient vector with nonzero dependent entry and every dependent index", "all dimensions and indices",
  DI + ":jacobian_embed")
p("induced metric is the Hermitian positive definite pullback",
  "induced_metric(g, G, dep) = J g J^dagger; it is Hermitian if g is, positive definite if g is, and passing the conjugate gradient explicitly changes nothing.",
  "every metric, gradient and dependent index", "all matrices", DI + ":induced_metric", V + ":VarietySingle.induced_metric")
p("volume ratio does not depend on the dependent coordinate",
  "det(induced_metric(g, G, dep)) * |G[dep]|^2 is the same for every dependent index with nonzero gradient entry; hence eta and the sampling weights do not depend on that choice.",
  "every metric, gradient, pair of dependent indices", "algebraic identity in all dimensions",
  D + ":GeometricObjects.eta", V + ":VarietySingle.sample_intersect_weights")
p("subscript parsing is stable",
  "for alphabetic names, split_subscript(merge_subscript(name, i)) = (name, i), and 'z1' and 'z_1' are read the same way; a name without subscript yields None; two subscripts raise.",
  "all alphabetic names and all subscripts", "infinitely many strings", PO + ":split_subscript", PO + ":merge_subscript")
p("index union",
  "the indices of a variable after adding/multiplying two polynomials are the union of both index lists without repetition, sorted if both were sorted.",
  "all pairs of duplicate-free index lists", "unbounded lists", PO + ":_union_indices", PO + ":Poly._combine_metadata")
p("from_sympy does not depend on symbol iteration order (names given)",
  "with (alphabetic) variable names given, Poly.from_sympy succeeds for every order in which the free symbols of the expression are visited or for none, with the same result: the given names, strictly sorted indices of exactly the subscripts that occur, the given parameters or else the sorted other symbols; every free symbol is accounted for.",
  "all expressions and all iteration orders of the symbol set", "the order is decided by hash seeds", PO + ":Poly.from_sympy")
p("from_sympy with automatic variables",
  "without variable names, Poly.from_sympy is documented to detect the variables; the code registers one new variable per symbol, in visiting order, so any expression with two symbols of the same base name (z0, z1) raises ValueError. (Refuted; the exact result is characterised.)",
  "all expressions whose symbols carry subscripts", "depends on all symbol sets", PO + ":Poly.from_sympy")
p("mixed subscripted and plain use of a variable",
  "a variable used both with and without subscript is rejected for every iteration order of the symbol set (which exception depends on the order); so is a variable written in both spellings z1 and z_1.",
  "all iteration orders", "hash-seed dependent", PO + ":Poly.from_sympy")
p("argument binding of polynomials",
  "values passed positionally, by keyword or mixed bind to the same variables and parameters; too many positional arguments, a missing variable or a wrong number of parameters is rejected.",
  "all variable lists and all ways to split the arguments", "exponentially many splits", PO + ":_sort_var_args")
p("numeric evaluation equals substitution",
  "calling a polynomial on numbers gives the value of its expression with every indexed symbol replaced by the entry of the matching variable and every parameter by its value, i.e. the same as symbolic substitution.",
  "all expressions built from numbers, symbols, sums, products and natural powers; all index lists; all values", "unbounded expressions",
  PO + ":_eval_sympy_poly", PO + ":Poly.__call__")
p("evaluation does not modify its inputs",
  "evaluating a polynomial must leave the input arrays unchanged and not depend on evaluation history. The product helper multiplies in place, so a scalar variable given as a mutable 0-d array is overwritten; inputs are preserved when they are immutable. (Refuted for mutable scalars.)",
  "all expressions and all memory states", "aliasing depends on term order", U + ":prod", PO + ":_eval_sympy_poly")
p("monomial evaluation strategies agree",
  "compute_monomials returns coeff * prod v^p for every term, identically for the symbolic, plain, optimised and logarithmic strategy (the latter for nonzero values, or zero values with zero powers), skipping absent variables.",
  "all coefficient/power tables and values", "unbounded tables", PO + ":compute_monomials")
p("coefficient extraction inverts construction",
  "to_coeffs_and_powers returns terms whose sum is the polynomial provided every coefficient is a product of one number and distinct parameters; coefficients with a numeric multiple of the imaginary unit lose their magnitude, and squared parameters raise. (Partly refuted.)",
  "all polynomials", "unbounded", PO + ":Poly.to_coeffs_and_powers", PO + ":Poly.from_coeffs_and_powers")
p("polynomial arithmetic is pointwise",
  "the sum, difference and product of two Poly objects evaluate to the sum, difference and product of the values at the same variables and parameters, with merged variable and parameter lists.",
  "all pairs of polynomials with compatible variables", "unbounded", PO + ":Poly.__add__", PO + ":Poly.__sub__", PO + ":Poly.__mul__")
p("univariate coefficients rebuild the polynomial",
  "univariate_coefficients(poly, t) lists, from the highest power of t down to the constant, coefficients with poly = sum coeff_k t^k at every value of the other variables; the list has degree+1 entries.",
  "all polynomials and values", "unbounded", PO + ":univariate_coefficients")
p("patch numbering is a bijection",
  "unique_patch_index maps the patch tuples of a product of projective spaces bijectively onto 0..(number of patches - 1) as i + d1*(j + d2*k ...).",
  "all lists of dimensions and all patch tuples", "unbounded", PO + ":HomPoly.unique_patch_index")
p("affine polynomial equals homogeneous polynomial with coordinate 1",
  "for variables with indices 0..d-1, evaluating HomPoly with patch=p at affine coordinates z equals evaluating it at affine_to_hom(z, p); for other index lists the code substitutes the coordinate whose printed subscript is p instead of the p-th coordinate. (Documented behaviour refuted for non-consecutive indices.)",
  "all polynomials, points and patches", "unbounded", PO + ":HomPoly.affine_poly")
p("affine polynomial cache is transparent",
  "affine_poly(p) returns the same polynomial whatever patches were requested before, as long as all requests are in range; one request with a negative patch poisons the cache entry of a valid patch. (Refuted for negative requests.)",
  "all request histories", "histories are unbounded", PO + ":HomPoly.affine_poly")
p("compiled evaluation dispatches to the right patch",
  "the function made by transform_eval evaluates, for every valid patch tuple, the affine polynomial of that patch, and without patch the homogeneous polynomial; out-of-range patches are silently clamped to the nearest valid number.",
  "all dimension lists, patches, points", "unbounded", PO + ":HomPoly.transform_eval")
p("Dwork and Fermat polynomials are homogeneous and symmetric",
  "DworkPoly/FermatPoly of degree n in n variables scale with lambda^n, are invariant under permutations of the coordinates, and their affine value equals the homogeneous value at affine_to_hom(z, p) in every patch p.",
  "all degrees, factors, moduli, points, patches", "unbounded", PO + ":DworkPoly", PO + ":FermatPoly")
p("sampled points lie on the variety",
  "every point returned by sample_intersect satisfies the defining equation for the given parameters, in homogeneous coordinates and in the returned affine patch, whatever the random lines are (roots being roots).",
  "all homogeneous polynomials, parameters, keys/outcomes", "all random outcomes", V + ":VarietySingle.sample_intersect", V + ":_solve_intersect")
p("number of sampled points",
  "sample_intersect(key, params, count) returns min(count, degree*ceil(count/n)) points for n homogeneous coordinates, so count points whenever the degree is at least n (Calabi-Yau case); for lower degree it may return fewer than requested. (Documented count refuted for low degree.)",
  "all degrees, dimensions and counts", "unbounded", V + ":VarietySingle.sample_intersect")
p("sampling weights are positive and consistent",
  "sample_intersect_weights is positive real, independent of the dependent coordinate, and equals dVolCy/dA of the separate=True output when vol is 1; for other vol the factor is dropped from the ratio but kept in the separate output. (Consistency refuted for vol != 1.)",
  "all points, gradients, dependent indices and vol", "all inputs", V + ":VarietySingle.sample_intersect_weights")
p("solve_defining completes points",
  "solve_defining(zs, params, dep, patch) returns points that contain zs in order with one value inserted at position dep, and each of them satisfies the affine defining equation.",
  "all polynomials, partial points, patches, dependent positions", "unbounded", V + ":VarietySingle.solve_defining")
p("best_dependent",
  "best_dependent(zs, params, patch) should return the index maximising the gradient; the code passes patch and params in swapped positions, so the gradient is requested with parameters := patch and patch := params. (Refuted.)",
  "all inputs", "never tested", V + ":VarietySingle.best_dependent")
p("monomial basis is complete",
  "monomial_basis(n, d) lists every exponent vector of length n+1 and degree d exactly once, and nothing else; monomial_basis_size(n, d) is its length.",
  "all dimensions and degrees", "unbounded", D + ":monomial_basis", D + ":monomial_basis_indices", D + ":monomial_basis_size")
p("section evaluation",
  "MonomialBasisFull/Reduced sections evaluate to prod z_j^P_ij at homogeneous coordinates and, given a patch, to the same at affine_to_hom(z, patch); the logarithmic variant agrees where all coordinates are nonzero.",
  "all degrees, dimensions, points, patches", "unbounded", D + ":_compute_monomials_index", D + ":_compute_monomials_log")
p("basis reduction never fails and has the predicted size",
  "reduced_monomial_basis(d, P) never raises for a homogeneous polynomial; it returns, in order, exactly the monomials of degree d not divisible by the first listed term of P, and their number is monomial_basis_size(n, d, reduced=True) when P has degree n+1.",
  "all homogeneous polynomials and degrees", "unbounded; the RuntimeError branch must be unreachable", D + ":reduced_monomial_basis", D + ":monomial_basis_size")
p("reduced monomials are a basis modulo the polynomial",
  "with terms listed in lexicographic order (as MonomialBasisReduced does), every degree-d form is congruent modulo P to a unique combination of the reduced monomials; for another term order the result need not be a basis. (Basis claim refuted for arbitrary term order.)",
  "all homogeneous polynomials over a field, all degrees", "linear independence over infinitely many forms", D + ":reduced_monomial_basis", D + ":MonomialBasisReduced")
p("algebraic metric is the Hessian of the Kaehler potential",
  "g_proj[i, j] is the mixed derivative of K = log(s H sbar)/(pi k); it is Hermitian for Hermitian H.",
  "all sections, Hermitian H, points with nonzero psi", "limits", D + ":GeometricObjects.g_proj", D + ":GeometricObjects.kahler", D + ":GeometricObjects.psi")
p("derivatives of the ambient metric",
  "g_proj_h, g_proj_a and g_proj_ha are the holomorphic, anti-holomorphic and mixed second derivatives of g_proj.",
  "all sections, Hermitian H, points with nonzero psi", "limits", D + ":GeometricObjects.g_proj_h", D + ":GeometricObjects.g_proj_a", D + ":GeometricObjects.g_proj_ha")
p("derivatives of the local metric",
  "g_loc = J g_proj J^dagger and g_loc_h, g_loc_a, g_loc_ha are its holomorphic, anti-holomorphic and mixed derivatives.",
  "all sections, gradients, Hermitian H, points", "limits", D + ":GeometricObjects.g_loc", D + ":GeometricObjects.g_loc_h", D + ":GeometricObjects.g_loc_ha")
p("Ricci tensor",
  "ricci_proj[a, b] is minus the mixed derivative of log det g_loc, ricci_loc is its pullback J R J^dagger and ricci_scalar the trace with the inverse metric; it is unchanged when H is rescaled.",
  "all points with invertible metric", "limits", D + ":GeometricObjects.ricci_proj", D + ":GeometricObjects.ricci_loc", D + ":GeometricObjects.ricci_scalar")
p("metric is insensitive to the scale of H and eta is positive",
  "rescaling H by a positive number leaves g_proj, g_loc and eta unchanged; eta is real for Hermitian H and positive for positive definite local metric.",
  "all H, scales, points", "all inputs", D + ":GeometricObjects.eta", D + ":AlgebraicMetric")
p("diagonal H",
  "a 1-d H is treated as the diagonal matrix by psi, psi_h, psi_ha, psi_hha, psi_hhaa; psi_hh however always raises for 1-d H because the result of the diagonal branch is discarded. (Refuted for psi_hh and everything depending on it.)",
  "all diagonal H and sections", "branch never tested", D + ":GeometricObjects.psi_hh")
p("sigma accuracy",
  "sigma_accuracy is a nonnegative number, zero exactly when eta is constant on the sampled points of nonzero weight, at most 2 for positive eta, and unchanged when eta is rescaled.",
  "all samples, weights and eta values", "all inputs", D + ":AlgebraicMetric.sigma_accuracy")
p("Donaldson step",
  "donaldson_step returns a Hermitian matrix, positive definite if the sampled sections span; splitting the same samples into batches does not change the result; sum_ab h_ab T_ab = N * mean(weights) / vol; scaling h scales the result; only the Hermitian part of h matters.",
  "all samples, weights, batchings and Hermitian matrices", "all inputs", D + ":AlgebraicMetric.donaldson_step")
p("Cholesky decoding",
  "cholesky_decode(diag, upper) is Hermitian and positive semi-definite for all inputs, positive definite exactly when no diagonal entry is zero; every Hermitian positive definite matrix is reached.",
  "all sizes and inputs", "all inputs", M + ":cholesky_decode", M + ":cholesky_from_param")
p("Hermitian parametrisation starts at the identity",
  "cholesky_from_param(hermitian_param_init(key, n)) is the identity matrix of size n; in general it is the matrix of squared diagonal values; parameter vectors whose length is not a square are rejected.",
  "all sizes", "unbounded", M + ":hermitian_param_init", M + ":cholesky_from_param")
p("initial network output",
  "HNetMLP is meant to start near the identity; with sig_suppress the initial H is one quarter of the intended matrix, without it the intended matrix. (Refuted for the default setting.)",
  "all inputs, sizes and activations", "all inputs", M + ":HNetMLP")
p("network input features",
  "HNetMLP builds (number of distinct powers incl. 0)^m - 1 power products for m moduli, each a product of the moduli raised to chosen powers, not all zero, each exactly once, and outputs basis_size^2 real parameters.",
  "all moduli counts and power lists", "unbounded", M + ":HNetMLP")
p("batch sampler is a gap-free stream",
  "the n-th next() of a BatchSampler returns the sample drawn with the n-th key of its key sequence, for every buffer size >= 1: nothing is skipped or repeated across buffer refills.",
  "all buffer sizes >= 1, all n", "unbounded histories", M + ":BatchSampler")
p("batch sampler after a failed refill",
  "if drawing a sample raises during a refill, the sampler must stay usable; in the code every later next() raises IndexError and the sample being returned is lost. (Refuted.)",
  "all buffer sizes and crash points", "crash points", M + ":BatchSampler.__next__", M + ":BatchSampler.new_buffer")
p("variance loss",
  "variance_eta_loss is nonnegative for nonnegative weights; its first part is unchanged when eta is rescaled by a positive factor; it vanishes exactly when eta is nonnegative and constant on points of nonzero weight.",
  "all samples", "all inputs", M + ":variance_eta_loss")
p("random complex numbers are in range",
  "uniform_components lies in the square [-1,1)^2 (the documentation says [0,1)), uniform_angle has modulus in [minrad, maxrad], uniform_angle_unit has modulus 1.",
  "all random outcomes", "all outcomes", R + ":uniform_components", R + ":uniform_angle", R + ":uniform_angle_unit")
p("points on spheres",
  "real_sphere and complex_sphere return vectors of norm 1 for every nonzero draw and uniform_projective returns affine coordinates of modulus at most 1 in a valid patch.",
  "all draws and dimensions", "all outcomes", R + ":real_sphere", R + ":complex_sphere", R + ":uniform_projective")
p("overlap samples stay in the overlap",
  "projective_overlap returns coordinates of modulus at most patch_size in this patch, whose change_chart image has modulus at most patch_size too.",
  "all random outcomes, dimensions, patches, patch_size >= 1", "all outcomes", R + ":projective_overlap")
p("overlap sampling is symmetric under change_chart",
  "the distribution of projective_overlap is invariant under change_chart, as documented. For the patches 0 and 1 the change of chart sends the point of a draw to the point of another draw of the reversed sampling; the map on draws reflects the first radial variable and one angle and translates the other angles modulo 1, and is an involution. For two patches other than 0, and for patch 0 seen from a patch above 1, the image of almost every draw is not a point of the reversed sampling at all. (Refuted in general.)",
  "all random outcomes", "distributional", R + ":projective_overlap")

p("negative patch index",
  "hom_to_affine with a negative patch -n <= p < 0 divides by the right coordinate (numpy convention) but returns the remaining coordinates rotated by one place.",
  "all points and negative patches", "no test uses one", PR + ":hom_to_affine")
p("negative dependent index",
  "jacobian_embed with a negative dependent index should be the Jacobian for the coordinate counted from the end; it is not tangent to the variety. (Refuted.)",
  "some gradient", "no test uses one", DI + ":jacobian_embed")
p("hidden layers with a dropout list",
  "HNetMLP builds one hidden layer per entry of layer_sizes; with a dropout_rates list shorter than layer_sizes the last layers are silently dropped. (Refuted.)",
  "all layer and dropout lists", "tests use equal lengths", M + ":HNetMLP")

p("symbolic substitution",
  "calling a polynomial on symbolic expressions gives the expression with all variables replaced simultaneously, as the documentation suggests. It holds when no replacement contains a symbol of the polynomial; exchanging two variables goes wrong for every order of replacement. (Refuted in general.)",
  "all polynomials, all replacements, all replacement orders", "depends on the dictionary order inside sympy", PO + ":Poly.__call__")
p("complex coefficients",
  "a polynomial whose expression contains the imaginary unit cannot be evaluated numerically although the domain is CC and the number conversion has a case for it: evaluation raises for every input. (Refuted.)",
  "all expressions containing I, all inputs", "unbounded expressions", PO + ":_eval_sympy_poly", PO + ":_sympy_eval_num")
p("parameters sharing a base name with a variable",
  "a parameter must be read from the parameters; a parameter whose name without subscript is a variable name (x1 next to a scalar x, z_1 next to a vector z) is silently read from the variable, or raises KeyError. (Refuted.)",
  "all such parameter names, all inputs", "needs all names", PO + ":_eval_sympy_poly")
p("sections are homogeneous and change patch by a power",
  "scaling the homogeneous coordinates by c multiplies every section by c^degree, so evaluating in the affine patch p gives every section divided by the degree-th power of coordinate p.",
  "all bases of one degree, all points, patches and factors", "holds for all points", D + ":_compute_monomials_index", D + ":_MonomialBasis")

p("polynomial sections satisfy the differentiability contract",
  "for polynomial sections and a polynomial defining equation, the arrays s_1, s_2, grad_def and jac_h given by formal differentiation are the derivatives the theorems on the metric and the Ricci tensor ask for, at every point with nonzero gradient entry; so those theorems apply to all bases of the package.",
  "all polynomial sections and defining polynomials, all points", "for all polynomials", D + ":GeometricObjects")
p("the algebraic metric is positive",
  "for positive definite H the metric g_proj is positive semidefinite, and positive definite exactly when no nonzero combination of the derivatives of the sections is a multiple of the sections (the embedding is an immersion).",
  "all positive definite H, sections, points", "for all H", D + ":GeometricObjects")
p("default dependent coordinate",
  "without a dependent index the coordinate with the largest gradient entry is used, and every result is the one for that explicit index.",
  "all points", "for all gradients", D + ":GeometricObjects")

p("Donaldson step and the volume argument",
  "donaldson_step is linear in vol_cy; if h is a fixed point of the step then vol_cy equals the mean of the weights of the sample.",
  "all samples, weights, matrices", "quantifies over all samples and fixed points", D + ":AlgebraicMetric.donaldson_step")
p("Donaldson step: patch and basis",
  "the step does not depend on the patch in which the sections are evaluated at each point, and it follows a change of basis of the sections: with sections s A and A h' A^dagger = h the results satisfy A H2 A^dagger = H1.",
  "all samples, matrices, rescalings", "quantifies over all changes of basis", D + ":AlgebraicMetric.donaldson_step")
p("Donaldson step: weights that are not finite",
  "points whose weight is nan or infinite count like points of weight zero.",
  "all samples", "quantifies over all samples", D + ":AlgebraicMetric.donaldson_step")
p("Donaldson step: real h",
  "donaldson_step accepts every Hermitian matrix h, also one stored with a real dtype such as jnp.eye(n). (Refuted: the accumulator takes the dtype of h.)",
  "all real h", "contract over all inputs", D + ":AlgebraicMetric.donaldson_step")

p("random spheres are equivariant under unitary matrices",
  "multiplying the normal draws, read as a complex vector, by a unitary matrix multiplies the point of complex_sphere by the same matrix; with the rotation invariance of the normal distribution this makes the samples of projective space uniform.",
  "all draws, dimensions, unitary matrices", "quantifies over the unitary group", R + ":complex_sphere", R + ":uniform_projective")
p("overlap samples cover the overlap region",
  "every interior point of the region where the coordinates stay below patch_size in both patches is the image of a draw. True when the other patch's coordinate is stored first; otherwise the modulus of coordinate 0 is a function of the modulus of the other patch's coordinate and the samples lie in a set of measure zero. (Refuted in general.)",
  "all points of the region, dimensions, patches, patch sizes", "surjectivity onto a continuum", R + ":projective_overlap")

p("smooth points of the variety have local coordinates",
  "near every point of a polynomial hypersurface where the derivative by coordinate d is nonzero, the hypersurface is the graph of a differentiable function of the other coordinates: the parametrisation the metric in local coordinates refers to exists, and covers all nearby points of the hypersurface.",
  "all polynomials, smooth points, dependent coordinates", "existence over a continuum of points", DI + ":jacobian_embed", D + ":GeometricObjects")
p("sections are the monomials with the patch coordinate set to one",
  "evaluating a full or a reduced basis in a patch gives, in order, the values of its monomials after setting the patch coordinate to one, with either evaluation strategy; the sections are therefore polynomials in the affine coordinates.",
  "all bases, points, patches, strategies", "quantifies over all points and degrees", D + ":_MonomialBasis", D + ":MonomialBasisReduced", D + ":_compute_monomials_index")
p("the algebraic metric of a monomial basis is positive",
  "for positive definite H and degree at least one, psi is positive everywhere; with the full basis g_proj is positive definite at every point, and with the full or the reduced basis g_loc is positive definite and eta positive at every smooth point of the variety.",
  "all dimensions, degrees, defining polynomials, H, points, patches", "positivity for all matrices and all points", D + ":GeometricObjects", D + ":MonomialBasisReduced", D + ":AlgebraicMetric")
p("exp and log strategy over the complex numbers",
  "the exponential and the principal logarithm of complex numbers satisfy what the log strategy and the Kaehler potential use: exp 0 = 1, exp(a+b) = exp a exp b, exp(log v) = v for v nonzero, log differentiable with derivative 1/x near positive x, log of a product of positives is the sum.",
  "all complex numbers", "identities over a continuum", PO + ":compute_monomials", D + ":_compute_monomials_log", D + ":GeometricObjects.kahler")
p("metric and Ricci tensor over the complex numbers",
  "for the full or reduced monomial basis, positive definite H, and a smooth point of the hypersurface: in the local coordinates of the hypersurface g_loc is the matrix of mixed derivatives of log(psi) / (pi degree), it is positive definite, and ricci_loc is the matrix of mixed derivatives of - log det g_loc, with the actual complex logarithm and pi and no differentiability assumption left.",
  "all dimensions, degrees, polynomials, H, smooth points", "derivative identities for all inputs", D + ":GeometricObjects", D + ":AlgebraicMetric")

p("the algebraic metric does not depend on the patch",
  "for the full or the reduced basis the metric g_proj computed on patch i at z equals T g_proj T^dagger computed on patch j at the image w of z, with T the Jacobian of the change of patch; psi is multiplied by |x|^(2 degree) and the Kaehler potential changes by log|x|^2 / pi, with x the homogeneous coordinate j of the point.",
  "all dimensions, degrees, H, points, pairs of patches", "quantifies over all points and patches", D + ":GeometricObjects", D + ":AlgebraicMetric.metric", PR + ":change_chart")
p("the defining equation on two patches",
  "the value of the defining polynomial on patch i is x^degree times its value on patch j, and at points of the variety the gradient on patch i is x^degree times the gradient on patch j pulled back by the Jacobian of the change of patch.",
  "all homogeneous polynomials, points, patches", "for all polynomials", V + ":VarietySingle.grad_defining", PO + ":HomPoly")
p("measures depend on the patch unless the hypersurface is Calabi-Yau",
  "sample_intersect_weights and eta on two patches differ by powers of |x|; the product weight * eta is the same on both; each is the same on both patches when the degree of the hypersurface equals the number of homogeneous coordinates, and at points with |x| different from 1 only then.",
  "all dimensions, degrees, polynomials, H, smooth points, patches", "for all points and degrees", V + ":VarietySingle.sample_intersect_weights", D + ":AlgebraicMetric.eta")
p("the metric in local coordinates on two patches",
  "g_loc computed with patch i and dependent coordinate d is congruent, by the invertible Jacobian of the change of local coordinates, to g_loc computed with patch j and dependent coordinate d'.",
  "all dimensions, degrees, polynomials, H, smooth points, patches, dependent coordinates", "for all points and pairs of charts", D + ":AlgebraicMetric.metric", DI + ":jacobian_embed")

p("Ricci tensor and scalar on two patches",
  "for the full or the reduced basis and positive definite H, ricci_loc and g_loc on patch i with dependent coordinate d are congruent, by one and the same invertible matrix, to those on patch j with dependent coordinate d'; ricci_scalar is the same number. The metric, not the choice of coordinates, decides the result.",
  "all dimensions, degrees, polynomials, H, smooth points, patches, dependent coordinates", "curvature identity for all points", D + ":AlgebraicMetric.ricci", D + ":AlgebraicMetric.ricci_scalar")
p("Ricci tensor and scalar for two dependent coordinates",
  "on one patch, changing the dependent coordinate changes g_loc and ricci_loc by congruence with one invertible matrix and leaves ricci_scalar unchanged, so the automatic choice of the dependent coordinate has no influence on ricci_scalar.",
  "all dimensions, degrees, polynomials, H, smooth points", "curvature identity for all points", D + ":AlgebraicMetric.ricci", D + ":AlgebraicMetric.ricci_scalar")

p("the defining equation of a hypersurface is a polynomial function",
  "for a homogeneous polynomial object in one variable with n coordinates and given parameter values, VarietySingle.defining without a patch is a unique multivariate polynomial, homogeneous of the degree of the object, and on patch p it is that polynomial with coordinate p set to one.",
  "all polynomial objects, parameter values, points, patches", "for all polynomials and points", V + ":VarietySingle.defining", PO + ":HomPoly")
p("AlgebraicMetric on homogeneous coordinates is a function of the projective point",
  "kahler_potential, metric, eta, ricci and ricci_scalar called without a patch return the same result when all coordinates are multiplied by a nonzero number, and the result is the one for the affine coordinates of the patch of the largest coordinate.",
  "all points, factors, H, parameters, gradients, dependent coordinates", "for all points and factors", D + ":AlgebraicMetric", D + ":GeometricObjects.__init__", PR + ":hom_to_affine")
p("AlgebraicMetric.metric does not depend on the arguments chosen for the coordinates",
  "at a smooth point of the hypersurface, metric called with any patch and any dependent coordinate with nonzero gradient is congruent, by an invertible matrix, to metric called with homogeneous coordinates only; the default takes the largest coordinate and the largest entry of the gradient, returns both indices, and its metric is positive definite.",
  "all dimensions, degrees, defining polynomials, H, smooth points, patches, dependent coordinates", "for all points and charts", D + ":AlgebraicMetric.metric", D + ":GeometricObjects.__init__", V + ":VarietySingle.grad_defining")
p("AlgebraicMetric.ricci and ricci_scalar do not depend on the arguments chosen for the coordinates",
  "at a smooth point, ricci with any patch and dependent coordinate is congruent to the default by the matrix which relates the metrics, and ricci_scalar returns the same number.",
  "all dimensions, degrees, defining polynomials, H, smooth points, patches, dependent coordinates", "curvature identity for all points", D + ":AlgebraicMetric.ricci", D + ":AlgebraicMetric.ricci_scalar")
p("AlgebraicMetric.eta and the patch",
  "eta with any patch and dependent coordinate is eta for homogeneous coordinates times a power of the ratio of the two patch coordinates, the power being zero if the degree of the hypersurface is the number of homogeneous coordinates; then eta is a function on the variety.",
  "all dimensions, degrees, defining polynomials, H, smooth points, patches, dependent coordinates", "for all points and charts", D + ":AlgebraicMetric.eta")
p("AlgebraicMetric.kahler_potential and the patch",
  "kahler_potential on a patch is kahler_potential for homogeneous coordinates plus log of the squared modulus of the ratio of the two patch coordinates, divided by pi.",
  "all dimensions, degrees, H, points, patches", "for all points and charts", D + ":AlgebraicMetric.kahler_potential")
p("AlgebraicMetric rejects a wrong number of coordinates",
  "with a patch and a number of coordinates other than the dimension of the projective space, or without a patch and a number other than one more, all five functions raise AssertionError.",
  "all inputs", "for all lengths", D + ":GeometricObjects.__init__")
p("AlgebraicMetric with the gradient passed as argument",
  "metric, eta, ricci and ricci_scalar give the same result when the gradient of the defining equation and the dependent coordinate chosen from it are passed as arguments.",
  "all inputs", "for all points and functions", D + ":GeometricObjects.__init__", D + ":AlgebraicMetric")

p("gradients of the predefined equations",
  "grad_defining of Dwork in n affine coordinates, on every patch, has entries (n+1) z_i^n + factor psi times the product of the other coordinates; for Fermat the second term is absent, whatever the parameters.",
  "all dimensions, factors, parameters, points, patches", "for all points and dimensions", V + ":Dwork", V + ":Fermat", V + ":VarietySingle.grad_defining", PO + ":DworkPoly", PO + ":FermatPoly")
p("smooth members of the predefined families",
  "the gradient of Dwork vanishes at some point of the variety if and only if (factor psi)^n = (-n)^n, with n homogeneous coordinates; for the quintic with the default factor this is psi^5 = 1. Fermat is always smooth.",
  "all dimensions, factors, parameters", "needs all points of the variety", V + ":Dwork", V + ":Fermat", V + ":VarietySingle.grad_defining")
p("AlgebraicMetric on a smooth hypersurface",
  "on a smooth hypersurface, general or predefined, AlgebraicMetric.metric called with homogeneous coordinates returns a positive definite matrix at every point, for every positive Hermitian H and every degree above zero; if the degree of the equation is the number of coordinates, eta returns the same number on every patch with every admissible dependent coordinate.",
  "all smooth hypersurfaces, degrees, H, points", "for all points of all hypersurfaces", D + ":AlgebraicMetric.metric", D + ":AlgebraicMetric.eta", V + ":VarietySingle")
p("VarietySingle.jacobian_embed",
  "at a smooth point the rows of jacobian_embed are tangent to the hypersurface and restrict to the identity on the independent coordinates; without a dependent coordinate the largest entry of the gradient is taken and its index returned.",
  "all hypersurfaces, smooth points, patches, dependent coordinates", "for all points", V + ":VarietySingle.jacobian_embed", DI + ":jacobian_embed")
p("induced_metric with explicit conjugate coordinates",
  "for real coefficients and arbitrary complex parameters, VarietySingle.induced_metric with zs_c the conjugate coordinates equals the call without zs_c. For Dwork with a factor which is not real it does not, and without parameters it raises TypeError.",
  "all hypersurfaces, metrics, points, patches, dependent coordinates", "for all points; the failing case needs a complex factor", V + ":VarietySingle.induced_metric", DI + ":induced_metric")
p("the induced Fubini-Study metric",
  "VarietySingle.induced_fs is positive definite at smooth points, and the results for two patches, with given and with default dependent coordinate, are congruent by an invertible matrix.",
  "all hypersurfaces, smooth points, patches, dependent coordinates", "for all points and charts", V + ":VarietySingle.induced_fs", PR + ":fs_metric")
p("dimensions of a hypersurface",
  "a hypersurface in n homogeneous coordinates has dim_projective n-1, dim_variety n-2 and one defining equation, which can be evaluated with par_count parameters and not with fewer; polynomials in several variables are rejected with AssertionError.",
  "all hypersurfaces", "for all polynomials", V + ":VarietySingle.__init__", V + ":VarietySingle.dim_variety")
p("VarietySingle.from_sympy takes the number of coordinates for the degree",
  "the argument poly_degree of from_sympy, documented as degree of the defining equation, is the number of homogeneous coordinates of the result whatever the degree of the polynomial; a polynomial with an index not below poly_degree is rejected.",
  "all expressions, names, degrees, parameters", "for all expressions; the documented meaning only fails off the Calabi-Yau case", V + ":VarietySingle.from_sympy")

p("weights in homogeneous coordinates",
  "at a smooth point with homogeneous coordinates x of a hypersurface of degree e in n+1 = m+2 coordinates, sample_intersect_weights on patch i is the volume factor times |x|^(2(m+1)) / |grad Q(x)|^2 times |x_i|^(2e) / |x_i|^(2(m+2)), positive, for every admissible dependent coordinate. For e = m+2 it does not depend on the patch. For Fermat and the smooth members of Dwork it is the explicit rational function of x.",
  "all hypersurfaces, smooth points, patches, dependent coordinates", "for all points and charts", V + ":VarietySingle.sample_intersect_weights", V + ":Dwork", V + ":Fermat")
p("the four forms of sample_intersect",
  "on a smooth hypersurface the flags affine and weights only change the form of the result: the same points in the same order, in affine coordinates on the patch of the largest coordinate or in homogeneous coordinates, with the weights of C110, all positive.",
  "all smooth hypersurfaces, drawn points, flags", "for all samples", V + ":VarietySingle.sample_intersect", V + ":VarietySingle.sample_intersect_weights")
p("compute_vol",
  "compute_vol draws with the successive keys of split, and returns the mean of the weights over all batches, which is positive; the variance is the mean of squares minus the square of the mean, over the number of points, is not negative, and is zero exactly if all weights agree.",
  "all smooth hypersurfaces, keys, numbers of batches and points above zero", "for all samples", V + ":VarietySingle.compute_vol", U + ":mc_integrate_batched")
p("sigma accuracy of sampled points",
  "AlgebraicMetric.sigma_accuracy is the weighted mean of |1 - eta vol / vol_k| over vol with the weights of C110 and the values of eta at the homogeneous coordinates; it lies in [0, 2), is zero exactly if eta is constant on the sample, and does not change if H is multiplied by a positive number.",
  "all smooth hypersurfaces, degrees above zero, positive Hermitian H, non-empty samples", "for all H and samples", D + ":AlgebraicMetric.sigma_accuracy", D + ":AlgebraicMetric.eta")
p("samples may be rescaled",
  "if two samplers return the same points in different homogeneous coordinates, affine samples, weights, compute_vol, sigma_accuracy and donaldson_step are equal, and raise the same exceptions.",
  "all samplers, varieties, bases, H, keys", "for all rescalings of all points", V + ":VarietySingle.sample_intersect", V + ":VarietySingle.compute_vol", D + ":AlgebraicMetric.sigma_accuracy", D + ":AlgebraicMetric.donaldson_step")
p("donaldson_step on sampled points",
  "AlgebraicMetric.donaldson_step returns the inverse transpose of the T operator, which is N / vol times the mean over all points of weight times s_a conj(s_b) / (s H s^*), with the monomials s at homogeneous coordinates; if the points separate sections, H is positive and vol is positive the result is Hermitian and positive; with vol the mean of the weights the trace of H times its inverse is N.",
  "all smooth hypersurfaces, bases of degree above zero, Hermitian H, samples", "for all H and samples", D + ":AlgebraicMetric.donaldson_step")
p("points drawn by intersection lie on the variety",
  "sample_intersect of a general homogeneous polynomial of degree e returns min(count, e ceil(count / n)) non-zero solutions of the defining equation; for Fermat and for Dwork with a real factor exactly count, if the lines p + t q are in general position.",
  "all polynomials, parameters, dimensions, counts, lines in general position", "for all lines and counts", V + ":VarietySingle.sample_intersect", V + ":Fermat", V + ":Dwork", PO + ":DworkPoly", PO + ":FermatPoly")
p("from the equation to the results",
  "for Fermat, and for Dwork with a real factor unless (factor psi)^n = (-n)^n, the calls in sequence succeed: sample_intersect returns points of the variety, compute_vol a positive volume, sigma_accuracy a number in [0, 2) and donaldson_step a matrix, for every full basis of degree above zero and every positive Hermitian H.",
  "all dimensions, factors, parameters, keys, counts, degrees, H", "for all keys and parameters", V + ":VarietySingle.sample_intersect", V + ":VarietySingle.compute_vol", D + ":AlgebraicMetric.sigma_accuracy", D + ":AlgebraicMetric.donaldson_step")
p("Dwork with a factor which is not real cannot be sampled",
  "DworkPoly accepts any number as factor and its values and gradients are then right (C102), but sample_intersect always raises for a factor with an imaginary part: the coefficient polynomials of the line equation contain the imaginary unit of sympy, which calls do not evaluate.",
  "all dimensions, factors, parameters, keys, counts above zero, flags", "for all lines and parameters; existing tests only use real factors", V + ":VarietySingle.sample_intersect", V + ":Dwork", PO + ":DworkPoly", PO + ":_eval_sympy_poly")
p("derivatives of polynomials",
  "Poly.diff by the symbol of a variable gives a polynomial with the same variables, indices and parameters whose value is the derivative of the value of the original by that symbol, at all values of the others; by any other symbol (a parameter, another spelling of a coordinate) it raises.",
  "all polynomials as made by the constructors, symbols, values", "for all polynomials and values; diff is not tested", PO + ":Poly.diff")
p("derivatives of homogeneous polynomials",
  "HomPoly.diff of a polynomial of degree d+1 is a HomPoly of degree d with no cached affine polynomials, and Euler's identity holds: the sum of coordinate times derivative is the degree times the value.",
  "all homogeneous polynomials, coordinates, values", "for all polynomials and degrees", PO + ":Poly.diff", PO + ":Poly.from_poly", PO + ":HomPoly.__init__")
p("derivatives of the predefined polynomials",
  "diff of DworkPoly with a real factor and of FermatPoly by z_i returns a general polynomial with value n z_i^(n-1) + factor psi prod_{j != i} z_j (without the second term for Fermat).",
  "all degrees above zero, real factors, coordinates, points", "for all degrees and points", PO + ":DworkPoly", PO + ":FermatPoly", PO + ":Poly.diff")
p("arithmetic with numbers and symbols",
  "P + x, P - x and P * x for a real number, a symbol or a polynomial x are pointwise: a parameter or a symbol with a new base name is a parameter (a new one is appended last), a symbol of a variable in the polynomial becomes one of its coordinates; a symbol with index for a variable without, or the other way round, raises.",
  "all polynomials, numbers, symbols, operations, values", "for all operands", PO + ":Poly._combine_metadata", PO + ":Poly.__add__", PO + ":Poly.__sub__", PO + ":Poly.__mul__")
p("operations with other spellings of a coordinate",
  "P + z_3 with the symbol spelled with an underscore adds coordinate 3 of z in numeric calls, but symbolic calls leave z_3 in the result, and diff by z3 raises if z3 did not occur before: the symbol is not renamed as in from_sympy.",
  "all polynomials, spellings, indices, operations", "for all spellings and polynomials", PO + ":Poly._combine_metadata", PO + ":Poly.__add__")

p("repeated Donaldson steps on one sample raise the determinant",
  "if the weights are not negative, the sections are independent on the points, and vol is the mean of the weights, one donaldson_step of a positive Hermitian H gives H' with det H' >= det H, with equality exactly if H' = H; the weighted mean of (s H' s^*) / (s H s^*) is 1; the energy N mean log(s H s^*) - log det H (whose critical points are the balanced metrics) does not grow, and is kept exactly if H' = H. So repeated steps never run in a cycle: if a matrix returns, it is a fixed point.",
  "all samples, batches, dimensions, positive Hermitian H, numbers of steps", "for all samples and starting points", D + ":AlgebraicMetric.donaldson_step")
p("the Donaldson step keeps the order of Hermitian matrices",
  "if a H1 <= H2 <= b H1 as Hermitian forms then the same holds for the results of donaldson_step on the same sample; so if the sample has a balanced metric G (a fixed point) and a G <= H <= b G, all repeated steps stay between a G and b G: numbers neither blow up nor collapse.",
  "all samples, pairs of positive Hermitian H, factors, numbers of steps", "for all samples and starting points", D + ":AlgebraicMetric.donaldson_step")
p("balanced metrics of a sample",
  "a fixed point of donaldson_step minimises the energy of C124 among all positive Hermitian matrices. If the points do not lie in two complementary subspaces, two fixed points are multiples of each other, so the result of the iteration depends on the start only by a factor; without this condition they need not be.",
  "all samples, fixed points, positive Hermitian H", "for all samples; quantifies over all fixed points", D + ":AlgebraicMetric.donaldson_step")
p("AlgebraicMetric.donaldson_step with the same key",
  "calls of AlgebraicMetric.donaldson_step with the same key, parameters and batches are steps on one sample, which satisfies the conditions of C124 if the points separate the sections and vol is the mean of their weights; so the determinants do not decrease and matrices do not return.",
  "all smooth hypersurfaces, bases of degree above zero, samples, positive Hermitian H", "for all samples, H and numbers of steps", D + ":AlgebraicMetric.donaldson_step")

p("limits of repeated Donaldson steps",
  "if repeated donaldson_steps on one sample have a positive definite limit, it is a balanced metric; if only a subsequence has, the whole sequence converges to it. If the sample has a balanced metric, the steps converge from every positive Hermitian start, and if the points do not lie in two complementary subspaces the limit is a multiple of that metric.",
  "all samples, positive Hermitian starts", "quantifies over infinite sequences and all starts", D + ":AlgebraicMetric.donaldson_step")
p("which samples have a balanced metric",
  "call a sample stable if each proper subspace of dimension r contains less than r/N of the total weight. A sample is stable exactly if it has a balanced metric and its points do not lie in two complementary subspaces, and then the steps converge from every start. There are samples satisfying all conditions of C124 on which the steps diverge.",
  "all samples, subspaces, positive Hermitian starts", "quantifies over all subspaces and infinite sequences", D + ":AlgebraicMetric.donaldson_step")
p("Donaldson steps for points in general position",
  "if any N of the sampled points have independent values of the N >= 2 sections, the sample is stable exactly if no single point has 1/N or more of the total weight; so then repeated steps converge from every start to the balanced metric, which is unique up to a factor.",
  "all samples in general position, weights, positive Hermitian starts", "quantifies over all samples and infinite sequences", D + ":AlgebraicMetric.donaldson_step")
p("AlgebraicMetric.donaldson_step with the same key converges",
  "calls of AlgebraicMetric.donaldson_step with the same key, with vol the mean of the weights of its points, converge from every positive Hermitian start to a matrix which the step returns unchanged, if the sample is stable or has a balanced metric.",
  "all smooth hypersurfaces, bases of degree above zero, samples, positive Hermitian starts", "quantifies over infinite sequences of calls", D + ":AlgebraicMetric.donaldson_step")

p("sampling with parameters named like the line",
  "a call does not use the values of parameters whose base name is that of a variable. So sample_intersect of a polynomial with parameters named p_i or q_i (or p, q with any index) silently ignores their values: the same points are returned for all of them, which need not be on the variety.",
  "all polynomials, parameters, values, lines", "for all polynomials and parameter values", V + ":VarietySingle.sample_intersect", PO + ":Poly.__call__")
p("from_sympy of a sympy.Poly",
  "from_sympy of a sympy.Poly takes the variable names from the generators and the parameters from the domain, and calls evaluate the expression. The names come in the order of a set: calls by keyword do not depend on it, positional ones do. Generators which do not occur in the expression are dropped, so points are evaluated at the wrong coordinates.",
  "all generators, domains, expressions, set orders, points", "for all expressions and set orders", PO + ":Poly.from_sympy")

p("an integer patch for several variables",
  "patches are numbered, trailing zeros do not change the number. So for a HomPoly in several variables an integer (or short) patch is accepted as the patch padded with zeros, but substitutes only its own entries and is cached under the padded patch: after one request calls at the full patch, and compiled evaluation at any patch, raise.",
  "all homogeneous polynomials that depend on the variables left out, patches, earlier and later requests", "needs a request of a short patch before; quantifies over histories", PO + ":HomPoly.affine_poly", PO + ":HomPoly.unique_patch_index", PO + ":HomPoly.transform_eval")
p("solve_defining returns all solutions",
  "if jnp.roots returns all roots with multiplicity, solve_defining returns all solutions for the missing coordinate with their multiplicities whenever the highest power does not vanish; for the Dwork and Fermat polynomials this is always so, and the number of points is the degree.",
  "all polynomials, patches, dependent coordinates, points, parameters", "for all points and parameters", V + ":VarietySingle.solve_defining", V + ":Dwork", V + ":Fermat")

p("the Ricci tensor is Hermitian",
  "for a Hermitian H the results of ricci_proj and ricci_loc are Hermitian matrices and ricci_scalar is real, at every point where they are defined.",
  "all Hermitian H, sections with symmetric second derivatives, points", "for all H and points; floating point results are Hermitian only up to rounding", D + ":GeometricObjects.ricci_proj", D + ":GeometricObjects.ricci_loc", D + ":GeometricObjects.ricci_scalar")
p("the Ricci tensor comes from eta",
  "in local coordinates on the hypersurface the Ricci tensor is the matrix of mixed derivatives of -log eta; so metrics whose eta are proportional near a point have the same Ricci tensor there, whatever their degree and basis.",
  "all homogeneous polynomials, bases of degree above zero, positive Hermitian H, regular points", "relates two independent computations for all points; one uses derivatives of the other", D + ":GeometricObjects.ricci_loc", D + ":GeometricObjects.eta")
p("the Ricci tensor where eta is extremal",
  "at a local maximum of eta on the hypersurface the Ricci tensor is positive semidefinite and the Ricci scalar not negative; at a local minimum the tensor is negative semidefinite and the scalar not positive.",
  "all homogeneous polynomials, bases of degree above zero, positive Hermitian H, regular points", "extrema are not found by tests, and the statement is about all of them", D + ":GeometricObjects.ricci_loc", D + ":GeometricObjects.ricci_scalar", D + ":GeometricObjects.eta")
p("eta and Ricci on a whole Calabi-Yau hypersurface",
  "on every smooth hypersurface of degree equal to the number of coordinates, AlgebraicMetric.eta has a positive smallest and a largest value; AlgebraicMetric.ricci is positive semidefinite where the largest is attained and negative semidefinite where the smallest is. So ricci_scalar has no strict sign, for any H.",
  "all smooth hypersurfaces of degree n+1, bases of degree above zero, positive Hermitian H", "a statement about all points of a compact set", D + ":AlgebraicMetric.eta", D + ":AlgebraicMetric.ricci", D + ":AlgebraicMetric.ricci_scalar")

p("which variable names are accepted",
  "Poly accepts exactly distinct Python identifiers other than params; HomPoly also excludes patch, and requires indices for all variables: a scalar variable is a TypeError.",
  "all lists of names and indices", "for all strings", PO + ":Poly.__init__", PO + ":HomPoly.__init__")
p("points with too few coordinates",
  "calling a polynomial at a point with too few coordinates must raise. With NumPy arrays it does (IndexError) exactly if a missing coordinate occurs in the polynomial; with JAX arrays, also inside jit and vmap, the last coordinate is silently used for the missing ones, so forgetting the patch gives wrong values. (Refuted for JAX arrays.) With enough coordinates both agree.",
  "all polynomials, points, numbers of coordinates", "for all polynomials and points", PO + ":_eval_sympy_poly", PO + ":Poly.__call__")
p("the values of HNetMLP",
  "each hidden layer applies the activation to the sum of products of inputs and kernel plus bias, then dropout if it has a rate; the result is the last linear layer, or its second half times the sigmoid of the first. Powers in the features may be negative.",
  "all layers, kernels, activations, dropout functions, inputs", "unbounded", M + ":HNetMLP")

p("patches out of range",
  "a patch outside 0..n is either rejected or means the same everywhere. Refuted: hom_to_affine and affine_to_hom reduce it modulo the number of coordinates and rotate the affine coordinates by the quotient (so round trips still work), while the compiled equation takes the nearest valid patch.",
  "all points, all integer patches", "for all integers and points", PR + ":hom_to_affine", PR + ":affine_to_hom", PO + ":HomPoly.transform_eval")

p("the Fubini-Study metric as an algebraic metric",
  "for the full basis of any degree above zero, and the multinomial coefficients of its monomials as H (vector or diagonal matrix), AlgebraicMetric.metric is VarietySingle.induced_fs divided by pi, kahler_potential is fs_potential divided by pi, and eta is the inverse of dim! times the weight of sample_intersect_weights. In degree one this H is the identity.",
  "all varieties, patches, points, degrees, dependent coordinates", "relates independent computations for all degrees and points", D + ":AlgebraicMetric.metric", D + ":AlgebraicMetric.kahler_potential", D + ":AlgebraicMetric.eta", V + ":VarietySingle.induced_fs", V + ":VarietySingle.sample_intersect_weights", PR + ":fs_metric")

p("symmetries of the sample",
  "if a linear map of the section values takes the sampled points to each other (up to a factor for each) and keeps their weights, a step keeps matrices with this symmetry symmetric; the balanced metric has every symmetry of the sample, so on stable samples the steps converge to a symmetric matrix from each start, symmetric or not. Conjugating sample and matrix conjugates the result.",
  "all samples, linear maps, numbers of sections, starting matrices", "about limits and all symmetries of all samples", D + ":AlgebraicMetric.donaldson_step")
p("symmetries of the coordinates",
  "if multiplying the coordinates by phases and permuting them keeps the equation up to a factor and takes the sampled points to each other, AlgebraicMetric.donaldson_step keeps the corresponding symmetry of H, and repeated steps converge to an H with it: entries at moved pairs of monomials differ by the phases, and for phases alone entries between monomials of different character vanish. The Fermat and Dwork equations have these symmetries for roots of unity, and the full basis is permuted by each permutation of the coordinates.",
  "all hypersurfaces, phases, permutations, bases, samples", "for all symmetric samples of every size", D + ":AlgebraicMetric.donaldson_step", V + ":VarietySingle.sample_intersect", V + ":Dwork", V + ":Fermat")

p("eta and Kaehler potential under symmetries of the coordinates",
  "if phases and a permutation of the coordinates keep the equation up to a factor and H has the corresponding symmetry, AlgebraicMetric.eta and kahler_potential, with patch and dependent coordinate chosen by the code, return the same value at a point and at the moved point in any homogeneous coordinates, though the code works on another patch there. In particular for the identity on the Dwork family.",
  "all hypersurfaces, degrees, bases, symmetric H, smooth points, phases, permutations", "for all points and symmetries", D + ":AlgebraicMetric.eta", D + ":AlgebraicMetric.kahler_potential", PR + ":hom_to_affine", V + ":Dwork")
p("curvature under symmetries of the coordinates",
  "in the same situation the metric and the Ricci tensor at the two points are related by one invertible matrix, and AlgebraicMetric.ricci_scalar returns the same value.",
  "all hypersurfaces, degrees, bases, symmetric H, smooth points, phases, permutations", "about fourth derivatives at all points", D + ":AlgebraicMetric.metric", D + ":AlgebraicMetric.ricci", D + ":AlgebraicMetric.ricci_scalar")

p("the conjugate point",
  "if the coefficients of the equation are real functions of the parameters (conjugate parameters give the conjugate equation), conjugating coordinates, parameters and H (any matrix) conjugates metric, Ricci tensor, Ricci scalar and eta of AlgebraicMetric and keeps patch and dependent coordinate; for admissible H eta and kahler_potential are the same at both points. At real points with real parameters and real H metric and Ricci tensor are real.",
  "all such hypersurfaces, degrees, bases, matrices, smooth points", "about fourth derivatives at all points", D + ":AlgebraicMetric.metric", D + ":AlgebraicMetric.ricci", D + ":AlgebraicMetric.ricci_scalar", D + ":AlgebraicMetric.eta", D + ":AlgebraicMetric.kahler_potential")
p("real H",
  "if with every sampled point the conjugate point is sampled (in any homogeneous coordinates), donaldson_step takes real H to real H', the balanced metric is real, and on stable samples the steps converge to a real matrix from each admissible start. The same for AlgebraicMetric.donaldson_step on varieties with real equation.",
  "all samples closed under conjugation, numbers of sections, starting matrices", "about limits and all symmetric samples", D + ":AlgebraicMetric.donaldson_step", V + ":VarietySingle.sample_intersect")

p("how fast the steps converge",
  "on a sample with a balanced metric no two complementary subspaces of which contain all points (stable samples) repeated steps approach their limit geometrically: after k steps each entry is within K s^k of the limit for some s below one, from each admissible start. So the number of steps grows only with the logarithm of the accuracy. The same for AlgebraicMetric.donaldson_step called again with the same key.",
  "all stable samples, numbers of sections, starting matrices", "about limits of infinitely many steps", D + ":AlgebraicMetric.donaldson_step")

p("uniqueness of the Cholesky parameters",
  "two sets of parameters of cholesky_decode (real diagonal without zeros) give the same matrix exactly if they differ by signs of columns of the triangular matrix; real parameter vectors of length n^2 with positive diagonal correspond one to one to the Hermitian positive definite matrices under cholesky_from_param.",
  "all sizes and parameters", "for all pairs of parameter vectors of every size", M + ":cholesky_decode", M + ":cholesky_from_param")
p("sigma accuracy of the Fubini-Study metric",
  "for the multinomial coefficients as H, sigma_accuracy is the mean absolute deviation of the sampling weights from their mean, divided by the mean, in every degree; it is zero exactly if all weights agree.",
  "all smooth hypersurfaces, degrees, samples", "relates independent computations for all degrees and samples", D + ":AlgebraicMetric.sigma_accuracy", V + ":VarietySingle.sample_intersect_weights")

p("products of algebraic metrics",
  "matrices H1, H2 of degrees k1, k2 have a product of degree k1 + k2 (coefficients of the product of the two Hermitian forms in the monomials of sections). It is Hermitian positive definite if they are; AlgebraicMetric.metric returns for it the mean of the two metrics weighted with the degrees, and kahler_potential the mean of the potentials. So where the two metrics agree, metric and eta stay the same: an H may be carried to every multiple of its degree without changing the geometry.",
  "all varieties, degrees, positive definite H1, H2, points, patches", "for all pairs of matrices and degrees", D + ":AlgebraicMetric.metric", D + ":AlgebraicMetric.kahler_potential", D + ":AlgebraicMetric.eta")

p("metrics of higher degree include those of lower degree",
  "for each positive definite Hermitian H of degree k and each j > 0 there is a positive definite Hermitian H' of degree j k with which AlgebraicMetric returns the same metric, eta, Ricci tensor, Ricci scalar and Kaehler potential as with H, for every variety with the same number of coordinates, every point, patch and dependent coordinate. So the best accuracy cannot get worse when the degree is multiplied.",
  "all degrees, multiples, positive definite H, varieties, points", "about all points and fourth derivatives, existence of H'", D + ":AlgebraicMetric.metric", D + ":AlgebraicMetric.ricci", D + ":AlgebraicMetric.ricci_scalar", D + ":AlgebraicMetric.eta", D + ":AlgebraicMetric.kahler_potential")

p('the variance loss bounds sigma accuracy',
  'for the same eta values and non-negative weights the square of sigma_accuracy is at most variance_eta_loss divided by the mean of the weights (already without the penalty for negative eta), so training to a small loss guarantees a small sigma.',
  'all eta values, weights, numbers of points', 'an inequality for all inputs between two independent functions', M + ":variance_eta_loss", D + ":AlgebraicMetric.sigma_accuracy")

p('Linear changes of the homogeneous coordinates',
  'For an invertible matrix A the values of the sections of a full basis at x A are the values at x times one invertible matrix R. The metric of AlgebraicMetric for H on the hypersurface P = 0, read at x A, is the metric for R H R^* on P(x A) = 0 read at x: psi and the Kaehler potential agree up to the change of patch, g_proj is the pullback by the Jacobian of the map, the metrics in local coordinates are those of one hermitian form, and eta changes by |det A|^2 when the degree is the number of coordinates. When A is unitary the sample weights agree too in that case, and weight times eta agrees for every degree.',
  'all dimensions, degrees, bases, invertible (for the weights: unitary) A, hermitian H, hypersurfaces, pairs of patches, dependent coordinates and points', 'Tests compare particular points in the given coordinates; invariance under all linear changes of coordinates involves the sections, the Jacobian and the determinant identity at every point.', D + ":GeometricObjects.g_proj", D + ":AlgebraicMetric.eta", D + ":AlgebraicMetric.kahler_potential")

p('Unitary changes of coordinates, sample weights and Donaldson steps',
  'On a hypersurface whose degree is the number of homogeneous coordinates, with defining polynomial Q, a unitary A and the hypersurface Q(x A) = 0: the weight of the point x on the second equals the weight of x A on the first, although the largest coordinate and so the patch may differ. A Donaldson step (AlgebraicMetric.donaldson_step) from R h R^* with the points x gives R H R^*, where H is the result of the step from h with the points x A and R is the matrix by which the sections transform.',
  'all such hypersurfaces, unitary A, degrees of a full basis, samples with independent sections, hermitian positive definite h', 'Compares runs on two different varieties for all unitary matrices; a test fixes one.', D + ":AlgebraicMetric.donaldson_step", V + ":VarietySingle.sample_intersect_weights")

p('Curvature under linear changes of the homogeneous coordinates',
  'For an invertible matrix A of homogeneous coordinates, a full monomial basis with sections s(x A) = s(x) R, and a positive Hermitian H: the objects built from R H R^* and the equation P(x A) = 0 at a point x, and those built from H and P = 0 at x A, have metrics and Ricci tensors which are those of one Hermitian metric and one tensor in two systems of local coordinates related by an invertible matrix, and equal Ricci scalars. The patches and the dependent coordinates on both sides may be chosen freely.',
  'all dimensions, degrees, invertible A, positive Hermitian H, homogeneous P, patches, dependent coordinates, points where the chosen gradient entries do not vanish', 'Fourth derivatives of the potential in two unrelated local coordinate systems; a test compares floating point numbers for a few matrices only.', D + ":GeometricObjects.ricci_loc", D + ":GeometricObjects.ricci_scalar")

p('The Kaehler potential determines H',
  "For a full monomial basis of positive degree and positive matrices H, H': if kahler_potential with H' and with H differ by a constant c at all affine coordinates of one patch, then H' = r H for some r > 0 and c = log r / (pi degree); if the potentials agree then H' = H. Hence two sets of Cholesky parameters with positive diagonal entries which give the same potential are equal.",
  'all dimensions, degrees, patches, positive matrices, parameter lists', 'A statement about all pairs of matrices and all points; needs independence of the products of monomials and conjugated monomials.', D + ":AlgebraicMetric.kahler_potential", M + ":cholesky_from_param")

p('The Fubini-Study matrix is the invariant one',
  'For a full monomial basis and a unitary change A of the homogeneous coordinates with s(x A) = s(x) R, the diagonal matrix F of multinomial coefficients satisfies R F R^* = F. Conversely every matrix which is unchanged for all unitary A is a multiple of F.',
  'all dimensions, degrees, unitary matrices, all matrices H', 'Quantifies over all unitary matrices.', D + ":GeometricObjects.psi", D + ":MonomialBasisFull")

p('The metric of the ambient space determines H up to a positive factor',
  "For the full monomial basis of positive degree and Hermitian positive definite matrices H and H', the values of g_proj on a single patch agree at all points exactly when H' is a positive multiple of H. So the metric has no redundancy other than the scale of H: any wrong entry of H changes the metric somewhere on every patch.",
  "for all numClosedFields, all m, k > 0, all patches, all Hermitian positive definite H and H' and all pi != 0", 'It is a uniqueness statement over all points and all pairs of matrices; at single points different H give the same metric.', D + ":GeometricObjects.g_proj", D + ":GeometricObjects.psi")

p('Donaldson steps keep unitary symmetries of the sample',
  'Let A be a unitary matrix with Q(x A) = Q(x) for the defining polynomial Q, and let the sampled points be their own images under A up to order and rescaling of the homogeneous coordinates. If the norm of the sections with H is the same at x and x A for all x, so is the norm with the matrix donaldson_step returns. A fixed point of the step on an indecomposable sample has this invariance, and on a stable sample the steps converge to a matrix with it from every Hermitian positive definite start.',
  'all dimensions m, degrees k > 0, unitary A keeping Q, samples spanning the sections and mapped to themselves by A, Hermitian positive definite H (the limit: over the complex numbers over the Coq reals)', 'a test can try one A and one sample; a general unitary A mixes the monomials and acts on H through a matrix the code never computes', D + ":AlgebraicMetric.donaldson_step")

p('The reduced basis describes the same metrics as the full basis',
  "Let V be a hypersurface whose defining polynomial uses every variable and let k > 0. For every positive definite hermitian H over MonomialBasisFull of degree k there is a positive definite hermitian H' over MonomialBasisReduced of degree k, and for every H' there is such an H, such that the Kaehler potential, the metric, eta, the Ricci tensor and the Ricci scalar agree at every smooth point of V, given by affine or by homogeneous coordinates. Matrices which give the same metrics, also over bases of different degrees, have the same sigma accuracy on every sample.",
  'all hypersurfaces (Dwork, Fermat or given by a sympy polynomial) of every dimension, all degrees k > 0, all positive definite hermitian matrices, all smooth points, patches and dependent coordinates', 'The tests build metrics over one basis at a time and for a few H and points; no run can show that a smaller basis loses no metric at all.', D + ":MonomialBasisReduced", D + ":MonomialBasisFull", D + ":AlgebraicMetric.metric", D + ":AlgebraicMetric.eta", D + ":AlgebraicMetric.sigma_accuracy")

p('When a Donaldson step can be inverted',
  'The matrix T that donaldson_step inverts is invertible, for positive definite H and positive weights, exactly if no combination of the monomials vanishes at all sampled points. It is never invertible with fewer points than monomials, nor with MonomialBasisFull when its degree is at least that of the variety, whatever the sample. MonomialBasisReduced gives a basis on the variety (as documented) exactly if the defining polynomial divides every form of that degree vanishing on the variety; this holds if some line through (1:0:...:0) meets the variety in as many points as its degree, so for every Dwork and Fermat variety of positive dimension and every parameter. Then there is a sample with as many points as monomials on which T is invertible for every H and all weights.',
  'all hypersurfaces, degrees, samples, matrices H, weights and volumes', 'A singular T gives inf, nan or large rounding errors for a particular sample; that no sample can repair it, or that one always exists, is a statement about all samples.', D + ":AlgebraicMetric.donaldson_step", D + ":MonomialBasisReduced", D + ":MonomialBasisFull")

p('Unitary symmetries with the reduced basis',
  'Let A be a unitary matrix with Q(x A) = Q(x) for the defining polynomial Q, and let the sampled points be their own images under A up to order and rescaling of the homogeneous coordinates. With MonomialBasisFull or MonomialBasisReduced, if the kernel sum_ab s_a(x) H_ab conj(s_b(y)) of the sections is the same at x, y and at x A, y A for all points of the hypersurface, so is the kernel of the matrix donaldson_step returns. A fixed point of the step on an indecomposable sample has this invariance, and on a stable sample the steps converge to a matrix with it from every Hermitian positive definite start. An invariant kernel has invariant norms on the hypersurface.',
  'all dimensions m, degrees k > 0, both bases, unitary A keeping Q, samples spanning the sections and mapped to themselves by A, Hermitian positive definite H (the limit: over the complex numbers over the Coq reals)', 'the monomials of the reduced basis are not kept by A, not even up to linear combination; only modulo Q, which no test of a single sample shows', D + ":AlgebraicMetric.donaldson_step", D + ":MonomialBasisReduced")

p('Metrics with an invariant kernel are invariant',
  'Let A be an invertible matrix with Q(x A) = Q(x) for the defining polynomial Q and let H over MonomialBasisReduced have the kernel sum_ab s_a(x) H_ab conj(s_b(y)) which is the same at x, y and at x A, y A for all points of the hypersurface. Then the local metrics at x and at x A, on any patches and with any dependent coordinates, are those of one metric related by the Jacobian of x -> x A. On a Calabi-Yau hypersurface eta at x is |det A|^2 times eta at x A. The Ricci tensors are related in the same way and the Ricci scalars are equal. One H has a kernel which is kept by all unitary A that keep Q.',
  'all hypersurfaces whose polynomial uses every variable and on which the monomials of the reduced basis are independent, all degrees k > 0, all invertible A keeping Q, all points where the chosen dependent coordinates can be used (Ricci: over the complex numbers over the Coq reals)', 'the code never applies A; a test compares the metric at a few pairs of points for one H', D + ":AlgebraicMetric.metric", D + ":AlgebraicMetric.eta", D + ":AlgebraicMetric.ricci", D + ":AlgebraicMetric.ricci_scalar", D + ":MonomialBasisReduced")

with open(os.path.join(os.path.dirname(__file__), "..", "properties.jsonl"), "w") as f:
    for q in P:
        f.write(json.dumps(q) + "\n")
print(len(P))
