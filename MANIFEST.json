{
 "claims": [
  {
   "property": "C01",
   "status": "proved",
   "theorems": [
    "pop_removes_entry",
    "pop_any_index",
    "pop_empty"
   ],
   "note": ""
  },
  {
   "property": "C02",
   "status": "proved",
   "theorems": [
    "pop_negative",
    "pop_negative_order_refuted",
    "pop_any_index"
   ],
   "note": "The documented remainder is refuted for every negative index; the exact behaviour is proved."
  },
  {
   "property": "C03",
   "status": "proved",
   "theorems": [
    "insert_1d_nonneg",
    "insert_1d_negative",
    "insert_1d_negative_block",
    "pop_insert_1d"
   ],
   "note": ""
  },
  {
   "property": "C04",
   "status": "proved",
   "theorems": [
    "insert_col_rows",
    "insert_col_bad_rows"
   ],
   "note": ""
  },
  {
   "property": "C05",
   "status": "proved",
   "theorems": [
    "flatten_unflatten_pointwise",
    "flatten_coord_total",
    "flatten_unflatten_identity",
    "flatten_coord_c_shape",
    "flatten_coord_c_default"
   ],
   "note": "last axis of positive length (reshape(-1, 0) raises)"
  },
  {
   "property": "C06",
   "status": "proved",
   "theorems": [
    "shuffle_axis_permutes"
   ],
   "note": "random permutations are an arbitrary input"
  },
  {
   "property": "C07",
   "status": "proved",
   "theorems": [
    "binomial_exact",
    "binomial_raises"
   ],
   "note": ""
  },
  {
   "property": "C08",
   "status": "proved",
   "theorems": [
    "mc_integrate_value",
    "mc_integrate_documented_refuted"
   ],
   "note": "documented contract refuted; exact behaviour proved"
  },
  {
   "property": "C09",
   "status": "proved",
   "theorems": [
    "mc_integrate_batched_value"
   ],
   "note": "exact field arithmetic; stated for every integrand"
  },
  {
   "property": "C10",
   "status": "proved",
   "theorems": [
    "prng_sequence_stream",
    "prng_sequence_history",
    "prng_seed_int_key"
   ],
   "note": "jax.random.split arbitrary"
  },
  {
   "property": "C100",
   "status": "proved",
   "theorems": [
    "algebraic_wrong_length"
   ],
   "note": "one point at a time; jax.grad and jax.jacfwd are an operator which returns the complex derivative where there is one; the parameters as an array; without a patch the coordinates are not all zero"
  },
  {
   "property": "C101",
   "status": "proved",
   "theorems": [
    "algebraic_gradient_argument",
    "algebraic_gradient_scaled"
   ],
   "note": "one point at a time; jax.grad and jax.jacfwd are an operator which returns the complex derivative where there is one; the parameters as an array"
  },
  {
   "property": "C102",
   "status": "proved",
   "theorems": [
    "dwork_gradient_formula",
    "fermat_gradient_formula"
   ],
   "note": "one point at a time; jax.grad and jax.jacfwd are an operator which returns the complex derivative where there is one; the parameters as an array"
  },
  {
   "property": "C103",
   "status": "proved",
   "theorems": [
    "dwork_smooth_iff",
    "fermat_is_smooth"
   ],
   "note": "one point at a time; jax.grad and jax.jacfwd are an operator which returns the complex derivative where there is one; the parameters as an array"
  },
  {
   "property": "C104",
   "status": "proved",
   "theorems": [
    "hypersurface_is_polynomial",
    "smooth_metric_everywhere"
   ],
   "note": "one point at a time; jax.grad and jax.jacfwd are an operator which returns the complex derivative where there is one; the parameters as an array"
  },
  {
   "property": "C105",
   "status": "proved",
   "theorems": [
    "variety_jacobian"
   ],
   "note": "one point at a time; jax.grad and jax.jacfwd are an operator which returns the complex derivative where there is one; the parameters as an array"
  },
  {
   "property": "C106",
   "status": "proved",
   "theorems": [
    "induced_metric_conjugate",
    "induced_metric_conjugate_refuted",
    "induced_metric_no_parameters_refuted"
   ],
   "note": "one point at a time; jax.grad and jax.jacfwd are an operator which returns the complex derivative where there is one; the parameters as an array; the equivalence is refuted for a complex factor and for params=None"
  },
  {
   "property": "C107",
   "status": "proved",
   "theorems": [
    "induced_fs_point_patch"
   ],
   "note": "one point at a time; jax.grad and jax.jacfwd are an operator which returns the complex derivative where there is one; the parameters as an array"
  },
  {
   "property": "C108",
   "status": "proved",
   "theorems": [
    "variety_dimensions",
    "variety_one_variable",
    "variety_parameter_count"
   ],
   "note": ""
  },
  {
   "property": "C109",
   "status": "proved",
   "theorems": [
    "from_sympy_coordinates",
    "from_sympy_degree_refuted"
   ],
   "note": "documented meaning of poly_degree refuted"
  },
  {
   "property": "C11",
   "status": "proved",
   "theorems": [
    "index_conversions_inverse",
    "index_affine_to_hom_addresses"
   ],
   "note": ""
  },
  {
   "property": "C110",
   "status": "proved",
   "theorems": [
    "weights_homogeneous",
    "weights_calabi_yau",
    "dwork_weights",
    "fermat_weights"
   ],
   "note": "one point at a time; jax.grad and jax.jacfwd are an operator which returns the complex derivative where there is one; the parameters as an array"
  },
  {
   "property": "C111",
   "status": "proved",
   "theorems": [
    "samples_with_weights"
   ],
   "note": "one point at a time; jax.grad and jax.jacfwd are an operator which returns the complex derivative where there is one; the parameters as an array; the sampler is an argument, floats and NaN not modelled"
  },
  {
   "property": "C112",
   "status": "proved",
   "theorems": [
    "volume_estimate"
   ],
   "note": "one point at a time; jax.grad and jax.jacfwd are an operator which returns the complex derivative where there is one; the parameters as an array; the sampler is an argument, floats and NaN not modelled"
  },
  {
   "property": "C113",
   "status": "proved",
   "theorems": [
    "sigma_of_samples"
   ],
   "note": "one point at a time; jax.grad and jax.jacfwd are an operator which returns the complex derivative where there is one; the parameters as an array; the sampler is an argument, floats and NaN not modelled"
  },
  {
   "property": "C114",
   "status": "proved",
   "theorems": [
    "samples_rescaled"
   ],
   "note": "one point at a time; jax.grad and jax.jacfwd are an operator which returns the complex derivative where there is one; the parameters as an array; the sampler is an argument, floats and NaN not modelled"
  },
  {
   "property": "C115",
   "status": "proved",
   "theorems": [
    "step_of_samples"
   ],
   "note": "one point at a time; jax.grad and jax.jacfwd are an operator which returns the complex derivative where there is one; the parameters as an array; the sampler is an argument, floats and NaN not modelled; H of complex dtype, C80 covers the real one"
  },
  {
   "property": "C116",
   "status": "proved",
   "theorems": [
    "poly_sampler",
    "dwork_sampler",
    "fermat_sampler"
   ],
   "note": "root finder, normal form and terms in t of sympy under their contracts; lines with q not on the variety and p no multiple of q; Dwork with a non-real factor is C118"
  },
  {
   "property": "C117",
   "status": "proved",
   "theorems": [
    "dwork_end_to_end",
    "fermat_end_to_end"
   ],
   "note": "contracts as in C116; jax.grad as in C95"
  },
  {
   "property": "C118",
   "status": "proved",
   "theorems": [
    "dwork_complex_factor_refuted"
   ],
   "note": "that factor may be any number is refuted for sample_intersect; terms in t and normal form of sympy under their contracts (numbers real, imaginary unit written I)"
  },
  {
   "property": "C119",
   "status": "proved",
   "theorems": [
    "diff_is_derivative",
    "diff_of_any_polynomial",
    "diff_needs_variable"
   ],
   "note": "sympy's normal form and Poly.diff under their contracts (C28); polynomials without the imaginary unit"
  },
  {
   "property": "C12",
   "status": "proved",
   "theorems": [
    "affine_hom_affine",
    "hom_affine_hom",
    "hom_to_affine_projective"
   ],
   "note": "exact field arithmetic"
  },
  {
   "property": "C120",
   "status": "proved",
   "theorems": [
    "diff_lowers_degree",
    "euler_identity"
   ],
   "note": "sympy's normal form and Poly.diff under their contracts (C28); polynomials without the imaginary unit"
  },
  {
   "property": "C121",
   "status": "proved",
   "theorems": [
    "dwork_derivative",
    "fermat_derivative"
   ],
   "note": "sympy's normal form and Poly.diff under their contracts (C28); polynomials without the imaginary unit; real factors"
  },
  {
   "property": "C122",
   "status": "proved",
   "theorems": [
    "operation_with_number",
    "operation_with_parameter",
    "operation_with_variable",
    "operation_index_mismatch",
    "operation_with_polynomial"
   ],
   "note": "sympy's normal form and Poly.diff under their contracts (C28); polynomials without the imaginary unit; with C32 for two polynomials"
  },
  {
   "property": "C123",
   "status": "proved",
   "theorems": [
    "operation_spelling_refuted"
   ],
   "note": "that the symbol becomes a variable is refuted for symbolic calls and derivatives, with witness az_spelling; sympy's normal form and Poly.diff under their contracts (C28); polynomials without the imaginary unit"
  },
  {
   "property": "C124",
   "status": "proved",
   "theorems": [
    "step_raises_determinant",
    "step_mean_norm",
    "step_lowers_energy",
    "complex_log_is_like",
    "steps_do_not_cycle"
   ],
   "note": "the same sample in every step; H of complex dtype; floats not modelled; the logarithm is any function with log x <= x - 1 turning quotients into differences, as that of stdlib R does"
  },
  {
   "property": "C125",
   "status": "proved",
   "theorems": [
    "step_keeps_order",
    "step_is_not_expanding",
    "steps_stay_bounded"
   ],
   "note": "the same sample in every step; H of complex dtype; floats not modelled"
  },
  {
   "property": "C126",
   "status": "proved",
   "theorems": [
    "balanced_minimises_energy",
    "balanced_unique_to_scale",
    "balanced_not_unique"
   ],
   "note": "the same sample in every step; H of complex dtype; floats not modelled; existence and convergence are C128-C130"
  },
  {
   "property": "C127",
   "status": "proved",
   "theorems": [
    "sampled_steps",
    "sampled_steps_raise_determinant"
   ],
   "note": "the same sample in every step; H of complex dtype; floats not modelled; as C115"
  },
  {
   "property": "C128",
   "status": "proved",
   "theorems": [
    "steps_limit_is_balanced",
    "steps_accumulate_only_at_limit",
    "steps_converge_to_balanced"
   ],
   "note": "the same sample in every step; H of complex dtype; floats not modelled; the complex numbers over the reals of the standard library, whose axioms it uses (the first two hold in every closed field, without axioms)"
  },
  {
   "property": "C129",
   "status": "proved",
   "theorems": [
    "balanced_bounds_weight",
    "balanced_exists_iff_stable",
    "stable_steps_converge",
    "steps_may_diverge"
   ],
   "note": "the same sample in every step; H of complex dtype; floats not modelled; the complex numbers over the reals of the standard library, whose axioms it uses; that steps always converge is refuted by steps_may_diverge"
  },
  {
   "property": "C13",
   "status": "proved",
   "theorems": [
    "hom_to_affine_auto_patch"
   ],
   "note": "any closed numeric field"
  },
  {
   "property": "C130",
   "status": "proved",
   "theorems": [
    "general_position_stable_iff",
    "general_position_converges"
   ],
   "note": "the same sample in every step; H of complex dtype; floats not modelled; the complex numbers over the reals of the standard library, whose axioms it uses"
  },
  {
   "property": "C131",
   "status": "proved",
   "theorems": [
    "sampled_steps_converge"
   ],
   "note": "the same sample in every step; H of complex dtype; floats not modelled; the complex numbers over the reals of the standard library, whose axioms it uses; as C127"
  },
  {
   "property": "C132",
   "status": "proved",
   "theorems": [
    "call_ignores_clashing_refuted",
    "sample_ignores_clashing_refuted",
    "clash_conic_refuted"
   ],
   "note": "that all parameters are used is refuted, with witness clash_conic; normal form, terms and roots under their contracts (C42)"
  },
  {
   "property": "C133",
   "status": "proved",
   "theorems": [
    "sympy_poly_evaluates",
    "sympy_poly_keyword_calls",
    "sympy_poly_positional_refuted",
    "sympy_poly_generators_refuted",
    "sympy_poly_given_names",
    "sympy_poly_as_expression",
    "sympy_poly_indices_need_names"
   ],
   "note": "that the generators are the variables is refuted, with witness z0^2 + zn^2; generators, domain symbols and free symbols of the sympy.Poly are inputs of the model, and the order of a set is any permutation"
  },
  {
   "property": "C134",
   "status": "proved",
   "theorems": [
    "short_patch_number",
    "short_patch_refuted"
   ],
   "note": "that short patches are harmless is refuted; normal form under its contract"
  },
  {
   "property": "C135",
   "status": "proved",
   "theorems": [
    "solve_defining_all",
    "dwork_solve_defining",
    "fermat_solve_defining"
   ],
   "note": "normal form and terms under their contracts; jnp.roots is assumed to return all roots with multiplicities (roots_exact, satisfied by all_roots_ex)"
  },
  {
   "property": "C136",
   "status": "proved",
   "theorems": [
    "ricci_is_hermitian"
   ],
   "note": "over every numClosedFieldType; symmetry of the second derivatives of the sections is a hypothesis"
  },
  {
   "property": "C137",
   "status": "proved",
   "theorems": [
    "ricci_from_eta",
    "eta_determines_ricci"
   ],
   "note": "over the complex numbers built on the reals of the standard library, pi = PI"
  },
  {
   "property": "C138",
   "status": "proved",
   "theorems": [
    "ricci_at_eta_maximum",
    "ricci_at_eta_minimum"
   ],
   "note": "over the complex numbers built on the reals of the standard library, pi = PI; extrema are local extrema on the zeros in one patch"
  },
  {
   "property": "C139",
   "status": "proved",
   "theorems": [
    "calabi_yau_ricci_signs"
   ],
   "note": "diff_ok is the contract of jax differentiation; patch and dependent coordinate are chosen by the code"
  },
  {
   "property": "C14",
   "status": "proved",
   "theorems": [
    "change_chart_transition",
    "change_chart_cocycle"
   ],
   "note": ""
  },
  {
   "property": "C140",
   "status": "proved",
   "theorems": [
    "poly_names",
    "hom_poly_names",
    "hom_poly_scalar"
   ],
   "note": "ASCII names; reserved words are not modelled"
  },
  {
   "property": "C141",
   "status": "proved",
   "theorems": [
    "short_point_numpy",
    "short_point_jax_refuted",
    "full_point_jax"
   ],
   "note": "that short points are rejected is refuted for JAX arrays, whose indexing is modelled by item_clamp (documented behaviour of JAX); index lists without repetition"
  },
  {
   "property": "C142",
   "status": "proved",
   "theorems": [
    "hnet_forward_value",
    "hnet_powers"
   ],
   "note": "integer powers; the dropout function is arbitrary, weights are given"
  },
  {
   "property": "C143",
   "status": "proved",
   "theorems": [
    "hom_to_affine_any_patch",
    "affine_to_hom_any_patch",
    "affine_hom_affine_any_patch",
    "patch_out_of_range_refuted"
   ],
   "note": "that a patch out of range means the same everywhere is refuted"
  },
  {
   "property": "C144",
   "status": "proved",
   "theorems": [
    "fubini_algebraic_metric",
    "fubini_algebraic_kahler",
    "fubini_eta_weight",
    "degree_one_metric"
   ],
   "note": "exact arithmetic; the logarithm is only assumed additive on positive products; reduced bases of degree at least that of the equation do not contain all monomials and are not covered"
  },
  {
   "property": "C145",
   "status": "proved",
   "theorems": [
    "step_keeps_symmetry",
    "steps_keep_symmetry",
    "balanced_is_symmetric",
    "steps_restore_symmetry",
    "step_conjugate"
   ],
   "note": "the same sample in every step; H of complex dtype; floats not modelled; convergence over the reals of the standard library, with its axioms; linear maps are normalised to determinant of absolute value one where the metric itself (not only up to scale) is compared"
  },
  {
   "property": "C146",
   "status": "proved",
   "theorems": [
    "sampled_steps_symmetric",
    "sampled_steps_symmetric_limit",
    "symmetric_entries_vanish",
    "dwork_equation_symmetries",
    "full_basis_permuted"
   ],
   "note": "the same sample in every step; H of complex dtype; floats not modelled; as C127 and C131"
  },
  {
   "property": "C147",
   "status": "proved",
   "theorems": [
    "eta_at_moved_point",
    "kahler_at_moved_point",
    "dwork_eta_symmetric"
   ],
   "note": "diff_ok is the contract of jax differentiation; exact arithmetic"
  },
  {
   "property": "C148",
   "status": "proved",
   "theorems": [
    "ricci_at_moved_point"
   ],
   "note": "diff_ok is the contract of jax differentiation; over the reals of the standard library, with its axioms"
  },
  {
   "property": "C149",
   "status": "proved",
   "theorems": [
    "conjugate_point",
    "conjugate_point_same_eta",
    "real_point_real_metric"
   ],
   "note": "diff_ok is the contract of jax differentiation; exact arithmetic; real_hypersurface holds for the Fermat and Dwork varieties and for string equations with real coefficients"
  },
  {
   "property": "C15",
   "status": "proved",
   "theorems": [
    "change_chart_same_patch",
    "change_chart_same_patch_refuted"
   ],
   "note": "identity law refuted; exact fixed points proved"
  },
  {
   "property": "C150",
   "status": "proved",
   "theorems": [
    "step_keeps_real",
    "steps_keep_real",
    "balanced_is_real",
    "steps_real_limit",
    "sampled_steps_keep_real",
    "sampled_steps_real_limit"
   ],
   "note": "the same sample in every step; H of complex dtype; floats not modelled; convergence over the reals of the standard library, with its axioms"
  },
  {
   "property": "C151",
   "status": "proved",
   "theorems": [
    "steps_converge_geometrically",
    "stable_steps_converge_geometrically",
    "sampled_steps_converge_geometrically"
   ],
   "note": "the same sample in every step; H of complex dtype; floats not modelled; the complex numbers over the reals of the standard library, whose axioms it uses (the first holds in every closed field, without axioms); as C127; the ratio depends on the sample, no explicit value is given"
  },
  {
   "property": "C152",
   "status": "proved",
   "theorems": [
    "cholesky_decode_same",
    "cholesky_param_unique",
    "cholesky_param_bijective"
   ],
   "note": "exact arithmetic; real diagonal as documented"
  },
  {
   "property": "C153",
   "status": "proved",
   "theorems": [
    "sigma_of_fubini",
    "sigma_of_fubini_zero"
   ],
   "note": "diff_ok is the contract of jax differentiation; exact arithmetic; H as diagonal matrix"
  },
  {
   "property": "C154",
   "status": "proved",
   "theorems": [
    "product_positive",
    "product_metric",
    "product_kahler",
    "product_same_metric"
   ],
   "note": "diff_ok is the contract of jax differentiation; full monomial bases; exact arithmetic; log only needs to turn products of positive numbers into sums"
  },
  {
   "property": "C155",
   "status": "proved",
   "theorems": [
    "lift_to_multiple_degree"
   ],
   "note": "as C154; H as a matrix"
  },
  {
   "property": "C156",
   "status": "proved",
   "theorems": [
    "sigma_below_variance"
   ],
   "note": "real closed fields; exact arithmetic; weights with positive mean, as in the code eta real"
  },
  {
   "property": "C157",
   "status": "proved",
   "theorems": [
    "linear_sections",
    "linear_metric",
    "linear_measures",
    "linear_local_metric"
   ],
   "note": "Stated on the objects of the model on each patch (on_patch), as C88-C91 are."
  },
  {
   "property": "C158",
   "status": "proved",
   "theorems": [
    "unitary_weight",
    "unitary_step"
   ],
   "note": "Degree equal to the number of coordinates; for other degrees the weights depend on the patch (C90)."
  },
  {
   "property": "C159",
   "status": "proved",
   "theorems": [
    "linear_curvature"
   ],
   "note": "Over CR (stdlib reals): the complex logarithm is needed for the Ricci tensor."
  },
  {
   "property": "C16",
   "status": "proved",
   "theorems": [
    "fs_metric_value",
    "fs_metric_hermitian",
    "fs_metric_positive"
   ],
   "note": ""
  },
  {
   "property": "C160",
   "status": "proved",
   "theorems": [
    "kahler_determines_h",
    "kahler_determines_parameters"
   ],
   "note": "Any logarithm which turns products into sums and is injective on positive numbers; this holds for the complex logarithm (Example complex_log)."
  },
  {
   "property": "C161",
   "status": "proved",
   "theorems": [
    "fubini_unitary",
    "fubini_only_invariant"
   ],
   "note": ""
  },
  {
   "property": "C162",
   "status": "proved",
   "theorems": [
    "metric_determines_h"
   ],
   "note": "Both directions. The equality of the metrics is polarised to independent z and w; logarithmic derivatives of polynomials along lines show that the two polarised potentials differ by a factor a(z) b(w), and degrees show that both are constant."
  },
  {
   "property": "C163",
   "status": "proved",
   "theorems": [
    "rotation_steps",
    "rotation_balanced",
    "rotation_limit"
   ],
   "note": "All unitary symmetries, not just monomial ones (those are C145 and C146). Full monomial basis, whose sections span on a sample only for k below the degree of the variety (C165); C166 has the statement for the reduced basis. The limit uses the classical axioms of the Coq reals."
  },
  {
   "property": "C164",
   "status": "proved",
   "theorems": [
    "reduced_same_metrics",
    "reduced_same_ricci",
    "same_metrics_same_sigma"
   ],
   "note": "reduced_same_metrics and same_metrics_same_sigma over any algebraically closed field with a norm; the curvature over the complex numbers, where eta on the hypersurface determines it."
  },
  {
   "property": "C165",
   "status": "proved",
   "theorems": [
    "T_invertible_iff",
    "T_few_points",
    "T_full_basis_singular",
    "reduced_independent_iff",
    "reduced_independent_line",
    "reduced_independent_dwork",
    "reduced_independent_fermat",
    "T_sample_exists"
   ],
   "note": "T_mean is the matrix inverted by the modelled donaldson_step (C115). The model writes the inverse of a singular matrix as mathcomp's invmx; what LAPACK returns is not modelled. T_sample_exists uses classical logic."
  },
  {
   "property": "C166",
   "status": "proved",
   "theorems": [
    "rotation_kernel_steps",
    "rotation_kernel_balanced",
    "rotation_kernel_limit",
    "kernel_invariant_norms"
   ],
   "note": "Contains the case k at least the degree of the variety, which the full basis of C163 excludes. Invariance is stated for pairs of points, because the monomials of the reduced basis are independent only on the hypersurface. The limit uses the classical axioms of the Coq reals."
  },
  {
   "property": "C167",
   "status": "proved",
   "theorems": [
    "kernel_isometry",
    "kernel_curvature",
    "invariant_kernel_exists"
   ],
   "note": "Together with C166 the limit of the Donaldson steps on a sample with a unitary symmetry has metric and curvature with this symmetry. Stated for the objects of the pipeline on a patch (on_patch); C95 to C98 relate them to the methods. kernel_curvature uses the classical axioms of the Coq reals."
  },
  {
   "property": "C17",
   "status": "proved",
   "theorems": [
    "fs_metric_is_hessian"
   ],
   "note": "log is any function with derivative 1/x near 1 + sum z zc"
  },
  {
   "property": "C18",
   "status": "proved",
   "theorems": [
    "fs_metric_patch_independent",
    "fs_potential_homogeneous"
   ],
   "note": ""
  },
  {
   "property": "C19",
   "status": "proved",
   "theorems": [
    "jacobian_embed_tangent",
    "jacobian_embed_is_jacobian"
   ],
   "note": ""
  },
  {
   "property": "C20",
   "status": "proved",
   "theorems": [
    "induced_metric_pullback"
   ],
   "note": ""
  },
  {
   "property": "C21",
   "status": "proved",
   "theorems": [
    "volume_ratio_closed_form",
    "volume_ratio_dependent_free"
   ],
   "note": "no invertibility or positivity needed"
  },
  {
   "property": "C22",
   "status": "proved",
   "theorems": [
    "merge_split_subscript",
    "split_subscript_plain",
    "split_subscript_spellings",
    "split_subscript_two",
    "split_subscript_digits_and_sub",
    "split_subscript_not_integer",
    "merge_split_negative_refuted",
    "merge_split_inner_digit_refuted"
   ],
   "note": "limits (negative subscripts, digits inside names) given as refutations"
  },
  {
   "property": "C23",
   "status": "proved",
   "theorems": [
    "union_indices_members",
    "union_indices_sorted",
    "union_indices_members_rep"
   ],
   "note": ""
  },
  {
   "property": "C24",
   "status": "proved",
   "theorems": [
    "from_sympy_visit_order",
    "from_sympy_names"
   ],
   "note": "the normal form of sympy.Poly is an arbitrary function"
  },
  {
   "property": "C25",
   "status": "proved",
   "theorems": [
    "from_sympy_auto_refuted",
    "from_sympy_auto_result"
   ],
   "note": "documented detection refuted; exact result proved"
  },
  {
   "property": "C26",
   "status": "proved",
   "theorems": [
    "from_sympy_mixed_use",
    "from_sympy_two_spellings"
   ],
   "note": ""
  },
  {
   "property": "C27",
   "status": "proved",
   "theorems": [
    "arguments_by_keyword",
    "arguments_positional",
    "arguments_without_params",
    "arguments_too_many",
    "arguments_missing",
    "arguments_number_of_params"
   ],
   "note": ""
  },
  {
   "property": "C28",
   "status": "proved",
   "theorems": [
    "from_sympy_evaluates",
    "poly_call_value",
    "poly_call_all_inputs",
    "symbolic_call_agrees"
   ],
   "note": "scalar arithmetic (no batch broadcasting); expressions without the imaginary unit (see C71)"
  },
  {
   "property": "C29",
   "status": "proved",
   "theorems": [
    "evaluation_preserves_store",
    "evaluation_mutable_safe",
    "evaluation_overwrites_refuted",
    "evaluation_history_refuted"
   ],
   "note": "refuted for mutable 0-d arrays; exact effect proved"
  },
  {
   "property": "C30",
   "status": "proved",
   "theorems": [
    "monomials_value",
    "monomials_rejects",
    "monomials_missing_value"
   ],
   "note": "exp and log enter through their functional equations; shapes that numpy would broadcast are rejected in the model"
  },
  {
   "property": "C31",
   "status": "proved",
   "theorems": [
    "to_coeffs_value",
    "to_coeffs_accepts",
    "to_coeffs_imaginary_refuted",
    "from_coeffs_value",
    "from_coeffs_accepts",
    "coeffs_round_trip",
    "from_coeffs_absent_refuted",
    "from_coeffs_defaults",
    "from_coeffs_names_exhausted"
   ],
   "note": "the terms of the sympy polynomial are a stated contract; partly refuted: multiples of the imaginary unit lose their magnitude, powers of parameters are rejected, tables of absent variables are rejected without explicit indices"
  },
  {
   "property": "C32",
   "status": "proved",
   "theorems": [
    "poly_add_pointwise",
    "poly_mul_pointwise",
    "poly_sub_pointwise",
    "poly_arith_metadata",
    "poly_arith_succeeds",
    "poly_arith_mixed_use"
   ],
   "note": "two Poly objects"
  },
  {
   "property": "C33",
   "status": "proved",
   "theorems": [
    "univariate_coefficients_value",
    "univariate_no_variables_refuted"
   ],
   "note": "sympy.Poly(poly, var).terms() is a stated contract; raises when no variable is left but coefficients have parameters"
  },
  {
   "property": "C34",
   "status": "proved",
   "theorems": [
    "patch_number_formula",
    "patch_number_range",
    "patch_number_injective",
    "patch_number_onto"
   ],
   "note": ""
  },
  {
   "property": "C35",
   "status": "proved",
   "theorems": [
    "affine_poly_value",
    "affine_poly_subscript",
    "affine_poly_position_refuted",
    "affine_poly_missing_refuted",
    "affine_poly_single_refuted"
   ],
   "note": "positional contract proved for indices 0..d-1 and refuted otherwise; sympy's evaluation of a generator at 1 is a stated contract (norm)"
  },
  {
   "property": "C36",
   "status": "proved",
   "theorems": [
    "affine_cache_transparent",
    "hom_call_patch",
    "affine_cache_negative_refuted",
    "affine_cache_range_refuted"
   ],
   "note": "refuted for requests out of range"
  },
  {
   "property": "C37",
   "status": "proved",
   "theorems": [
    "compiled_eval_patch",
    "compiled_eval_clamped",
    "compiled_eval_homogeneous"
   ],
   "note": "jax.lax.switch: traces all branches, clamps the number"
  },
  {
   "property": "C38",
   "status": "proved",
   "theorems": [
    "dwork_scaling",
    "dwork_symmetric",
    "dwork_affine_value",
    "dwork_accepts",
    "dwork_closed_form",
    "dwork_all_ones",
    "dwork_is_generic",
    "fermat_scaling",
    "fermat_symmetric",
    "fermat_affine_value",
    "fermat_is_dwork"
   ],
   "note": ""
  },
  {
   "property": "C39",
   "status": "proved",
   "theorems": [
    "sample_on_variety",
    "sample_affine_on_variety"
   ],
   "note": "for lines whose direction q is not on the variety (and, in affine coordinates, not through the origin); jnp.roots and sympy's terms are stated contracts; random numbers are arbitrary"
  },
  {
   "property": "C40",
   "status": "proved",
   "theorems": [
    "sample_on_variety",
    "sample_count_enough",
    "sample_count_short_refuted"
   ],
   "note": "documented count refuted for degree below the number of coordinates"
  },
  {
   "property": "C41",
   "status": "proved",
   "theorems": [
    "weights_closed_form",
    "weights_separate_parts",
    "weights_vol_refuted"
   ],
   "note": "consistency with separate=True refuted for vol other than 1 (or None)"
  },
  {
   "property": "C42",
   "status": "proved",
   "theorems": [
    "solve_defining_completes",
    "solve_defining_no_patch_refuted"
   ],
   "note": "for integer patch and position, more than two coordinates, and points where the degree in the solved coordinate does not drop; default patch=None raises"
  },
  {
   "property": "C43",
   "status": "proved",
   "theorems": [
    "best_dependent_refuted",
    "best_dependent_swapped_refuted"
   ],
   "note": "documented behaviour refuted"
  },
  {
   "property": "C44",
   "status": "proved",
   "theorems": [
    "monomial_basis_complete",
    "monomial_basis_indices_match",
    "monomial_basis_negative"
   ],
   "note": ""
  },
  {
   "property": "C45",
   "status": "proved",
   "theorems": [
    "sections_value",
    "sections_value_affine",
    "basis_full_complete"
   ],
   "note": "patches counted from 0 to n; exp and log enter through their functional equations"
  },
  {
   "property": "C46",
   "status": "proved",
   "theorems": [
    "reduced_basis_constant",
    "reduced_basis_list",
    "reduced_basis_size",
    "reduced_basis_inhomogeneous"
   ],
   "note": ""
  },
  {
   "property": "C47",
   "status": "proved",
   "theorems": [
    "reduced_class_basis",
    "reduced_sections_span",
    "reduced_order_refuted",
    "reduced_missing_variable_refuted"
   ],
   "note": "proved for the order of MonomialBasisReduced when every variable occurs; refuted for arbitrary order and for polynomials that do not use some variable. The terms of the sympy polynomial are those of a polynomial of the SsrMultinomials library"
  },
  {
   "property": "C48",
   "status": "proved",
   "theorems": [
    "metric_is_hessian",
    "local_metric_is_hessian"
   ],
   "note": "log enters through its derivative 1/x; the derivatives s_1, s_2, grad_def, jac_h taken by JAX are a stated contract, proved for polynomials (C74)"
  },
  {
   "property": "C49",
   "status": "proved",
   "theorems": [
    "ambient_metric_derivatives"
   ],
   "note": "log enters through its derivative 1/x; the derivatives s_1, s_2, grad_def, jac_h taken by JAX are a stated contract, proved for polynomials (C74)"
  },
  {
   "property": "C50",
   "status": "proved",
   "theorems": [
    "local_metric_derivatives"
   ],
   "note": "log enters through its derivative 1/x; the derivatives s_1, s_2, grad_def, jac_h taken by JAX are a stated contract, proved for polynomials (C74)"
  },
  {
   "property": "C51",
   "status": "proved",
   "theorems": [
    "ricci_is_mixed_derivative",
    "ricci_on_variety",
    "scale_invariance"
   ],
   "note": "log enters through its derivative 1/x; the derivatives s_1, s_2, grad_def, jac_h taken by JAX are a stated contract, proved for polynomials (C74)"
  },
  {
   "property": "C52",
   "status": "proved",
   "theorems": [
    "scale_invariance",
    "eta_is_real",
    "eta_is_positive",
    "eta_dependent_free"
   ],
   "note": ""
  },
  {
   "property": "C53",
   "status": "proved",
   "theorems": [
    "diagonal_h",
    "diagonal_h_refuted"
   ],
   "note": "documented support for a 1-d H refuted for everything that needs psi_hh"
  },
  {
   "property": "C54",
   "status": "proved",
   "theorems": [
    "sigma_nonnegative",
    "sigma_zero_iff",
    "sigma_below_two",
    "sigma_eta_scale",
    "sigma_accuracy_value",
    "sigma_accuracy_scale"
   ],
   "note": "sampled points, their weights and section values are arguments; float rounding not modelled"
  },
  {
   "property": "C55",
   "status": "proved",
   "theorems": [
    "step_is_inverse",
    "step_is_hermitian",
    "step_is_positive",
    "step_batching",
    "step_trace_identity",
    "step_scaling_h",
    "step_antihermitian_part"
   ],
   "note": "sampled points, their weights and section values are arguments; float rounding not modelled"
  },
  {
   "property": "C56",
   "status": "proved",
   "theorems": [
    "cholesky_decode_posdef",
    "cholesky_decode_onto",
    "cholesky_decode_bad_size"
   ],
   "note": ""
  },
  {
   "property": "C57",
   "status": "proved",
   "theorems": [
    "hermitian_param_init_identity",
    "hermitian_param_init_fluctuate",
    "cholesky_from_param_square",
    "cholesky_from_param_onto",
    "cholesky_from_param_rejects",
    "hermitian_param_init_range_refuted"
   ],
   "note": "the documented uniform range of the fluctuation is refuted (normal draws)"
  },
  {
   "property": "C58",
   "status": "proved",
   "theorems": [
    "hnet_initial_matrix",
    "hnet_initial_identity_refuted"
   ],
   "note": "the stated intention is refuted for sig_suppress; exact initial matrix proved; weights and activations arbitrary"
  },
  {
   "property": "C59",
   "status": "proved",
   "theorems": [
    "hnet_features_value",
    "hnet_features_raises",
    "hnet_output_size",
    "hnet_angle_features_refuted"
   ],
   "note": "integer powers; the documented angle features are refuted"
  },
  {
   "property": "C60",
   "status": "proved",
   "theorems": [
    "batch_sampler_stream",
    "batch_sampler_zero_buffer"
   ],
   "note": "sampling function and key splitting arbitrary"
  },
  {
   "property": "C61",
   "status": "proved",
   "theorems": [
    "batch_sampler_failure_refuted"
   ],
   "note": "refuted; exact behaviour proved"
  },
  {
   "property": "C62",
   "status": "proved",
   "theorems": [
    "variance_loss_nonneg",
    "variance_part_scale_free",
    "variance_loss_zero"
   ],
   "note": "log: any function with log 1 = 0, positive above 1; eta given as values"
  },
  {
   "property": "C63",
   "status": "proved",
   "theorems": [
    "uniform_components_range",
    "uniform_components_onto",
    "uniform_components_refuted",
    "uniform_angle_polar",
    "uniform_angle_area",
    "uniform_angle_unit_circle"
   ],
   "note": "draws of jax.random are arguments; real numbers of the standard library instead of floats; that the draws are uniform resp. normal is not modelled; the documented range [0, 1) of the components is refuted"
  },
  {
   "property": "C64",
   "status": "proved",
   "theorems": [
    "uniform_projective_homogeneous",
    "real_sphere_norm",
    "complex_sphere_norm",
    "uniform_projective_patch"
   ],
   "note": "draws of jax.random are arguments; real numbers of the standard library instead of floats; that the draws are uniform resp. normal is not modelled"
  },
  {
   "property": "C65",
   "status": "proved",
   "theorems": [
    "overlap_in_both_patches"
   ],
   "note": "draws of jax.random are arguments; real numbers of the standard library instead of floats; that the draws are uniform resp. normal is not modelled"
  },
  {
   "property": "C66",
   "status": "proved",
   "theorems": [
    "overlap_symmetric_01",
    "overlap_flip_involution",
    "overlap_symmetric_refuted"
   ],
   "note": "draws of jax.random are arguments; real numbers of the standard library instead of floats; that the draws are uniform resp. normal is not modelled; documented invariance refuted except for the patches 0 and 1"
  },
  {
   "property": "C67",
   "status": "proved",
   "theorems": [
    "hom_to_affine_negative_patch"
   ],
   "note": ""
  },
  {
   "property": "C68",
   "status": "proved",
   "theorems": [
    "jacobian_embed_negative_refuted"
   ],
   "note": "refuted by a witness"
  },
  {
   "property": "C69",
   "status": "proved",
   "theorems": [
    "hnet_hidden_layers_count",
    "hnet_layer_sizes_refuted"
   ],
   "note": "refuted; exact count proved"
  },
  {
   "property": "C70",
   "status": "proved",
   "theorems": [
    "symbolic_call_value",
    "symbolic_call_swap_refuted"
   ],
   "note": "refuted in general; proved when replacements contain no symbol of the polynomial"
  },
  {
   "property": "C71",
   "status": "proved",
   "theorems": [
    "imaginary_unit_refuted"
   ],
   "note": "refuted"
  },
  {
   "property": "C72",
   "status": "proved",
   "theorems": [
    "parameter_clash_scalar_refuted",
    "parameter_clash_vector_refuted",
    "parameter_clash_missing"
   ],
   "note": "refuted"
  },
  {
   "property": "C73",
   "status": "proved",
   "theorems": [
    "sections_homogeneous",
    "sections_patch_factor"
   ],
   "note": ""
  },
  {
   "property": "C74",
   "status": "proved",
   "theorems": [
    "polynomial_sections",
    "polynomial_embedding"
   ],
   "note": ""
  },
  {
   "property": "C75",
   "status": "proved",
   "theorems": [
    "metric_semidefinite",
    "metric_positive_iff"
   ],
   "note": ""
  },
  {
   "property": "C76",
   "status": "proved",
   "theorems": [
    "dependent_default"
   ],
   "note": ""
  },
  {
   "property": "C77",
   "status": "proved",
   "theorems": [
    "step_scaling_vol",
    "step_fixed_point_volume"
   ],
   "note": "sampled points, their weights and section values are arguments; float rounding not modelled"
  },
  {
   "property": "C78",
   "status": "proved",
   "theorems": [
    "step_patch_independent",
    "step_basis_change"
   ],
   "note": "sampled points, their weights and section values are arguments; float rounding not modelled"
  },
  {
   "property": "C79",
   "status": "proved",
   "theorems": [
    "step_nonfinite_weights"
   ],
   "note": "sampled points, their weights and section values are arguments; float rounding not modelled"
  },
  {
   "property": "C80",
   "status": "proved",
   "theorems": [
    "step_real_h_refuted"
   ],
   "note": "documented contract refuted: the carry of fori_loop would change its dtype, which JAX rejects with TypeError"
  },
  {
   "property": "C81",
   "status": "proved",
   "theorems": [
    "complex_sphere_unitary"
   ],
   "note": "draws of jax.random are arguments; real numbers of the standard library instead of floats; that the draws are uniform resp. normal is not modelled"
  },
  {
   "property": "C82",
   "status": "proved",
   "theorems": [
    "overlap_covers",
    "overlap_covers_refuted"
   ],
   "note": "draws of jax.random are arguments; real numbers of the standard library instead of floats; that the draws are uniform resp. normal is not modelled"
  },
  {
   "property": "C83",
   "status": "proved",
   "theorems": [
    "smooth_point_parametrised"
   ],
   "note": ""
  },
  {
   "property": "C84",
   "status": "proved",
   "theorems": [
    "sections_are_polynomials",
    "dehomogenised_value"
   ],
   "note": "log strategy under its contract, which C86 discharges over the complex numbers"
  },
  {
   "property": "C85",
   "status": "proved",
   "theorems": [
    "full_basis_metric_positive",
    "reduced_basis_metric_positive",
    "degree_zero_degenerate"
   ],
   "note": "the reduced basis needs every variable to occur in the polynomial, otherwise C46 applies"
  },
  {
   "property": "C86",
   "status": "proved",
   "theorems": [
    "complex_exp_log",
    "complex_log_near",
    "complex_log_product",
    "complex_log_real"
   ],
   "note": "uses the real numbers of the standard library"
  },
  {
   "property": "C87",
   "status": "proved",
   "theorems": [
    "full_basis_metric",
    "reduced_basis_metric"
   ],
   "note": "uses the real numbers of the standard library; automatic differentiation is represented by exact derivatives"
  },
  {
   "property": "C88",
   "status": "proved",
   "theorems": [
    "algebraic_metric_patch"
   ],
   "note": "sections and defining polynomial as exact polynomials; the derivative arrays as exact derivatives"
  },
  {
   "property": "C89",
   "status": "proved",
   "theorems": [
    "gradient_patch"
   ],
   "note": "sections and defining polynomial as exact polynomials; the derivative arrays as exact derivatives"
  },
  {
   "property": "C90",
   "status": "proved",
   "theorems": [
    "measures_patch"
   ],
   "note": "sections and defining polynomial as exact polynomials; the derivative arrays as exact derivatives; dependent coordinates explicit, C76 covers the default"
  },
  {
   "property": "C91",
   "status": "proved",
   "theorems": [
    "local_metric_patch"
   ],
   "note": "sections and defining polynomial as exact polynomials; the derivative arrays as exact derivatives"
  },
  {
   "property": "C92",
   "status": "proved",
   "theorems": [
    "ricci_patch"
   ],
   "note": "over the complex numbers on stdlib R; exact arithmetic; basis full, or reduced by the same polynomial with every variable occurring"
  },
  {
   "property": "C93",
   "status": "proved",
   "theorems": [
    "ricci_dependent"
   ],
   "note": "over the complex numbers on stdlib R; exact arithmetic; basis full, or reduced by the same polynomial with every variable occurring"
  },
  {
   "property": "C94",
   "status": "proved",
   "theorems": [
    "defining_is_polynomial"
   ],
   "note": "norm is the normal form of sympy, under its contract"
  },
  {
   "property": "C95",
   "status": "proved",
   "theorems": [
    "algebraic_rescaling",
    "algebraic_default_patch"
   ],
   "note": "one point at a time; jax.grad and jax.jacfwd are an operator which returns the complex derivative where there is one; the parameters as an array"
  },
  {
   "property": "C96",
   "status": "proved",
   "theorems": [
    "algebraic_metric_point"
   ],
   "note": "one point at a time; jax.grad and jax.jacfwd are an operator which returns the complex derivative where there is one; the parameters as an array"
  },
  {
   "property": "C97",
   "status": "proved",
   "theorems": [
    "algebraic_ricci_point"
   ],
   "note": "one point at a time; jax.grad and jax.jacfwd are an operator which returns the complex derivative where there is one; the parameters as an array; over the complex numbers on stdlib R"
  },
  {
   "property": "C98",
   "status": "proved",
   "theorems": [
    "algebraic_eta_point"
   ],
   "note": "one point at a time; jax.grad and jax.jacfwd are an operator which returns the complex derivative where there is one; the parameters as an array"
  },
  {
   "property": "C99",
   "status": "proved",
   "theorems": [
    "algebraic_kahler_point"
   ],
   "note": "one point at a time; jax.grad and jax.jacfwd are an operator which returns the complex derivative where there is one; the parameters as an array; the logarithm is any function turning products of positive numbers into sums"
  }
 ]
}