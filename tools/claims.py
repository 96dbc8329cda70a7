c(1, "proved", "pop_removes_entry pop_any_index pop_empty", "")
c(2, "proved", "pop_negative pop_negative_order_refuted pop_any_index",
  "The documented remainder is refuted for every negative index; the exact behaviour is proved.")
c(3, "proved", "insert_1d_nonneg insert_1d_negative insert_1d_negative_block pop_insert_1d", "")
c(4, "proved", "insert_col_rows insert_col_bad_rows", "")
c(5, "proved", "flatten_unflatten_pointwise flatten_coord_total flatten_unflatten_identity flatten_coord_c_shape flatten_coord_c_default",
  "last axis of positive length (reshape(-1, 0) raises)")
c(6, "proved", "shuffle_axis_permutes", "random permutations are an arbitrary input")
c(7, "proved", "binomial_exact binomial_raises", "")
c(8, "proved", "mc_integrate_value mc_integrate_documented_refuted", "documented contract refuted; exact behaviour proved")
c(9, "proved", "mc_integrate_batched_value", "exact field arithmetic; stated for every integrand")
c(10, "proved", "prng_sequence_stream prng_sequence_history prng_seed_int_key", "jax.random.split arbitrary")

c(11, "proved", "index_conversions_inverse index_affine_to_hom_addresses", "")
c(12, "proved", "affine_hom_affine hom_affine_hom hom_to_affine_projective", "exact field arithmetic")
c(13, "proved", "hom_to_affine_auto_patch", "any closed numeric field")
c(14, "proved", "change_chart_transition change_chart_cocycle", "")
c(15, "proved", "change_chart_same_patch change_chart_same_patch_refuted", "identity law refuted; exact fixed points proved")
c(16, "proved", "fs_metric_value fs_metric_hermitian fs_metric_positive", "")
c(17, "proved", "fs_metric_is_hessian", "log is any function with derivative 1/x near 1 + sum z zc")
c(18, "proved", "fs_metric_patch_independent fs_potential_homogeneous", "")
c(19, "proved", "jacobian_embed_tangent jacobian_embed_is_jacobian", "")
c(20, "proved", "induced_metric_pullback", "")
c(21, "proved", "volume_ratio_closed_form volume_ratio_dependent_free", "no invertibility or positivity needed")
c(67, "proved", "hom_to_affine_negative_patch", "")
c(68, "proved", "jacobian_embed_negative_refuted", "refuted by a witness")

c(56, "proved", "cholesky_decode_posdef cholesky_decode_onto cholesky_decode_bad_size", "")
c(57, "proved", "hermitian_param_init_identity hermitian_param_init_fluctuate cholesky_from_param_square cholesky_from_param_onto cholesky_from_param_rejects hermitian_param_init_range_refuted",
  "the documented uniform range of the fluctuation is refuted (normal draws)")
c(58, "proved", "hnet_initial_matrix hnet_initial_identity_refuted", "the stated intention is refuted for sig_suppress; exact initial matrix proved; weights and activations arbitrary")
c(59, "proved", "hnet_features_value hnet_features_raises hnet_output_size hnet_angle_features_refuted", "integer powers; the documented angle features are refuted")
c(60, "proved", "batch_sampler_stream batch_sampler_zero_buffer", "sampling function and key splitting arbitrary")
c(61, "proved", "batch_sampler_failure_refuted", "refuted; exact behaviour proved")
c(62, "proved", "variance_loss_nonneg variance_part_scale_free variance_loss_zero", "log: any function with log 1 = 0, positive above 1; eta given as values")
c(69, "proved", "hnet_hidden_layers_count hnet_layer_sizes_refuted", "refuted; exact count proved")

c(22, "proved", "merge_split_subscript split_subscript_plain split_subscript_spellings split_subscript_two split_subscript_digits_and_sub split_subscript_not_integer merge_split_negative_refuted merge_split_inner_digit_refuted",
  "limits (negative subscripts, digits inside names) given as refutations")
c(23, "proved", "union_indices_members union_indices_sorted union_indices_members_rep", "")
c(24, "proved", "from_sympy_visit_order from_sympy_names", "the normal form of sympy.Poly is an arbitrary function")
c(25, "proved", "from_sympy_auto_refuted from_sympy_auto_result", "documented detection refuted; exact result proved")
c(26, "proved", "from_sympy_mixed_use from_sympy_two_spellings", "")
c(27, "proved", "arguments_by_keyword arguments_positional arguments_without_params arguments_too_many arguments_missing arguments_number_of_params", "")
c(28, "proved", "from_sympy_evaluates poly_call_value poly_call_all_inputs symbolic_call_agrees", "scalar arithmetic (no batch broadcasting); expressions without the imaginary unit (see C71)")
c(32, "proved", "poly_add_pointwise poly_mul_pointwise poly_sub_pointwise poly_arith_metadata poly_arith_succeeds poly_arith_mixed_use", "two Poly objects")
c(70, "proved", "symbolic_call_value symbolic_call_swap_refuted", "refuted in general; proved when replacements contain no symbol of the polynomial")
c(71, "proved", "imaginary_unit_refuted", "refuted")
c(72, "proved", "parameter_clash_scalar_refuted parameter_clash_vector_refuted parameter_clash_missing", "refuted")

c(34, "proved", "patch_number_formula patch_number_range patch_number_injective patch_number_onto", "")
c(35, "proved", "affine_poly_value affine_poly_subscript affine_poly_position_refuted affine_poly_missing_refuted affine_poly_single_refuted",
  "positional contract proved for indices 0..d-1 and refuted otherwise; sympy's evaluation of a generator at 1 is a stated contract (norm)")
c(36, "proved", "affine_cache_transparent hom_call_patch affine_cache_negative_refuted affine_cache_range_refuted", "refuted for requests out of range")
c(37, "proved", "compiled_eval_patch compiled_eval_clamped compiled_eval_homogeneous", "jax.lax.switch: traces all branches, clamps the number")
c(38, "proved", "dwork_scaling dwork_symmetric dwork_affine_value dwork_accepts dwork_closed_form dwork_all_ones dwork_is_generic fermat_scaling fermat_symmetric fermat_affine_value fermat_is_dwork", "")
c(33, "proved", "univariate_coefficients_value univariate_no_variables_refuted", "sympy.Poly(poly, var).terms() is a stated contract; raises when no variable is left but coefficients have parameters")
c(30, "proved", "monomials_value monomials_rejects monomials_missing_value", "exp and log enter through their functional equations; shapes that numpy would broadcast are rejected in the model")
c(31, "proved", "to_coeffs_value to_coeffs_accepts to_coeffs_imaginary_refuted from_coeffs_value from_coeffs_accepts coeffs_round_trip from_coeffs_absent_refuted from_coeffs_defaults from_coeffs_names_exhausted",
  "the terms of the sympy polynomial are a stated contract; partly refuted: multiples of the imaginary unit lose their magnitude, powers of parameters are rejected, tables of absent variables are rejected without explicit indices")
c(29, "proved", "evaluation_preserves_store evaluation_mutable_safe evaluation_overwrites_refuted evaluation_history_refuted", "refuted for mutable 0-d arrays; exact effect proved")
c(39, "proved", "sample_on_variety sample_affine_on_variety", "for lines whose direction q is not on the variety (and, in affine coordinates, not through the origin); jnp.roots and sympy's terms are stated contracts; random numbers are arbitrary")
c(40, "proved", "sample_on_variety sample_count_enough sample_count_short_refuted", "documented count refuted for degree below the number of coordinates")
c(41, "proved", "weights_closed_form weights_separate_parts weights_vol_refuted", "consistency with separate=True refuted for vol other than 1 (or None)")
c(42, "proved", "solve_defining_completes solve_defining_no_patch_refuted", "for integer patch and position, more than two coordinates, and points where the degree in the solved coordinate does not drop; default patch=None raises")
c(43, "proved", "best_dependent_refuted best_dependent_swapped_refuted", "documented behaviour refuted")
c(44, "proved", "monomial_basis_complete monomial_basis_indices_match monomial_basis_negative", "")
c(45, "proved", "sections_value sections_value_affine basis_full_complete", "patches counted from 0 to n; exp and log enter through their functional equations")
c(46, "proved", "reduced_basis_constant reduced_basis_list reduced_basis_size reduced_basis_inhomogeneous", "")
c(47, "proved", "reduced_class_basis reduced_sections_span reduced_order_refuted reduced_missing_variable_refuted",
  "proved for the order of MonomialBasisReduced when every variable occurs; refuted for arbitrary order and for polynomials that do not use some variable. The terms of the sympy polynomial are those of a polynomial of the SsrMultinomials library")
c(73, "proved", "sections_homogeneous sections_patch_factor", "")
lg = "log enters through its derivative 1/x; the derivatives s_1, s_2, grad_def, jac_h taken by JAX are a stated contract, proved for polynomials (C74)"
c(48, "proved", "metric_is_hessian local_metric_is_hessian", lg)
c(49, "proved", "ambient_metric_derivatives", lg)
c(50, "proved", "local_metric_derivatives", lg)
c(51, "proved", "ricci_is_mixed_derivative ricci_on_variety scale_invariance", lg)
c(52, "proved", "scale_invariance eta_is_real eta_is_positive eta_dependent_free", "")
c(53, "proved", "diagonal_h diagonal_h_refuted", "documented support for a 1-d H refuted for everything that needs psi_hh")
c(74, "proved", "polynomial_sections polynomial_embedding", "")
c(75, "proved", "metric_semidefinite metric_positive_iff", "")
c(76, "proved", "dependent_default", "")
dn = "sampled points, their weights and section values are arguments; float rounding not modelled"
c(54, "proved", "sigma_nonnegative sigma_zero_iff sigma_below_two sigma_eta_scale sigma_accuracy_value sigma_accuracy_scale", dn)
c(55, "proved", "step_is_inverse step_is_hermitian step_is_positive step_batching step_trace_identity step_scaling_h step_antihermitian_part", dn)
c(77, "proved", "step_scaling_vol step_fixed_point_volume", dn)
c(78, "proved", "step_patch_independent step_basis_change", dn)
c(79, "proved", "step_nonfinite_weights", dn)
c(80, "proved", "step_real_h_refuted", "documented contract refuted: the carry of fori_loop would change its dtype, which JAX rejects with TypeError")
rn = "draws of jax.random are arguments; real numbers of the standard library instead of floats; that the draws are uniform resp. normal is not modelled"
c(63, "proved", "uniform_components_range uniform_components_onto uniform_components_refuted uniform_angle_polar uniform_angle_area uniform_angle_unit_circle", rn + "; the documented range [0, 1) of the components is refuted")
c(64, "proved", "uniform_projective_homogeneous real_sphere_norm complex_sphere_norm uniform_projective_patch", rn)
c(65, "proved", "overlap_in_both_patches", rn)
c(66, "proved", "overlap_symmetric_01 overlap_flip_involution overlap_symmetric_refuted", rn + "; documented invariance refuted except for the patches 0 and 1")
c(81, "proved", "complex_sphere_unitary", rn)
c(82, "proved", "overlap_covers overlap_covers_refuted", rn)
c(83, "proved", "smooth_point_parametrised", "")
c(84, "proved", "sections_are_polynomials dehomogenised_value", "log strategy under its contract, which C86 discharges over the complex numbers")
c(85, "proved", "full_basis_metric_positive reduced_basis_metric_positive degree_zero_degenerate", "the reduced basis needs every variable to occur in the polynomial, otherwise C46 applies")
c(86, "proved", "complex_exp_log complex_log_near complex_log_product complex_log_real", "uses the real numbers of the standard library")
c(87, "proved", "full_basis_metric reduced_basis_metric", "uses the real numbers of the standard library; automatic differentiation is represented by exact derivatives")
pn = "sections and defining polynomial as exact polynomials; the derivative arrays as exact derivatives"
c(88, "proved", "algebraic_metric_patch", pn)
c(89, "proved", "gradient_patch", pn)
c(90, "proved", "measures_patch", pn + "; dependent coordinates explicit, C76 covers the default")
c(91, "proved", "local_metric_patch", pn)
rn = "over the complex numbers on stdlib R; exact arithmetic; basis full, or reduced by the same polynomial with every variable occurring"
c(92, "proved", "ricci_patch", rn)
c(93, "proved", "ricci_dependent", rn)
c(94, "proved", "defining_is_polynomial", "norm is the normal form of sympy, under its contract")
an = "one point at a time; jax.grad and jax.jacfwd are an operator which returns the complex derivative where there is one; the parameters as an array"
c(95, "proved", "algebraic_rescaling algebraic_default_patch", an)
c(96, "proved", "algebraic_metric_point", an)
c(97, "proved", "algebraic_ricci_point", an + "; over the complex numbers on stdlib R")
c(98, "proved", "algebraic_eta_point", an)
c(99, "proved", "algebraic_kahler_point", an + "; the logarithm is any function turning products of positive numbers into sums")
c(100, "proved", "algebraic_wrong_length", an + "; without a patch the coordinates are not all zero")
c(101, "proved", "algebraic_gradient_argument algebraic_gradient_scaled", an)
c(102, "proved", "dwork_gradient_formula fermat_gradient_formula", an)
c(103, "proved", "dwork_smooth_iff fermat_is_smooth", an)
c(104, "proved", "hypersurface_is_polynomial smooth_metric_everywhere", an)
c(105, "proved", "variety_jacobian", an)
c(106, "proved", "induced_metric_conjugate induced_metric_conjugate_refuted induced_metric_no_parameters_refuted", an + "; the equivalence is refuted for a complex factor and for params=None")
c(107, "proved", "induced_fs_point_patch", an)
c(108, "proved", "variety_dimensions variety_one_variable variety_parameter_count", "")
c(109, "proved", "from_sympy_coordinates from_sympy_degree_refuted", "documented meaning of poly_degree refuted")
sn = an + "; the sampler is an argument, floats and NaN not modelled"
c(110, "proved", "weights_homogeneous weights_calabi_yau dwork_weights fermat_weights", an)
c(111, "proved", "samples_with_weights", sn)
c(112, "proved", "volume_estimate", sn)
c(113, "proved", "sigma_of_samples", sn)
c(114, "proved", "samples_rescaled", sn)
c(115, "proved", "step_of_samples", sn + "; H of complex dtype, C80 covers the real one")
c(116, "proved", "poly_sampler dwork_sampler fermat_sampler", "root finder, normal form and terms in t of sympy under their contracts; lines with q not on the variety and p no multiple of q; Dwork with a non-real factor is C118")
c(117, "proved", "dwork_end_to_end fermat_end_to_end", "contracts as in C116; jax.grad as in C95")
c(118, "proved", "dwork_complex_factor_refuted", "that factor may be any number is refuted for sample_intersect; terms in t and normal form of sympy under their contracts (numbers real, imaginary unit written I)")
on = "sympy's normal form and Poly.diff under their contracts (C28); polynomials without the imaginary unit"
c(119, "proved", "diff_is_derivative diff_of_any_polynomial diff_needs_variable", on)
c(120, "proved", "diff_lowers_degree euler_identity", on)
c(121, "proved", "dwork_derivative fermat_derivative", on + "; real factors")
c(122, "proved", "operation_with_number operation_with_parameter operation_with_variable operation_index_mismatch operation_with_polynomial", on + "; with C32 for two polynomials")
c(123, "proved", "operation_spelling_refuted", "that the symbol becomes a variable is refuted for symbolic calls and derivatives, with witness az_spelling; " + on)
st = "the same sample in every step; H of complex dtype; floats not modelled"
c(124, "proved", "step_raises_determinant step_mean_norm step_lowers_energy complex_log_is_like steps_do_not_cycle", st + "; the logarithm is any function with log x <= x - 1 turning quotients into differences, as that of stdlib R does")
c(125, "proved", "step_keeps_order step_is_not_expanding steps_stay_bounded", st)
c(126, "proved", "balanced_minimises_energy balanced_unique_to_scale balanced_not_unique", st + "; existence and convergence are C128-C130")
c(127, "proved", "sampled_steps sampled_steps_raise_determinant", st + "; as C115")
cr = st + "; the complex numbers over the reals of the standard library, whose axioms it uses"
c(128, "proved", "steps_limit_is_balanced steps_accumulate_only_at_limit steps_converge_to_balanced", cr + " (the first two hold in every closed field, without axioms)")
c(129, "proved", "balanced_bounds_weight balanced_exists_iff_stable stable_steps_converge steps_may_diverge", cr + "; that steps always converge is refuted by steps_may_diverge")
c(130, "proved", "general_position_stable_iff general_position_converges", cr)
c(131, "proved", "sampled_steps_converge", cr + "; as C127")
c(132, "proved", "call_ignores_clashing_refuted sample_ignores_clashing_refuted clash_conic_refuted", "that all parameters are used is refuted, with witness clash_conic; normal form, terms and roots under their contracts (C42)")
c(133, "proved", "sympy_poly_evaluates sympy_poly_keyword_calls sympy_poly_positional_refuted sympy_poly_generators_refuted sympy_poly_given_names sympy_poly_as_expression sympy_poly_indices_need_names", "that the generators are the variables is refuted, with witness z0^2 + zn^2; generators, domain symbols and free symbols of the sympy.Poly are inputs of the model, and the order of a set is any permutation")
c(134, "proved", "short_patch_number short_patch_refuted", "that short patches are harmless is refuted; normal form under its contract")
c(135, "proved", "solve_defining_all dwork_solve_defining fermat_solve_defining", "normal form and terms under their contracts; jnp.roots is assumed to return all roots with multiplicities (roots_exact, satisfied by all_roots_ex)")
c(136, "proved", "ricci_is_hermitian", "over every numClosedFieldType; symmetry of the second derivatives of the sections is a hypothesis")
c(137, "proved", "ricci_from_eta eta_determines_ricci", "over the complex numbers built on the reals of the standard library, pi = PI")
c(138, "proved", "ricci_at_eta_maximum ricci_at_eta_minimum", "over the complex numbers built on the reals of the standard library, pi = PI; extrema are local extrema on the zeros in one patch")
c(139, "proved", "calabi_yau_ricci_signs", "diff_ok is the contract of jax differentiation; patch and dependent coordinate are chosen by the code")
c(140, "proved", "poly_names hom_poly_names hom_poly_scalar", "ASCII names; reserved words are not modelled")
c(141, "proved", "short_point_numpy short_point_jax_refuted full_point_jax", "that short points are rejected is refuted for JAX arrays, whose indexing is modelled by item_clamp (documented behaviour of JAX); index lists without repetition")
c(142, "proved", "hnet_forward_value hnet_powers", "integer powers; the dropout function is arbitrary, weights are given")
c(143, "proved", "hom_to_affine_any_patch affine_to_hom_any_patch affine_hom_affine_any_patch patch_out_of_range_refuted", "that a patch out of range means the same everywhere is refuted")
c(144, "proved", "fubini_algebraic_metric fubini_algebraic_kahler fubini_eta_weight degree_one_metric", "exact arithmetic; the logarithm is only assumed additive on positive products; reduced bases of degree at least that of the equation do not contain all monomials and are not covered")
c(145, "proved", "step_keeps_symmetry steps_keep_symmetry balanced_is_symmetric steps_restore_symmetry step_conjugate", st + "; convergence over the reals of the standard library, with its axioms; linear maps are normalised to determinant of absolute value one where the metric itself (not only up to scale) is compared")
c(146, "proved", "sampled_steps_symmetric sampled_steps_symmetric_limit symmetric_entries_vanish dwork_equation_symmetries full_basis_permuted", st + "; as C127 and C131")
c(147, "proved", "eta_at_moved_point kahler_at_moved_point dwork_eta_symmetric", "diff_ok is the contract of jax differentiation; exact arithmetic")
c(148, "proved", "ricci_at_moved_point", "diff_ok is the contract of jax differentiation; over the reals of the standard library, with its axioms")
c(149, "proved", "conjugate_point conjugate_point_same_eta real_point_real_metric", "diff_ok is the contract of jax differentiation; exact arithmetic; real_hypersurface holds for the Fermat and Dwork varieties and for string equations with real coefficients")
c(150, "proved", "step_keeps_real steps_keep_real balanced_is_real steps_real_limit sampled_steps_keep_real sampled_steps_real_limit", st + "; convergence over the reals of the standard library, with its axioms")
c(151, "proved", "steps_converge_geometrically stable_steps_converge_geometrically sampled_steps_converge_geometrically", cr + " (the first holds in every closed field, without axioms); as C127; the ratio depends on the sample, no explicit value is given")
c(152, "proved", "cholesky_decode_same cholesky_param_unique cholesky_param_bijective", "exact arithmetic; real diagonal as documented")
c(153, "proved", "sigma_of_fubini sigma_of_fubini_zero", "diff_ok is the contract of jax differentiation; exact arithmetic; H as diagonal matrix")
c(154, "proved", "product_positive product_metric product_kahler product_same_metric", "diff_ok is the contract of jax differentiation; full monomial bases; exact arithmetic; log only needs to turn products of positive numbers into sums")
c(155, "proved", "lift_to_multiple_degree", "as C154; H as a matrix")
c(156, "proved", 'sigma_below_variance', 'real closed fields; exact arithmetic; weights with positive mean, as in the code eta real')
c(157, "proved", 'linear_sections linear_metric linear_measures linear_local_metric', 'Stated on the objects of the model on each patch (on_patch), as C88-C91 are.')
c(158, "proved", 'unitary_weight unitary_step', 'Degree equal to the number of coordinates; for other degrees the weights depend on the patch (C90).')
c(159, "proved", 'linear_curvature', 'Over CR (stdlib reals): the complex logarithm is needed for the Ricci tensor.')
c(160, "proved", 'kahler_determines_h kahler_determines_parameters', 'Any logarithm which turns products into sums and is injective on positive numbers; this holds for the complex logarithm (Example complex_log).')
c(161, "proved", 'fubini_unitary fubini_only_invariant', '')
c(162, "proved", 'metric_determines_h', 'Both directions. The equality of the metrics is polarised to independent z and w; logarithmic derivatives of polynomials along lines show that the two polarised potentials differ by a factor a(z) b(w), and degrees show that both are constant.')
c(163, "proved", 'rotation_steps rotation_balanced rotation_limit', 'All unitary symmetries, not just monomial ones (those are C145 and C146). Full monomial basis, whose sections span on a sample only for k below the degree of the variety (C165); C166 has the statement for the reduced basis. The limit uses the classical axioms of the Coq reals.')
c(164, "proved", 'reduced_same_metrics reduced_same_ricci same_metrics_same_sigma', 'reduced_same_metrics and same_metrics_same_sigma over any algebraically closed field with a norm; the curvature over the complex numbers, where eta on the hypersurface determines it.')
c(165, "proved", 'T_invertible_iff T_few_points T_full_basis_singular reduced_independent_iff reduced_independent_line reduced_independent_dwork reduced_independent_fermat T_sample_exists', "T_mean is the matrix inverted by the modelled donaldson_step (C115). The model writes the inverse of a singular matrix as mathcomp's invmx; what LAPACK returns is not modelled. T_sample_exists uses classical logic.")
c(166, "proved", 'rotation_kernel_steps rotation_kernel_balanced rotation_kernel_limit kernel_invariant_norms', 'Contains the case k at least the degree of the variety, which the full basis of C163 excludes. Invariance is stated for pairs of points, because the monomials of the reduced basis are independent only on the hypersurface. The limit uses the classical axioms of the Coq reals.')
c(167, "proved", 'kernel_isometry kernel_curvature invariant_kernel_exists', 'Together with C166 the limit of the Donaldson steps on a sample with a unitary symmetry has metric and curvature with this symmetry. Stated for the objects of the pipeline on a patch (on_patch); C95 to C98 relate them to the methods. kernel_curvature uses the classical axioms of the Coq reals.')
