{
 "claims": [
  {
   "property": "C01",
   "status": "partial",
   "theorems": [
    "C01_hypervolume_is_volume_partial",
    "C01_up_to_three_objectives",
    "C01_four_objectives_nondominated",
    "C01_distinct_coordinates",
    "C01_volume_unique",
    "C01_hypervolume_is_volume_refuted",
    "C01_nondominated_refuted",
    "C01_stable_sort_partial",
    "C01_sorted_input"
   ],
   "note": "True for all inputs up to 3 objectives, for non-dominated sets in 4, and for any number of objectives when ties are harmless; with a stable sort also for every lexicographically sorted input strictly inside the box, whatever the ties (C01_sorted_input). False in general: with ties the skip flags give a wrong value in 4 objectives (dominated set) and in 5 objectives (mutually non-dominated set strictly inside the box): 14 instead of 16."
  },
  {
   "property": "C02",
   "status": "partial",
   "theorems": [
    "C02_set_function_partial",
    "C02_volume_set_function",
    "C02_covered_same_points",
    "C02_covered_extra_point",
    "C02_set_function_refuted"
   ],
   "note": "Proved for the volume in every dimension and for the code on the inputs of C01; with harmful ties in 4 objectives permuting the rows changes the returned value."
  },
  {
   "property": "C03",
   "status": "partial",
   "theorems": [
    "C03_monotone_partial",
    "C03_strict_iff_partial",
    "C03_volume_strict_iff",
    "C03_monotone_refuted"
   ],
   "note": "Proved for the volume in every dimension and for the code on the inputs of C01; with harmful ties in 4 objectives adding a point decreases the returned value."
  },
  {
   "property": "C04",
   "status": "partial",
   "theorems": [
    "C04_affine_partial",
    "C04_objective_permutation_partial",
    "C04_volume_affine",
    "C04_volume_objective_permutation",
    "C04_affine",
    "C04_improvement_affine",
    "C04_objective_permutation_refuted"
   ],
   "note": "Translation and scaling: proved for the code on all inputs above the sentinel (every number of objectives, any ties), for any sort whose result depends only on the order of the entries (C04_affine, C04_improvement_affine). Objective permutation: proved for the volume in every dimension and for the code on the inputs of C01; false in general (C04_objective_permutation_refuted: reversing the five objectives of three mutually non-dominated points changes the returned value from 14 to 16)."
  },
  {
   "property": "C05",
   "status": "partial",
   "theorems": [
    "C05_improvement_partial",
    "C05_diminishing_returns_partial",
    "C05_volume_submodular",
    "C05_improvement_nonnegative_refuted"
   ],
   "note": "Proved for the volume in every dimension and for the code on the inputs of C01; with harmful ties in 4 objectives the improvement can be negative."
  },
  {
   "property": "C06",
   "status": "partial",
   "theorems": [
    "C06_front_gradient_partial",
    "C06_any_points",
    "C06_derivative_unique",
    "C06_front_gradient_refuted",
    "C06_unstable_refuted"
   ],
   "note": "Exact gradient proved for a mutually non-dominated front with 2..4 objectives, with 5 objectives if np.argsort is stable, and for any number of objectives in general position (no equal coordinates); false with six objectives and tied coordinates (C06_front_gradient_refuted), and with five if the sort is not stable (C06_unstable_refuted)."
  },
  {
   "property": "C07",
   "status": "proved",
   "theorems": [
    "C07_full_gradient",
    "C07_full_gradient_ties"
   ],
   "note": "compute_gradient in objective space equals the true two-sided derivative for every point set in general position; with ties (entries whose coordinate is not shared) up to four objectives, and five if np.argsort is stable."
  },
  {
   "property": "C08",
   "status": "partial",
   "theorems": [
    "C08_outside_points_partial",
    "C08_true_derivative_zero",
    "C08_outside_points_refuted",
    "C08_two_objectives_refuted"
   ],
   "note": "Points not below the reference point : entry k is proved zero when some other coordinate l is outside, and equal to the slope when coordinate k is inside; the entry of the outside coordinate itself can be non-zero (refuted with concrete runs)."
  },
  {
   "property": "C09",
   "status": "partial",
   "theorems": [
    "C09_hessian_partial",
    "C09_hessian_unique",
    "C09_hessian_refuted",
    "C09_unstable_refuted"
   ],
   "note": "Exact Hessian for 2..5 objectives in general position, and for 6 if np.argsort is stable (false for an unstable sort, C09_unstable_refuted); false for eight objectives (concrete run), 7 objectives are open."
  },
  {
   "property": "C10",
   "status": "proved",
   "theorems": [
    "C10_chain_rule",
    "C10_no_other_jacobian",
    "C10_hessian_symmetric"
   ],
   "note": "Block assembly identities for all callbacks."
  },
  {
   "property": "C11",
   "status": "partial",
   "theorems": [
    "C11_consistent_partial",
    "C11_consistent_refuted"
   ],
   "note": "Holds when minimising; false when maximising because a given Y is not negated (concrete run 1 vs 0)."
  },
  {
   "property": "C12",
   "status": "proved",
   "theorems": [
    "C12_fronts_are_pareto_ranks",
    "C12_decisions_per_front",
    "C12_front_mutually_nondominated"
   ],
   "note": "Real-number semantics; full divide-and-conquer model; front = peeled Pareto front and longest chain length."
  },
  {
   "property": "C13",
   "status": "proved",
   "theorems": [
    "C13_partition",
    "C13_terminates"
   ],
   "note": "Exact cover, contiguous numbering, duplicates together; fuel never exhausted for any input."
  },
  {
   "property": "C14",
   "status": "proved",
   "theorems": [
    "C14_is_dominate_iff",
    "C14_is_dominate_total",
    "C14_is_dominate_strict_order"
   ],
   "note": ""
  },
  {
   "property": "C15",
   "status": "proved",
   "theorems": [
    "C15_get_non_dominated_iff"
   ],
   "note": "np.isclose is an arbitrary parameter (not used on the weak branch)."
  },
  {
   "property": "C16",
   "status": "partial",
   "theorems": [
    "C16_complete_refuted",
    "C16_all_equal_refuted",
    "C16_complete_partial"
   ],
   "note": "The property is violated by duplicated rows (refuted with witness); proved for pairwise different rows."
  },
  {
   "property": "C17",
   "status": "proved",
   "theorems": [
    "C17_reflects_into_box",
    "C17_unique",
    "C17_idempotent",
    "C17_periodic_reflection",
    "C17_equal_bounds_refuted"
   ],
   "note": "Exact reflection for lb < ub; with lb = ub the code returns NaN (C17_equal_bounds_refuted, outside the property)."
  },
  {
   "property": "C18",
   "status": "partial",
   "theorems": [
    "C18_rows_partial",
    "C18_rows_refuted"
   ],
   "note": "Row-wise for n <> d; false for n = d, where bounds are applied to the wrong axis (concrete witness)."
  },
  {
   "property": "C19",
   "status": "proved",
   "theorems": [
    "C19_pack_unpack",
    "C19_unpack_pack"
   ],
   "note": "All shapes and ragged masks."
  },
  {
   "property": "C20",
   "status": "proved",
   "theorems": [
    "C20_update_one_is_update",
    "C20_other_rows",
    "C20_without_gradient_refuted"
   ],
   "note": "Callback batch methods are assumed to work row by row (rowwise_all); same data or same exception. After update(compute_gradient=False) update_one raises TypeError (C20_without_gradient_refuted), outside the claim. Integer dtypes are not modelled."
  },
  {
   "property": "C21",
   "status": "proved",
   "theorems": [
    "C21_counters"
   ],
   "note": "Histories in which no call raised."
  },
  {
   "property": "C22",
   "status": "proved",
   "theorems": [
    "C22_active_and_feasible",
    "C22_feasible_active_set"
   ],
   "note": "For every state reached by update/update_one."
  },
  {
   "property": "C23",
   "status": "partial",
   "theorems": [
    "C23_save_always_fails",
    "C23_save_load_refuted",
    "C23_load_name_refuted",
    "C23_load_partial"
   ],
   "note": "False of the code: save always raises KeyError (deletes _jac, the attribute is jac) after truncating the file, and load omits the .pkl extension. Only the reading back of a file given by its full name is true (C23_load_partial)."
  },
  {
   "property": "C24",
   "status": "proved",
   "theorems": [
    "C24_slice_commutes",
    "C24_slice_counters"
   ],
   "note": "Non-empty index arrays; that the original is untouched is the value semantics of the model (the code deep-copies)."
  },
  {
   "property": "C25",
   "status": "proved",
   "theorems": [
    "C25_line_search",
    "C25_finite",
    "C25_success"
   ],
   "note": "every merit function, values may be infinite or NaN; no rounding"
  },
  {
   "property": "C26",
   "status": "partial",
   "theorems": [
    "C26_untested_step_refuted",
    "C26_untested_step_partial"
   ],
   "note": "false of the code: after six failures the untested step max/64 is returned; the partial theorem says this is the only case"
  },
  {
   "property": "C27",
   "status": "proved",
   "theorems": [
    "C27_step_limit"
   ],
   "note": ""
  },
  {
   "property": "C28",
   "status": "partial",
   "theorems": [
    "C28_zero_step_refuted",
    "C28_defined_partial"
   ],
   "note": "false of the code: a zero step raises ValueError; the partial theorem characterises exactly when a value is returned"
  },
  {
   "property": "C29",
   "status": "proved",
   "theorems": [
    "C29_box_safe"
   ],
   "note": ""
  },
  {
   "property": "C30",
   "status": "partial",
   "theorems": [
    "C30_projection_partial",
    "C30_corner_refuted"
   ],
   "note": "holds if all other coordinates are strictly inside; false at corners, where argmin picks the NaN of another face"
  },
  {
   "property": "C31",
   "status": "proved",
   "theorems": [
    "C31_line_search",
    "C31_stays_in_box",
    "C31_negligible_step_refuted"
   ],
   "note": "the last theorem: when all components are negligible the step size 1 ignores the maximal step and can leave the box"
  },
  {
   "property": "C32",
   "status": "partial",
   "theorems": [
    "C32_duplicates",
    "C32_population",
    "C32_eps_without_effect",
    "C32_tolerance_refuted"
   ],
   "note": "proved for the tolerance 1e-8 the code in effect uses; for the requested tolerance self.eps it is false, since it is only used as relative tolerance of 0"
  },
  {
   "property": "C33",
   "status": "proved",
   "theorems": [
    "C33_layers"
   ],
   "note": "at least two objectives"
  },
  {
   "property": "C34",
   "status": "proved",
   "theorems": [
    "C34_exact_iterations",
    "C34_exceptions",
    "C34_unlimited"
   ],
   "note": ""
  },
  {
   "property": "C35",
   "status": "partial",
   "theorems": [
    "C35_resume_refuted",
    "C35_no_resume_partial"
   ],
   "note": "false of the code: stop_dict keeps its entry, no further iteration is performed"
  },
  {
   "property": "C36",
   "status": "proved",
   "theorems": [
    "C36_match_consistent",
    "C36_no_rematch",
    "C36_shifts",
    "C36_shift_unmatched",
    "C36_match_total"
   ],
   "note": "assignment solver and k-medoids are oracles whose answers are assumed right; user-supplied Y_idx must be a partition"
  },
  {
   "property": "C37",
   "status": "proved",
   "theorems": [
    "C37_one_to_one"
   ],
   "note": "also minimal total distance"
  },
  {
   "property": "C38",
   "status": "partial",
   "theorems": [
    "C38_components_partial",
    "C38_components_refuted"
   ],
   "note": "holds for as many clusters as components; false for fewer, because the chosen row indices are discarded"
  },
  {
   "property": "C39",
   "status": "proved",
   "theorems": [
    "C39_gd_value",
    "C39_gd_gradient",
    "C39_negative_exponent"
   ],
   "note": "any exponent p > 0; distance positive, or p >= 2 (for p < 2 at distance zero the code computes inf * 0)"
  },
  {
   "property": "C40",
   "status": "partial",
   "theorems": [
    "C40_gd_hessian_partial",
    "C40_gd_hessian_general",
    "C40_gd_hessian_refuted"
   ],
   "note": "true for p = 2; false for other exponents: the term with the curvature of the objectives lacks the factor |d|^(p-2) (C40_gd_hessian_general states what is returned and what is right)"
  },
  {
   "property": "C41",
   "status": "partial",
   "theorems": [
    "C41_igd_value",
    "C41_igd_derivatives_partial",
    "C41_igd_matching_partial",
    "C41_igd_matching_hessian_partial",
    "C41_igd_matching_refuted"
   ],
   "note": "true without matching (p = 2, gradient and Hessian); with matching the gradient and Hessian are N times the derivatives of the value compute() returns (false claim, refuted for N = 2)"
  },
  {
   "property": "C42",
   "status": "proved",
   "theorems": [
    "C42_igd_cells"
   ],
   "note": ""
  },
  {
   "property": "C43",
   "status": "proved",
   "theorems": [
    "C43_value",
    "C43_symmetric",
    "C43_permutation",
    "C43_zero"
   ],
   "note": "kernel means modelled over R; symmetric kernels hypothesis only where needed; the indicator is the squared MMD"
  },
  {
   "property": "C44",
   "status": "partial",
   "theorems": [
    "C44_unchanged_beta_partial",
    "C44_first_call_partial",
    "C44_later_calls",
    "C44_current_beta_refuted",
    "C61_mmdm_value",
    "C44_history_partial",
    "C44_history_hessian"
   ],
   "note": "compute always uses the current beta; the jitted derivatives are compiled per input shape and keep the beta of the first call, so the claim is false after beta changes (refuted with the change made in bootstrap.py); true for histories that keep beta, and for the first call of a shape"
  },
  {
   "property": "C45",
   "status": "proved",
   "theorems": [
    "C45_lattice",
    "C45_given_partitions",
    "C45_directions",
    "C45_one_objective"
   ],
   "note": ""
  },
  {
   "property": "C46",
   "status": "proved",
   "theorems": [
    "C46_dtlz1_sum",
    "C46_sphere",
    "C46_distance",
    "C46_dtlz1_front",
    "C46_dtlz234_front",
    "C46_fronts_returned"
   ],
   "note": "Over the reals. The distance statement needs n_obj <= n_var + 1 (see C66)."
  },
  {
   "property": "C47",
   "status": "proved",
   "theorems": [
    "C47_boundary",
    "C47_created"
   ],
   "note": ""
  },
  {
   "property": "C48",
   "status": "partial",
   "theorems": [
    "C48_succeeds_partial",
    "C48_stored",
    "C48_errors",
    "C48_nan_refuted"
   ],
   "note": "xl <= xu everywhere is not enforced for NaN bounds, which are accepted (refuted). The iff is proved with 'no lower bound greater than its upper bound'."
  },
  {
   "property": "C49",
   "status": "partial",
   "theorems": [
    "C49_estimates_partial",
    "C49_succeeds",
    "C49_deletions",
    "C49_delete_rows",
    "C49_exclusive_refuted",
    "C49_weights",
    "C49_compiled_refuted"
   ],
   "note": "Counting identities, deletion sequences and weights proved with the samples as a parameter, for the functions as written and n_exclusive=1. Refuted for n_exclusive=2 (deletion inconsistent with recomputation) and for the functions compiled by jax, whose tracing fails. Missing: floating point."
  },
  {
   "property": "C50",
   "status": "proved",
   "theorems": [
    "C50_survive",
    "C50_size",
    "C50_removal",
    "C50_no_number"
   ],
   "note": "Fronts and contributions are oracles; the fronts are disjoint (proved of the sorting in C12-C15), one contribution per remaining point."
  },
  {
   "property": "C51",
   "status": "proved",
   "theorems": [
    "C51_shifted",
    "C51_positive_definite",
    "C51_enough_trials"
   ],
   "note": "The Cholesky routine is a parameter; the hypothesis chol_ok says what is assumed of it."
  },
  {
   "property": "C52",
   "status": "partial",
   "theorems": [
    "C52_step",
    "C52_sequence_partial",
    "C52_initial",
    "C52_initial_refuted",
    "C52_stale_refuted"
   ],
   "note": "Proved after the first operation that succeeds and with both functions given; refuted for the initial value and when an operation raises or the contribution function is missing."
  },
  {
   "property": "C53",
   "status": "partial",
   "theorems": [
    "C53_count_partial",
    "C53_error",
    "C53_single",
    "C53_succeeds",
    "C53_on_path",
    "C53_no_extent_refuted",
    "C53_objectives_refuted",
    "C53_count_refuted",
    "C53_small_share_refuted"
   ],
   "note": "The number of points is the sum of the rounded shares, exact for one component, off by at most half the number of components; refuted in general: two components of equal length give one point too many, a small share raises IndexError, no extent ValueError, other than two objectives UnboundLocalError. DBSCAN labels and argsort are oracles (argsort any permutation)."
  },
  {
   "property": "C54",
   "status": "proved",
   "theorems": [
    "C54_restored",
    "C54_context",
    "C54_exception",
    "C54_bound",
    "C54_rejected",
    "C54_registry"
   ],
   "note": "Import machinery, class lookup and constructors are oracles that do not switch the backend themselves; the previously active backend can be activated again."
  },
  {
   "property": "C55",
   "status": "proved",
   "theorems": [
    "C55_eps",
    "C55_monotone",
    "C55_other_cases",
    "C55_next",
    "C55_next_ends"
   ],
   "note": "The generation step of pymoo is an oracle that advances the generation counter by at most one."
  },
  {
   "property": "C56",
   "status": "proved",
   "theorems": [
    "C56_rows_of_input",
    "C56_dropped_only_close",
    "C56_isolated_kept",
    "C56_representative_refuted",
    "C56_outliers"
   ],
   "note": "LocalOutlierFactor is a parameter. Additional finding: no copy of a duplicated row is kept."
  },
  {
   "property": "C57",
   "status": "proved",
   "theorems": [
    "C57_one_bound_per_variable"
   ],
   "note": ""
  },
  {
   "property": "C58",
   "status": "proved",
   "theorems": [
    "C58_true_gradient"
   ],
   "note": "Any number of objectives >= 2, general position."
  },
  {
   "property": "C59",
   "status": "partial",
   "theorems": [
    "C59_true_hessian_partial",
    "C59_true_hessian_refuted"
   ],
   "note": "Two to five objectives, and six if np.argsort is stable; false for eight (C59_true_hessian_refuted: five points in general position, an entry is -1008 instead of -1080), seven are open."
  },
  {
   "property": "C60",
   "status": "proved",
   "theorems": [
    "C60_check_KKT",
    "C60_errors"
   ],
   "note": "The answer of scipy.optimize.linprog to the program posed is assumed feasible and optimal (lp_answer)."
  },
  {
   "property": "C61",
   "status": "partial",
   "theorems": [
    "C61_mmd_gradient_partial",
    "C61_mmdm_gradient_partial",
    "C61_mmdm_value",
    "C61_rbf_ok",
    "C61_rational_quadratic_ok",
    "C61_laplace_ok",
    "C61_mmd_gradient_refuted"
   ],
   "note": "for all smooth objectives and symmetric kernels with constant k(y,y), hence the three shipped kernels (Laplace where the coordinates differ); refuted for kernels with non-constant diagonal (linear kernel). For matching: the matching of that call is held fixed, beta is the compiled one (C44)"
  },
  {
   "property": "C62",
   "status": "partial",
   "theorems": [
    "C62_mmd_hessian_partial",
    "C62_mmdm_hessian_partial",
    "C62_shipped_kernels",
    "C62_smooth_kernels",
    "C62_mmd_hessian_refuted"
   ],
   "note": "as C61, for kernels whose mixed derivative is unchanged when the points are swapped (all shipped ones); refuted otherwise because the off-diagonal blocks are transposed"
  },
  {
   "property": "C63",
   "status": "partial",
   "theorems": [
    "C63_rows",
    "C63_transposed_partial",
    "C63_transposed_refuted"
   ],
   "note": "true unless the number of points equals the number of variables, refuted for square matrices"
  },
  {
   "property": "C64",
   "status": "partial",
   "theorems": [
    "C64_no_rematch_partial",
    "C64_rearranged_partial",
    "C64_trial_refuted"
   ],
   "note": "false: the flag cleared is the indicator's, while the reference set consults its own; unchanged if the reference set's own flag is off, and with one component the targets are only rearranged"
  },
  {
   "property": "C65",
   "status": "partial",
   "theorems": [
    "C65_distance_zero_partial",
    "C65_dtlz6_distance",
    "C65_dtlz6_pareto_set_refuted"
   ],
   "note": "Proved for DTLZ1-5 (optimum 1/2); refuted for DTLZ6, whose distance is bounded below by k/1000 because of the cap 1e-30 under the tenth root."
  },
  {
   "property": "C66",
   "status": "partial",
   "theorems": [
    "C66_length_partial",
    "C66_length_refuted"
   ],
   "note": "Holds for n_obj <= n_var + 1, refuted otherwise; the constructor does not check it."
  },
  {
   "property": "C67",
   "status": "partial",
   "theorems": [
    "C67_idtlz1_front_partial",
    "C67_idtlz2_dominated",
    "C67_idtlz2_front_refuted",
    "C67_eq_constraint",
    "C67_eq1dtlz1_front_refuted",
    "C67_inverted_sphere",
    "C67_inverted_front_dominated",
    "C67_inverted_front_refuted",
    "C67_constrained_partial",
    "C67_constrained_infeasible",
    "C67_constrained_refuted"
   ],
   "note": "Proved for IDTLZ1. IDTLZ2-4: a reported vector is always attained, and optimal exactly if the entries of the underlying point of the unit sphere add up to at least 2; so with two or three objectives every reported vector is dominated (refuted). All eight problems with the equality constraint report a vector no feasible vector attains, for every number of objectives (inverted sphere problems: two to four); reported vectors that are attained by feasible vectors are optimal."
  },
  {
   "property": "C68",
   "status": "proved",
   "theorems": [
    "C68_tournament",
    "C68_all",
    "C68_shape"
   ],
   "note": "Coin flips are a parameter stream."
  },
  {
   "property": "C69",
   "status": "partial",
   "theorems": [
    "C69_advance_partial",
    "C69_boundary",
    "C69_no_infills_refuted"
   ],
   "note": "Size and membership of the new population proved for a feasible population given sorting and contribution oracles; refuted without offspring (UnboundLocalError). Missing: the filter of infeasible individuals in pymoo."
  },
  {
   "property": "C70",
   "status": "proved",
   "theorems": [
    "C70_replacement",
    "C70_total"
   ],
   "note": "Real arithmetic."
  },
  {
   "property": "C71",
   "status": "proved",
   "theorems": [
    "C71_residual",
    "C71_unconstrained",
    "C71_zero_iff",
    "C72_dpn"
   ],
   "note": "The R of DpN is the second component in C72_dpn."
  },
  {
   "property": "C72",
   "status": "proved",
   "theorems": [
    "C72_hvn",
    "C72_hvn_unconstrained",
    "C72_mmd",
    "C72_mmd_unconstrained",
    "C72_dpn",
    "C72_dpn_unconstrained"
   ],
   "note": "Over the reals; solve and lstsq are parameters constrained by solve_ok and lstsq_ok, which StepSolver.v realises. If the system has no solution nothing is said about the step beyond its shape."
  },
  {
   "property": "C73",
   "status": "partial",
   "theorems": [
    "C73_hvn_merit",
    "C73_dpn_merit",
    "C73_mmd_merit_affine",
    "C73_mmd_merit_refuted"
   ],
   "note": "Proved for HVN and DpN without preconditioning and for MMDNewton with affine active constraints; refuted for MMDNewton in general: it omits the constraint Hessians and the norm of R can increase along its step."
  },
  {
   "property": "C74",
   "status": "proved",
   "theorems": [
    "C74_hvn_exact",
    "C74_mmd_exact",
    "C74_dpn_exact"
   ],
   "note": "Exact arithmetic; full step, no preconditioning."
  },
  {
   "property": "C75",
   "status": "proved",
   "theorems": [
    "C75_hvn_ascends",
    "C75_mmd_descends",
    "C75_dpn_descends"
   ],
   "note": "Cholesky is a parameter with chol_ok and chol_complete; the negative curvature must be within reach of the 45 trial shifts (C51)."
  },
  {
   "property": "C76",
   "status": "proved",
   "theorems": [
    "C76_hvn_fixed",
    "C76_mmd_fixed",
    "C76_dpn_fixed"
   ],
   "note": ""
  },
  {
   "property": "C77",
   "status": "proved",
   "theorems": [
    "C77_iterate"
   ],
   "note": "The step and the line search of a layer are parameters (C72, C28)."
  },
  {
   "property": "C78",
   "status": "partial",
   "theorems": [
    "C78_zdt2",
    "C78_zdt1_zdt4",
    "C78_zdt1_zdt4_refuted",
    "C78_zdt1_set",
    "C78_zdt3_partial",
    "C78_zdt3_front",
    "C78_zdt3_refuted",
    "C78_zdt6",
    "C78_zdt6_refuted",
    "C183_exact",
    "C181_optimal_refuted"
   ],
   "note": "ZDT2 exact. ZDT1/ZDT4: the exact front is given; the reported vector (0, 1) is not optimal because of the floor 1e-12 in the code (refuted), all reported vectors with a larger first objective are. ZDT3: the exact front is the set of successive minima of one function; the first reported vector is dominated (refuted); the other reported vectors are such minima unless they are within 1e-8 of an end of one of the five intervals (C183), three of the ends are not (C181). ZDT6: exact front; the reported curve is not attained by any point (refuted), since the floor 1e-12 under the power 1/4 makes g at least 1.009."
  },
  {
   "property": "C79",
   "status": "proved",
   "theorems": [
    "C79_uf1_uf2_uf3",
    "C79_uf4",
    "C79_uf5",
    "C79_uf6",
    "C79_uf7"
   ],
   "note": "Fronts exact for every dimension; UF5 reports all optimal vectors, UF6 exactly the optimal ones of the sampled line."
  },
  {
   "property": "C80",
   "status": "proved",
   "theorems": [
    "C80_uf8_uf10",
    "C80_uf9"
   ],
   "note": "Fronts exact; reported vectors from get_ref_dirs (property C45)."
  },
  {
   "property": "C81",
   "status": "partial",
   "theorems": [
    "C81_cf1",
    "C81_cf1_refuted",
    "C81_cf2",
    "C81_cf3",
    "C81_cf4_cf5",
    "C81_cf6_cf7"
   ],
   "note": "Fronts exact for all even dimensions; reported vectors optimal for CF2-CF7. CF1: refuted, the code reports the whole line although only 21 of its vectors are attained by feasible points. CF2 never reports the optimal vector (0, 1)."
  },
  {
   "property": "C82",
   "status": "partial",
   "theorems": [
    "C82_cf8",
    "C82_cf8_refuted",
    "C82_cf9_cf10",
    "C82_cf9_reported",
    "C82_cf9_tolerance_refuted"
   ],
   "note": "Fronts exact. CF8: refuted, the second column of the reported front is 1 throughout (np.max over the whole column instead of an entrywise maximum). CF9/CF10: reported vectors are optimal unless the first objective lies in (0, 1e-5] or the third is 1; refuted inside that tolerance."
  },
  {
   "property": "C83",
   "status": "partial",
   "theorems": [
    "C83_even",
    "C83_odd_refuted"
   ],
   "note": "Holds for even numbers of variables; for odd ones the second group contains an index out of range and the last variable is in no group (refuted)."
  },
  {
   "property": "C84",
   "status": "proved",
   "theorems": [
    "C84_wfg4_to_wfg9_front",
    "C84_wfg4_to_wfg9_reported"
   ],
   "note": "All six problems, one theorem for the front and one for the reported front."
  },
  {
   "property": "C85",
   "status": "proved",
   "theorems": [
    "C85_wfg1_front",
    "C85_wfg1_reported"
   ],
   "note": ""
  },
  {
   "property": "C86",
   "status": "proved",
   "theorems": [
    "C86_wfg2_front",
    "C86_wfg2_reported_refuted"
   ],
   "note": "The exact front is proved. The reported front contains a dominated vector whenever the number of position parameters per group is even (refuted), in particular for the default parameters: the rows of zeros and ones reach the coordinate 1/2 and nothing filters them."
  },
  {
   "property": "C87",
   "status": "proved",
   "theorems": [
    "C87_wfg3_curve",
    "C87_wfg3_reported",
    "C87_wfg3_two_objectives",
    "C87_wfg3_more_objectives_refuted"
   ],
   "note": "Reported vectors are optimal. The curve is the whole front for two objectives; for three or more it is not (refuted, for all parameters): some point is not weakly dominated by any vector of the curve."
  },
  {
   "property": "C88",
   "status": "proved",
   "theorems": [
    "C88_wfg_parameters",
    "C88_wfg_defaults",
    "C88_wfg_reported_feasible"
   ],
   "note": ""
  },
  {
   "property": "C89",
   "status": "proved",
   "theorems": [
    "C89_conv3_front",
    "C89_conv3_reported"
   ],
   "note": "rows of random numbers are a parameter; a row of zeros (0/0) is excluded"
  },
  {
   "property": "C90",
   "status": "proved",
   "theorems": [
    "C90_conv4_front",
    "C90_conv4_reported",
    "C90_conv4_2f_front",
    "C90_conv4_2f_reported",
    "C90_corner_refuted",
    "C90_conv4_2f_sizes",
    "C90_conv4_2f_size_one_refuted"
   ],
   "note": "false for a draw with a single positive weight (the shifted corner is reported unshifted and is dominated), and the number is 2 for N = 1"
  },
  {
   "property": "C91",
   "status": "proved",
   "theorems": [
    "C91_dent_front",
    "C91_dent_reported"
   ],
   "note": "reported vectors for boxes containing [-2, 2]"
  },
  {
   "property": "C92",
   "status": "proved",
   "theorems": [
    "C92_disconnected_feasible",
    "C92_disconnected_front",
    "C92_disconnected_gap",
    "C92_disconnected_box",
    "C92_disconnected_box_bounds"
   ],
   "note": "get_pareto_front of the class returns None"
  },
  {
   "property": "C93",
   "status": "proved",
   "theorems": [
    "C93_modified_optimal",
    "C93_modified_dominates",
    "C93_modified_sum",
    "C93_modified_all_optimal_refuted"
   ],
   "note": "the converse (optimal vectors stay optimal) is refuted"
  },
  {
   "property": "C94",
   "status": "proved",
   "theorems": [
    "C94_iteration",
    "C94_smallest"
   ],
   "note": ""
  },
  {
   "property": "C95",
   "status": "proved",
   "theorems": [
    "C95_scaled_sum",
    "C95_two_objectives",
    "C95_three_objectives_refuted",
    "C95_blocked_refuted"
   ],
   "note": "false for three objectives, and false once an entry of the step is set to 0 at the boundary"
  },
  {
   "property": "C96",
   "status": "proved",
   "theorems": [
    "C96_zero_gradient",
    "C96_first_point",
    "C96_nan_stays"
   ],
   "note": "the set of surviving indices is enumerated in increasing order in C96_first_point"
  },
  {
   "property": "C97",
   "status": "proved",
   "theorems": [
    "C97_run",
    "C97_initial_given",
    "C97_initial_random"
   ],
   "note": ""
  },
  {
   "property": "C98",
   "status": "partial",
   "theorems": [
    "C98_unit",
    "C98_two",
    "C98_one_sign_partial",
    "C98_normal_refuted"
   ],
   "note": "length and sign always; orthogonality always for two objectives; for more only if the normals have entries of one sign, refuted otherwise"
  },
  {
   "property": "C99",
   "status": "proved",
   "theorems": [
    "C99_dpn_shift",
    "C99_docstring_refuted"
   ],
   "note": "the docstring, which asks for a step that is not zero, is refuted"
  },
  {
   "property": "C100",
   "status": "proved",
   "theorems": [
    "C100_mmd_shift",
    "C100_own_target_refuted",
    "C100_unmatched",
    "C100_unmatched_refuted",
    "C100_unmatched_error"
   ],
   "note": "\"close to its matched target\" (docstring) is refuted, also that only targets of close points move if matching=False"
  },
  {
   "property": "C101",
   "status": "partial",
   "theorems": [
    "C101_deltap",
    "C101_logged_refuted",
    "C101_mmd_step",
    "C101_armijo_refuted",
    "C101_box_refuted"
   ],
   "note": "the decrease holds for steps whose primal entries are all above 2e-8 (or all below -2e-8); steps with median 0 are taken untested (refuted); the box handler returns at once, so points leave the box (refuted); for types gd and igd the logged value differs (refuted)"
  },
  {
   "property": "C102",
   "status": "proved",
   "theorems": [
    "C102_rematched",
    "C102_permuted",
    "C102_kept_refuted"
   ],
   "note": "that the targets are kept, as the code intends by re_match = False, is refuted with a trial in which one point moves"
  },
  {
   "property": "C103",
   "status": "proved",
   "theorems": [
    "C103_data",
    "C103_type_error",
    "C103_evaluate",
    "C103_total",
    "C103_feasible"
   ],
   "note": "a problem is a record of callbacks that may raise"
  },
  {
   "property": "C104",
   "status": "proved",
   "theorems": [
    "C104_accepted",
    "C104_values",
    "C104_counts",
    "C104_feasible",
    "C104_elementwise_refuted",
    "C104_only_values"
   ],
   "note": "refuted for elementwise problems, which get a matrix instead of a vector: a problem with one objective is accepted and returns two numbers"
  },
  {
   "property": "C105",
   "status": "proved",
   "theorems": [
    "C105_same",
    "C105_and_back",
    "C105_there_and_back_refuted"
   ],
   "note": "refuted for the other direction: the adapter of every problem is rejected with a TypeError, since np.atleast_2d cannot be traced"
  },
  {
   "property": "C106",
   "status": "proved",
   "theorems": [
    "C106_run",
    "C106_rounds",
    "C106_beta",
    "C106_errors",
    "C106_no_weight"
   ],
   "note": "max_iters inf, max_iters 0, interval 0, too few iterations and indicators without beta end in TypeError, ValueError, ZeroDivisionError, UnboundLocalError and AttributeError"
  },
  {
   "property": "C107",
   "status": "proved",
   "theorems": [
    "C107_relax",
    "C107_tradeoff",
    "C107_efficient",
    "C107_converse_refuted",
    "C107_targets"
   ],
   "note": "the converse of efficiency is refuted by a dominance resistant point, as intended by the code"
  },
  {
   "property": "C108",
   "status": "proved",
   "theorems": [
    "C108_rows",
    "C108_size",
    "C108_last_population_refuted",
    "C108_duplicates_refuted"
   ],
   "note": "the population after the last iteration is not among the recorded ones (refuted with one that is better than everything returned); a population of two equal points ends the run with an IndexError"
  },
  {
   "property": "C109",
   "status": "proved",
   "theorems": [
    "C109_pareto_set",
    "C109_rows",
    "C109_dtlz6_rows",
    "C109_dtlz6_three"
   ],
   "note": "real numbers; for DTLZ5 and, beyond three objectives, DTLZ6 only that the rows are optimal (more is false, see C110)"
  },
  {
   "property": "C110",
   "status": "partial",
   "theorems": [
    "C110_front_three",
    "C110_weakly_dominated",
    "C110_four_objectives_refuted"
   ],
   "note": "refuted for four objectives: a vector with distance 1 is not weakly dominated by the objective values of any row of get_pareto_set, so these miss a part of the front"
  },
  {
   "property": "C111",
   "status": "partial",
   "theorems": [
    "C111_objectives",
    "C111_pareto_set",
    "C111_rows_refuted"
   ],
   "note": "the last claim is refuted: get_pareto_set draws all position variables, among them 1/2, which is dominated by 0"
  },
  {
   "property": "C112",
   "status": "proved",
   "theorems": [
    "C112_population",
    "C112_history",
    "C112_run"
   ],
   "note": "real numbers; the metrics of the user and the logger are not modelled"
  },
  {
   "property": "C113",
   "status": "proved",
   "theorems": [
    "C113_in_box",
    "C113_margin",
    "C113_refuted"
   ],
   "note": "refuted: that the populations always stay in the box; if all components of the step are within 1e-8 the line search is skipped and the full step taken"
  },
  {
   "property": "C114",
   "status": "proved",
   "theorems": [
    "C114_iteration",
    "C114_total"
   ],
   "note": "counts of the composed model"
  },
  {
   "property": "C115",
   "status": "proved",
   "theorems": [
    "C115_previous",
    "C115_current_refuted"
   ],
   "note": "real numbers; composed model of the whole iteration (IterModel); hypotheses on the external routines: oracles_ok; refuted: that history_indicator_value[j] is the value of history_Y[j], for either reference set"
  },
  {
   "property": "C116",
   "status": "proved",
   "theorems": [
    "C116_residual",
    "C116_units",
    "C116_larger_refuted"
   ],
   "note": "real numbers; composed model of the whole iteration (IterModel); hypotheses on the external routines: oracles_ok; refuted: that deltap minimises the larger of the two root mean square distances (GD has a root, IGD has none)"
  },
  {
   "property": "C117",
   "status": "proved",
   "theorems": [
    "C117_iterations",
    "C117_run"
   ],
   "note": "real numbers; composed model of the whole iteration (IterModel); hypotheses on the external routines: oracles_ok; one component of the reference set"
  },
  {
   "property": "C118",
   "status": "proved",
   "theorems": [
    "C118_affine"
   ],
   "note": "real numbers; composed model of the whole iteration (IterModel); hypotheses on the external routines: oracles_ok"
  },
  {
   "property": "C119",
   "status": "proved",
   "theorems": [
    "C119_gd_descent"
   ],
   "note": "real numbers; composed model of the whole iteration (IterModel); hypotheses on the external routines: oracles_ok"
  },
  {
   "property": "C120",
   "status": "proved",
   "theorems": [
    "C120_population",
    "C120_iteration",
    "C120_history",
    "C120_run"
   ],
   "note": "real numbers; composed model of the whole iteration (HvnModel); hypotheses on the external routines: hvn_posed; the metrics of the user and the logger are not modelled"
  },
  {
   "property": "C121",
   "status": "proved",
   "theorems": [
    "C121_in_box",
    "C121_margin",
    "C121_stall",
    "C121_still",
    "C121_stuck",
    "C121_stuck_refuted",
    "C121_refuted"
   ],
   "note": "real numbers; composed model of the whole iteration (HvnModel); hypotheses on the external routines: hvn_posed; refuted: that populations stay in the box with the default arguments, and that a run with limit_max_step_size improves a population that is not optimal"
  },
  {
   "property": "C122",
   "status": "proved",
   "theorems": [
    "C122_value",
    "C122_refuted"
   ],
   "note": "real numbers; composed model of the whole iteration (HvnModel); hypotheses on the external routines: hvn_posed; refuted: that the value stored with a population is its hypervolume"
  },
  {
   "property": "C123",
   "status": "proved",
   "theorems": [
    "C123_total",
    "C123_run",
    "C123_error",
    "C123_refuted"
   ],
   "note": "real numbers; composed model of the whole iteration (HvnModel); hypotheses on the external routines: hvn_posed; refuted: that iterations with limit_max_step_size never raise (the minimum of an empty array when all steps are zero)"
  },
  {
   "property": "C124",
   "status": "proved",
   "theorems": [
    "C124_merit"
   ],
   "note": "real numbers; composed model of the whole iteration (HvnModel); hypotheses on the external routines: hvn_posed"
  },
  {
   "property": "C125",
   "status": "proved",
   "theorems": [
    "C125_raises",
    "C125_only"
   ],
   "note": "real numbers; composed model of the whole iteration (HvnModel); hypotheses on the external routines: hvn_posed"
  },
  {
   "property": "C126",
   "status": "proved",
   "theorems": [
    "C126_even",
    "C126_stay"
   ],
   "note": "real numbers; composed model of the whole iteration (HvnModel); hypotheses on the external routines: hvn_posed"
  },
  {
   "property": "C127",
   "status": "proved",
   "theorems": [
    "C127_optimal"
   ],
   "note": "real numbers; composed model of the whole iteration (HvnModel); hypotheses on the external routines: hvn_posed"
  },
  {
   "property": "C128",
   "status": "proved",
   "theorems": [
    "C128_population",
    "C128_history",
    "C128_run"
   ],
   "note": "real numbers; composed model of the whole iteration (MnModel); hypotheses on the external routines: mn_posed; the metrics of the user and the logger are not modelled"
  },
  {
   "property": "C129",
   "status": "proved",
   "theorems": [
    "C129_previous",
    "C129_current_refuted"
   ],
   "note": "real numbers; composed model of the whole iteration (MnModel); hypotheses on the external routines: mn_posed; refuted: that the value recorded with a population is its discrepancy"
  },
  {
   "property": "C130",
   "status": "proved",
   "theorems": [
    "C130_iterations",
    "C130_run",
    "C130_small_error"
   ],
   "note": "real numbers; composed model of the whole iteration (MnModel); hypotheses on the external routines: mn_posed"
  },
  {
   "property": "C131",
   "status": "proved",
   "theorems": [
    "C131_matched",
    "C131_unmatched"
   ],
   "note": "real numbers; composed model of the whole iteration (MnModel); hypotheses on the external routines: mn_posed"
  },
  {
   "property": "C132",
   "status": "proved",
   "theorems": [
    "C132_njac"
   ],
   "note": "real numbers; composed model of the whole iteration (MnModel); hypotheses on the external routines: mn_posed"
  },
  {
   "property": "C133",
   "status": "proved",
   "theorems": [
    "C133_merit"
   ],
   "note": "real numbers; composed model of the whole iteration (MnModel); hypotheses on the external routines: mn_posed; mn_smooth"
  },
  {
   "property": "C134",
   "status": "proved",
   "theorems": [
    "C134_newton"
   ],
   "note": "real numbers; composed model of the whole iteration (MnModel); hypotheses on the external routines: mn_posed; mn_smooth; with preconditioning the Hessian is replaced by its preconditioned version (C29); second derivatives of the constraints are dropped as in the code"
  },
  {
   "property": "C135",
   "status": "proved",
   "theorems": [
    "C135_initial",
    "C135_bounds_unused",
    "C135_box_refuted"
   ],
   "note": "real numbers; composed model of the whole iteration (MnModel); hypotheses on the external routines: mn_posed; refuted: that the populations stay in the box"
  },
  {
   "property": "C136",
   "status": "proved",
   "theorems": [
    "C136_step",
    "C136_away",
    "C136_near",
    "C136_tracks"
   ],
   "note": "real numbers; composed model of the whole iteration (MnModel); hypotheses on the external routines: mn_posed; without preconditioning; theta at most 10^15 for the divergence"
  },
  {
   "property": "C137",
   "status": "proved",
   "theorems": [
    "C137_population",
    "C137_groups"
   ],
   "note": "tables as pd.read_csv returns them, with integer labels; hypothesis on random.sample: sample_ok (rows at 3000 different positions)"
  },
  {
   "property": "C138",
   "status": "proved",
   "theorems": [
    "C138_fits",
    "C138_merged"
   ],
   "note": "tables as pd.read_csv returns them, with integer labels; hypothesis on random.sample: sample_ok (rows at 3000 different positions)"
  },
  {
   "property": "C139",
   "status": "partial",
   "theorems": [
    "C139_kept_partial",
    "C139_kept_refuted"
   ],
   "note": "tables as pd.read_csv returns them, with integer labels; hypothesis on random.sample: sample_ok (rows at 3000 different positions); refuted: that as many points are kept as there are reference points"
  },
  {
   "property": "C140",
   "status": "proved",
   "theorems": [
    "C140_reference",
    "C140_size"
   ],
   "note": "tables as pd.read_csv returns them, with integer labels; hypothesis on random.sample: sample_ok (rows at 3000 different positions)"
  },
  {
   "property": "C141",
   "status": "partial",
   "theorems": [
    "C141_succeeds_partial",
    "C141_directions",
    "C141_none",
    "C141_missing_refuted"
   ],
   "note": "tables as pd.read_csv returns them, with integer labels; hypothesis on random.sample: sample_ok (rows at 3000 different positions); refuted: that a missing direction is filled in or dropped (TypeError and KeyError in the handler)"
  },
  {
   "property": "C142",
   "status": "partial",
   "theorems": [
    "C142_keys",
    "C142_match",
    "C142_keys_refuted"
   ],
   "note": "tables as pd.read_csv returns them, with integer labels; hypothesis on random.sample: sample_ok (rows at 3000 different positions); matching under the hypotheses of C36; refuted: that the keys always start at 0"
  },
  {
   "property": "C143",
   "status": "partial",
   "theorems": [
    "C143_curve",
    "C143_index",
    "C143_above",
    "C143_below_refuted"
   ],
   "note": "refuted: that parameters below 0 are rejected"
  },
  {
   "property": "C144",
   "status": "partial",
   "theorems": [
    "C144_derivatives_partial",
    "C144_jacobian_refuted",
    "C144_newton"
   ],
   "note": "refuted: that the Jacobian is the derivative"
  },
  {
   "property": "C145",
   "status": "partial",
   "theorems": [
    "C145_inside",
    "C145_ends",
    "C145_interior_refuted"
   ],
   "note": "the curve of a piece (scipy) is a parameter; refuted: that they are right at interior ends"
  },
  {
   "property": "C146",
   "status": "partial",
   "theorems": [
    "C146_same",
    "C146_index_partial",
    "C146_start_refuted"
   ],
   "note": "refuted: that small positive parameters are answered by the first piece"
  },
  {
   "property": "C147",
   "status": "partial",
   "theorems": [
    "C147_value",
    "C147_derivatives",
    "C147_below",
    "C147_right_end",
    "C147_jump_refuted"
   ],
   "note": "the csv files of coefficients are not in the repository; refuted: continuity at the last break"
  },
  {
   "property": "C148",
   "status": "partial",
   "theorems": [
    "C148_right",
    "C148_scaled_partial",
    "C148_scaled_refuted"
   ],
   "note": "refuted: that the gradient in scaled coordinates is right"
  },
  {
   "property": "C149",
   "status": "proved",
   "theorems": [
    "C149_cleared"
   ],
   "note": ""
  },
  {
   "property": "C150",
   "status": "partial",
   "theorems": [
    "C150_nearest",
    "C150_sound",
    "C150_complete_partial",
    "C150_complete_refuted"
   ],
   "note": "refuted: that all points of the union satisfy the constraint"
  },
  {
   "property": "C151",
   "status": "partial",
   "theorems": [
    "C151_features",
    "C151_forward_partial",
    "C151_degree_refuted"
   ],
   "note": "one row of a batch; refuted: that forward succeeds for every degree"
  },
  {
   "property": "C152",
   "status": "partial",
   "theorems": [
    "C152_optimal",
    "C152_redundant",
    "C152_reported_partial",
    "C152_convex_refuted",
    "C152_feasible_sets",
    "C152_constraint_values"
   ],
   "note": "refuted: that the rows reported for the convex front are feasible"
  },
  {
   "property": "C153",
   "status": "proved",
   "theorems": [
    "C153_pareto_set",
    "C153_derivatives",
    "C153_constrained"
   ],
   "note": ""
  },
  {
   "property": "C154",
   "status": "proved",
   "theorems": [
    "C154_points",
    "C154_clusters",
    "C154_error"
   ],
   "note": "labels and centres (KMeans) are parameters; hypothesis on random.sample: picks"
  },
  {
   "property": "C155",
   "status": "partial",
   "theorems": [
    "C155_counts",
    "C155_equal_refuted",
    "C155_hvss_independent",
    "C155_hvss_wins_partial",
    "C155_hvss_wins_refuted"
   ],
   "note": "decisions of the test (scipy, statsmodels) are a parameter; refuted: equal medians, and that rejections are wins in the HVSS table"
  },
  {
   "property": "C156",
   "status": "partial",
   "theorems": [
    "C156_round_trip",
    "C156_dropped",
    "C156_no_degree",
    "C156_header_refuted",
    "C156_blanks",
    "C156_strip",
    "C156_padding",
    "C156_lower"
   ],
   "note": "float and int(float) are parameters; ASCII characters; refuted: that the header is skipped after empty lines"
  },
  {
   "property": "C157",
   "status": "partial",
   "theorems": [
    "C157_directions_partial",
    "C157_defined",
    "C157_moead_refuted",
    "C157_saved",
    "C157_infeasible_refuted",
    "C157_wrapped"
   ],
   "note": "numbers of directions of pymoo by the binomial coefficient; refuted: MOEA/D with 4 objectives, no feasible point"
  },
  {
   "property": "C158",
   "status": "proved",
   "theorems": [
    "C158_monotone",
    "C158_nondominated",
    "C158_outside",
    "C158_ends"
   ],
   "note": "B-spline with knots of full multiplicity as Bernstein polynomial"
  },
  {
   "property": "C159",
   "status": "partial",
   "theorems": [
    "C159_best",
    "C159_archive",
    "C159_distinct_refuted"
   ],
   "note": "refuted: that different points are selected"
  },
  {
   "property": "C160",
   "status": "partial",
   "theorems": [
    "C160_minimax",
    "C160_nearest_refuted"
   ],
   "note": "refuted: that points are put into the nearest cluster"
  },
  {
   "property": "C161",
   "status": "proved",
   "theorems": [
    "C161_two_objectives",
    "C161_three_objectives"
   ],
   "note": "real arithmetic"
  },
  {
   "property": "C162",
   "status": "partial",
   "theorems": [
    "C162_two_objectives",
    "C162_three_objectives",
    "C162_constraints_of_objectives",
    "C162_constraints_of_variables",
    "C162_cf4_partial",
    "C162_cf4_refuted"
   ],
   "note": "real arithmetic; refuted for CF4; the vectors with f3^2 = 1 are excluded for the constraints of CF8-CF10"
  },
  {
   "property": "C163",
   "status": "proved",
   "theorems": [
    "C163_zdt"
   ],
   "note": "real arithmetic; what the floor breaks is C78"
  },
  {
   "property": "C164",
   "status": "proved",
   "theorems": [
    "C164_dtlz"
   ],
   "note": "real arithmetic"
  },
  {
   "property": "C165",
   "status": "proved",
   "theorems": [
    "C165_wfg",
    "C165_default_bounds",
    "C165_correction"
   ],
   "note": "real arithmetic; the corrections to [0,1] have no effect"
  },
  {
   "property": "C166",
   "status": "proved",
   "theorems": [
    "C166_curves",
    "C166_gaps",
    "C166_cf2_optimal",
    "C166_zdt3",
    "C166_cf8"
   ],
   "note": "real arithmetic"
  },
  {
   "property": "C167",
   "status": "proved",
   "theorems": [
    "C167_dominate",
    "C167_fronts",
    "C167_decisions",
    "C167_get_non_dominated",
    "C167_dominate_nan",
    "C167_nan_refuted"
   ],
   "note": "no rounding is assumed away here: the generic model is instantiated at Flocq binary64"
  },
  {
   "property": "C168",
   "status": "proved",
   "theorems": [
    "C168_exact_on_grid",
    "C168_integers"
   ],
   "note": "the generic model is run on Flocq binary64 with rounding to nearest even; one to three objectives"
  },
  {
   "property": "C169",
   "status": "proved",
   "theorems": [
    "C169_relative_error",
    "C169_monotone_refuted"
   ],
   "note": "relative error, so small hypervolumes are computed accurately too; the refuted part concerns rounding noise only"
  },
  {
   "property": "C170",
   "status": "proved",
   "theorems": [
    "C170_gradient_rounded",
    "C170_gradient_grid",
    "C170_gradient_error"
   ],
   "note": "the generic model compute_HVdY is run on Flocq binary64 with rounding to nearest even; the interval is the same for all objectives"
  },
  {
   "property": "C171",
   "status": "proved",
   "theorems": [
    "C171_hessian_rounded",
    "C171_hessian_grid",
    "C171_hessian_error"
   ],
   "note": "the generic model compute_HVdY2 is run on Flocq binary64 with rounding to nearest even; the interval is the same for all objectives"
  },
  {
   "property": "C172",
   "status": "proved",
   "theorems": [
    "C172_wrappers",
    "C172_true_derivatives",
    "C172_objective_gradient",
    "C172_agree",
    "C172_dictionary"
   ],
   "note": "autograd is a parameter with the hypotheses jacobian_ok and hessian_ok (functions with these properties exist: AJ0_ok, AH0_ok); the analytic Hessian is wrong for eight objectives (C09), hence the bound in C172_agree"
  },
  {
   "property": "C173",
   "status": "partial",
   "theorems": [
    "C173_before_first_call_partial",
    "C173_frozen_reference",
    "C173_reference_refuted"
   ],
   "note": "refuted: with reference point (10, 10) and then (10, 20) an entry is -5 instead of -15"
  },
  {
   "property": "C174",
   "status": "proved",
   "theorems": [
    "C174_in_box",
    "C174_affine",
    "C174_every_point",
    "C174_assertions",
    "C174_otherwise",
    "C174_hvn",
    "C174_dpn",
    "C174_mmd",
    "C174_counts",
    "C174_scalar_array"
   ],
   "note": "the random numbers are parameters; a bound that is NaN is not modelled"
  },
  {
   "property": "C175",
   "status": "proved",
   "theorems": [
    "C175_in_box",
    "C175_wide",
    "C175_half_open_refuted",
    "C175_wide_refuted"
   ],
   "note": "holds although width and product are rounded: a width that was rounded up is normal, and its predecessor is not above the exact width"
  },
  {
   "property": "C176",
   "status": "proved",
   "theorems": [
    "C176_neighbourhood",
    "C176_setup",
    "C176_own",
    "C176_own_refuted"
   ],
   "note": "argsort is a parameter that returns a sorting permutation; the defaults of pymoo are parameters; negative n_neighbors is not modelled"
  },
  {
   "property": "C177",
   "status": "proved",
   "theorems": [
    "C177_replace",
    "C177_monotone",
    "C177_decreasing"
   ],
   "note": "the decomposition is a parameter; n_neighbors is positive; when the ideal point or the tolerance changes between offspring the values are not comparable"
  },
  {
   "property": "C178",
   "status": "proved",
   "theorems": [
    "C178_new",
    "C178_append",
    "C178_extend",
    "C178_extend_appends",
    "C178_length",
    "C178_show",
    "C178_endless"
   ],
   "note": "strings of the cargo are not modelled, the visited nodes are; the loops carry fuel, any value from the length of the list on is enough; a node is appended at most once to a list"
  },
  {
   "property": "C179",
   "status": "proved",
   "theorems": [
    "C179_remove",
    "C179_undo",
    "C179_order_refuted"
   ],
   "note": "the nodes carry points with at least as many coordinates as the index of the call"
  },
  {
   "property": "C180",
   "status": "proved",
   "theorems": [
    "C180_flat",
    "C180_flat_front",
    "C180_linear",
    "C180_curve",
    "C180_reference",
    "C180_overlap",
    "C180_front_refuted"
   ],
   "note": "exact arithmetic; the derivatives that JAX computes are parameters"
  },
  {
   "property": "C181",
   "status": "proved",
   "theorems": [
    "C181_blocks",
    "C181_front_refuted",
    "C181_optimal_refuted"
   ],
   "note": "exact arithmetic; bounds of PI, sine, cosine and roots come from the series of the standard library"
  },
  {
   "property": "C182",
   "status": "proved",
   "theorems": [
    "C182_missing_refuted"
   ],
   "note": "exact arithmetic"
  },
  {
   "property": "C183",
   "status": "proved",
   "theorems": [
    "C183_inside",
    "C183_around",
    "C183_reported",
    "C183_exact",
    "C183_covered"
   ],
   "note": "exact arithmetic; bounds of PI, sine, cosine and roots come from the series of the standard library"
  },
  {
   "property": "C184",
   "status": "proved",
   "theorems": [
    "C184_derivatives",
    "C184_constraint_derivatives",
    "C184_hull",
    "C184_sphere",
    "C184_plane",
    "C184_rows_refuted",
    "C184_hvn_refuted"
   ],
   "note": "real arithmetic; refuted: that the sampled points of 3D_example2 are Pareto-optimal"
  },
  {
   "property": "C185",
   "status": "proved",
   "theorems": [
    "C185_eqcon",
    "C185_eqcon_set",
    "C185_concave",
    "C185_convex",
    "C185_derivatives"
   ],
   "note": "real arithmetic"
  },
  {
   "property": "C186",
   "status": "proved",
   "theorems": [
    "C186_asserted",
    "C186_true"
   ],
   "note": "exact arithmetic"
  },
  {
   "property": "C187",
   "status": "proved",
   "theorems": [
    "C187_sorted",
    "C187_preimage",
    "C187_local_refuted",
    "C187_reference",
    "C187_negative_refuted"
   ],
   "note": "real arithmetic; argsort and minimize_scalar are parameters; refuted: that the bounded (local) search recovers the points, and that the reference point is valid for negative objectives"
  },
  {
   "property": "C188",
   "status": "proved",
   "theorems": [
    "C188_binding",
    "C188_calls_refuted",
    "C188_x0_refuted",
    "C188_mmdnewton"
   ],
   "note": "the table of calls is transcribed from the texts; refuted: that the calls in the examples and scripts bind"
  },
  {
   "property": "C189",
   "status": "proved",
   "theorems": [
    "C189_counts",
    "C189_third_refuted",
    "C189_failed_refuted",
    "C189_all_failed_refuted"
   ],
   "note": "real arithmetic; mannwhitneyu and multipletests are parameters; refuted: that the third comparison reports its own tests and that failed runs do not improve the table"
  }
 ]
}
