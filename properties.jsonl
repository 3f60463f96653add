{"id": "C01", "title": "hypervolume() returns the volume of the dominated region", "statement": "hypervolume(pointset, ref) equals the volume of the union of the boxes [p, ref] over the points p that weakly dominate ref, for exact arithmetic: dominated points, duplicates, ties in any coordinate, points outside the reference box and the (unspecified) tie order of the internal sort never change the answer, and the caching / skipping tricks of the dimension sweep are invisible.", "quantifier": "for every finite list of points, every number of objectives d >= 1, every reference point, every tie-breaking behaviour of argsort (shifted coordinates above the -1e308 sentinel)", "why_tests_cant": "the algorithm shares mutable linked lists, cached partial areas and skip flags across recursion levels; bugs show up only for particular orders/ties in >= 4 dimensions and unit tests check a handful of 2-D/3-D fronts", "anchors": ["hvd/hypervolume.py: hypervolume, HyperVolume.compute, HyperVolume.hvRecursive, MultiList.remove, MultiList.reinsert"]}
{"id": "C02", "title": "hypervolume is a set function: order, duplicates and dominated points are irrelevant", "statement": "The returned hypervolume is unchanged by permuting the rows, repeating a row, appending a point weakly dominated by another one, or appending a point that does not dominate the reference point.", "quantifier": "for every point list, permutation, dominated/outside point and dimension", "why_tests_cant": "an infinite family of equalities between pairs of runs", "anchors": ["hvd/hypervolume.py: hypervolume"]}
{"id": "C03", "title": "hypervolume is monotone, and improves strictly exactly for useful points", "statement": "Adding a point never decreases the hypervolume; it increases it strictly if and only if the point is strictly better than the reference point in every objective and is not weakly dominated by a point of the set.", "quantifier": "for every point list, new point, reference point and dimension", "why_tests_cant": "strict Pareto compliance is a universally quantified iff over real vectors", "anchors": ["hvd/hypervolume.py: hypervolume", "hvd/hypervolume_derivatives.py: hypervolume_improvement"]}
{"id": "C04", "title": "hypervolume transforms correctly under translation, scaling and objective permutation", "statement": "Translating points and reference point together leaves the hypervolume unchanged; scaling objective k of everything by c > 0 multiplies it by c; permuting the objectives of everything leaves it unchanged.", "quantifier": "for every point list, reference point, translation vector, factor and coordinate permutation", "why_tests_cant": "relates pairs of executions over all inputs", "anchors": ["hvd/hypervolume.py: HyperVolume.compute"]}
{"id": "C05", "title": "hypervolume improvement has diminishing returns", "statement": "hypervolume_improvement(x, P, ref) is non-negative, is 0 if x is weakly dominated by P, and does not increase when P is enlarged (submodularity).", "quantifier": "for all x, P subset Q, ref, all dimensions", "why_tests_cant": "inequality between executions on nested sets, all dimensions", "anchors": ["hvd/hypervolume_derivatives.py: hypervolume_improvement"]}
{"id": "C06", "title": "The hypervolume gradient in objective space is the exact partial derivative", "statement": "For points strictly better than the reference point, hypervolume_dY on a mutually non-dominated set is, entry by entry, the exact left partial derivative of the hypervolume w.r.t. that coordinate, and the two-sided partial derivative whenever no other point shares that coordinate value (the hypervolume is exactly affine in the coordinate on the interval between neighbouring values).", "quantifier": "for every number of points, every number of objectives >= 2, every mutually non-dominated point set with distinct rows inside the reference box", "why_tests_cant": "tests compare a few matrices with finite differences/automatic differentiation at sampled fronts", "anchors": ["hvd/hypervolume_derivatives.py: HypervolumeDerivatives.hypervolume_dY, _project"]}
{"id": "C07", "title": "Full gradient: dominated points get zero and the rest the derivative of the whole set's hypervolume", "statement": "_compute_gradient returns for an arbitrary (not necessarily non-dominated) set in general position inside the reference box the exact gradient of hypervolume(Y) of the whole set: rows of dominated points are zero, rows of non-dominated points are the derivative, all entries are <= 0.", "quantifier": "for every Y in general position (distinct values per objective) inside the reference box, all N and n_obj >= 2", "why_tests_cant": "interaction of non-dominated sorting, projection and recursion for all sizes", "anchors": ["hvd/hypervolume_derivatives.py: _compute_gradient, hypervolume_dY, objective_points"]}
{"id": "C08", "title": "Points outside the reference box have zero hypervolume gradient", "statement": "A point that does not dominate the reference point contributes nothing to the hypervolume in a neighbourhood, so its gradient row should be zero (and it should not disturb the gradient of the other points), for every number of objectives.", "quantifier": "for every point set containing such points, n_obj >= 2", "why_tests_cant": "tests place every point inside the reference box", "anchors": ["hvd/hypervolume_derivatives.py: hypervolume_dY (2D branch)"]}
{"id": "C09", "title": "The hypervolume Hessian in objective space is the exact second derivative", "statement": "In general position and inside the reference box, the entry of HVdY2 in row (j,l), column (i,k) is the exact derivative of the k-th gradient component of point i w.r.t. the l-th coordinate of point j; the gradient component is exactly affine in that coordinate nearby.", "quantifier": "for every N, n_obj >= 2 and Y in general position inside the reference box", "why_tests_cant": "tests compare a few matrices for N<=6 in 2-4 objectives", "anchors": ["hvd/hypervolume_derivatives.py: _compute_hessian"]}
{"id": "C10", "title": "Decision-space derivatives obey the chain rule and the Hessian is symmetric", "statement": "HVdX is HVdY multiplied by the block-diagonal Jacobian, i.e. row i of the gradient is the sum over objectives of HVdY[i,k] * dY_i^k/dX_i and involves no other point's Jacobian; the returned HVdX2 is always a symmetric matrix.", "quantifier": "for every Jacobian/Hessian callback output, N, n_var, n_obj", "why_tests_cant": "block assembly identities for every shape", "anchors": ["hvd/hypervolume_derivatives.py: _compute_gradient, _compute_hessian, _compute_objective_derivatives"]}
{"id": "C11", "title": "Maximisation mode is consistent between X- and Y-based evaluation", "statement": "With minimization=False, compute(X) equals compute(Y=func(X)): passing objective values explicitly instead of letting the object evaluate them must not change the result.", "quantifier": "for every objective function, decision set and reference point", "why_tests_cant": "tests only use the default minimization=True", "anchors": ["hvd/hypervolume_derivatives.py: HypervolumeDerivatives.__init__, compute"]}
{"id": "C12", "title": "non_domin_sort returns exactly the Pareto ranks", "statement": "non_domin_sort puts point i in front number r where r is the length of the longest chain of points dominating one another and ending in i (front 0 = the non-dominated points; every point of front r > 0 is dominated by a point of front r-1; no point dominates another one of its own front).", "quantifier": "for every list of points, any number of points, ties and duplicates, any number of objectives >= 2", "why_tests_cant": "the divide-and-conquer recursion (median splits, two sweeps, merges) has many branches reachable only for special tie patterns in >= 3 objectives", "anchors": ["hvd/utils.py: non_domin_sort, _nd_helper_a, _nd_helper_b, _sweep_a, _sweep_b, _split_by, _merge"]}
{"id": "C13", "title": "non_domin_sort partitions the input and terminates", "statement": "Every input index occurs in exactly one front, in the front of its objective vector (duplicates together); the front numbers are contiguous from 0; the recursion terminates for every input.", "quantifier": "for every list of points with >= 2 objectives", "why_tests_cant": "termination and exact cover for all sizes and tie patterns", "anchors": ["hvd/utils.py: non_domin_sort, _nd_helper_a, _nd_helper_b"]}
{"id": "C14", "title": "is_dominate is Pareto dominance", "statement": "is_dominate(a,b) holds iff a is <= b everywhere and < somewhere; hence it is irreflexive, asymmetric and transitive.", "quantifier": "for all vectors of equal length", "why_tests_cant": "universal law over all vectors", "anchors": ["hvd/utils.py: is_dominate"]}
{"id": "C15", "title": "get_non_dominated returns the points no other row weakly dominates", "statement": "With the default weakly_dominated=True an index is returned iff no other row is <= it in every objective; indices come in increasing order.", "quantifier": "for all point matrices", "why_tests_cant": "iff over all matrices including ties", "anchors": ["hvd/utils.py: get_non_dominated"]}
{"id": "C16", "title": "get_non_dominated represents every non-dominated objective vector", "statement": "The returned set is a complete Pareto front: every row of the input is weakly dominated by some returned row (in particular the result is non-empty for non-empty input, and duplicates keep a representative).", "quantifier": "for all point matrices", "why_tests_cant": "fails only for duplicated rows, which random tests never produce", "anchors": ["hvd/utils.py: get_non_dominated"]}
{"id": "C17", "title": "handle_box_constraint maps every point into the box and fixes points of the box", "statement": "For finite lb < ub, every returned coordinate lies in [lb, ub]; a point inside [lb, ub) (and on ub) is returned unchanged; coordinates with a non-finite bound are returned unchanged; the map is idempotent and is the reflection with period 2(ub-lb).", "quantifier": "for all real vectors and boxes with lb < ub", "why_tests_cant": "property of a floor/mod formula over all reals", "anchors": ["hvd/utils.py: handle_box_constraint"]}
{"id": "C18", "title": "handle_box_constraint treats each row of a population as one point, for every population size", "statement": "For a population matrix of shape (n, d) every row is reflected with the bounds of its own coordinates (as for n != d), whatever n is.", "quantifier": "for every n and d", "why_tests_cant": "only the coincidence n == d misbehaves", "anchors": ["hvd/utils.py: handle_box_constraint"]}
{"id": "C19", "title": "Vector/matrix packing of primal-dual variables is lossless", "statement": "Nd_vector_to_matrix(matrix_to_Nd_vector(X, p, A), N, dim, p, A) returns X on primal and active dual entries and zero on inactive dual entries; conversely packing an unpacked vector returns the vector.", "quantifier": "for every N, dimension split and active-set mask (also different numbers of active constraints per row)", "why_tests_cant": "index arithmetic over ragged masks of all shapes", "anchors": ["hvd/utils.py: matrix_to_Nd_vector, Nd_vector_to_matrix"]}
{"id": "C20", "title": "State.update_one(x,k) agrees with a full update of the modified population", "statement": "After update(X), update_one(x,k) leaves the state (points, objectives, Jacobians, constraint values, active sets, constraint derivatives) exactly as update(X with row k replaced by x) would, and touches no other row.", "quantifier": "for all callbacks given point-wise, populations, rows and constraint configurations", "why_tests_cant": "relates two code paths (batched and single point) for every state", "anchors": ["hvd/base.py: State.update, State.update_one, State.evaluate, State.eval_cstr"]}
{"id": "C21", "title": "Evaluation counters count evaluated points", "statement": "After any sequence of update/update_one calls the Jacobian-evaluation counter equals the total number of points for which Jacobians were requested (and likewise the constraint counters, which stay 0 without constraint Jacobians/Hessians).", "quantifier": "for every sequence of operations", "why_tests_cant": "invariant over all histories", "anchors": ["hvd/base.py: State.eval_jac, eval_cstr_jac, eval_cstr_hess, update, update_one"]}
{"id": "C22", "title": "Active set and feasibility are consistent", "statement": "A point reported feasible has |h| <= 1e-4 and every inequality < -1e-4, its active set consists of exactly the equality constraints, and equality constraints are always active.", "quantifier": "for all constraint values", "why_tests_cant": "iff over all reals incl. tolerance boundaries", "anchors": ["hvd/base.py: State.eval_cstr, State.is_feasible"]}
{"id": "C23", "title": "A saved state can be loaded back", "statement": "save(filename) succeeds for every state produced by the constructor and updates, and load(filename) afterwards returns a state with the same data.", "quantifier": "for every state and file system", "why_tests_cant": "no test calls save", "anchors": ["hvd/base.py: State.save, State.load"]}
{"id": "C24", "title": "Slicing a state commutes with evaluation", "statement": "state[idx] after update(X) carries the same population-level data as a state updated with X[idx], and the original state is not modified.", "quantifier": "for all states, index lists", "why_tests_cant": "relation between two histories", "anchors": ["hvd/base.py: State.__getitem__"]}
{"id": "C25", "title": "Backtracking line search returns an accepted step or a documented fallback", "statement": "The returned step size is max_step * 2^-k for some 0 <= k <= 6; if k <= 5 the merit function satisfied the sufficient-decrease condition at that step (or the initial residual is negligible) and all larger trial steps failed; the objective is evaluated at most 6 times.", "quantifier": "for every merit function, residual and maximal step", "why_tests_cant": "higher-order quantification over merit functions", "anchors": ["hvd/line_search.py: backtracking_line_search"]}
{"id": "C26", "title": "The line search never returns an untested step", "statement": "Whatever step size is returned, the merit function has been evaluated at it and it does not increase the merit beyond the accepted bound.", "quantifier": "for every merit function", "why_tests_cant": "fails only when all six trials fail", "anchors": ["hvd/line_search.py: backtracking_line_search"]}
{"id": "C27", "title": "Step limiting keeps HVN iterates strictly inside the box", "statement": "With limit_max_step_size on, X inside the box and a non-zero step, X + s*step stays in the box for every 0 <= s <= returned max step; starting strictly inside, iterates stay strictly inside.", "quantifier": "for all populations, steps, boxes", "why_tests_cant": "inequality for all reals", "anchors": ["hvd/newton.py: HVN._compute_max_step_size"]}
{"id": "C28", "title": "Step limiting is defined for every step", "statement": "HVN._compute_max_step_size returns a value for every population and step, in particular for a zero step (a converged population).", "quantifier": "for all populations and steps", "why_tests_cant": "only a fully converged step triggers the error", "anchors": ["hvd/newton.py: HVN._compute_max_step_size"]}
{"id": "C29", "title": "DpN's box handler never lets a point leave the box", "statement": "For points in the box, after DpN._handle_box_constraint the point X + s*step stays in the box for every 0 <= s <= max_step_size, for every Newton step.", "quantifier": "for all points of the box, steps, dimensions", "why_tests_cant": "all boundary patterns (including 0/0 = nan handling)", "anchors": ["hvd/newton.py: DpN._handle_box_constraint"]}
{"id": "C30", "title": "DpN's box handler projects a blocked step", "statement": "If a point sits on a face and the Newton step points out of the box through that face only, the handler removes that component and the point can move along the remaining components (positive maximal step).", "quantifier": "for all points and steps", "why_tests_cant": "depends on nan ordering in argmin", "anchors": ["hvd/newton.py: DpN._handle_box_constraint"]}
{"id": "C31", "title": "DpN's line search keeps the step within the allowed fraction", "statement": "For every merit function each returned step size lies in [0.4^8, 1] times the maximal step size of that point (when some component of the step is non-negligible), so box feasibility is preserved; every further trial shrinks the step by a factor between 0.4 and 0.6.", "quantifier": "for every merit function (including ones producing nan interpolation)", "why_tests_cant": "quantifies over all merit functions", "anchors": ["hvd/newton.py: DpN._backtracking_line_search"]}
{"id": "C32", "title": "Duplicate removal keeps a separated, covering, non-empty sub-population", "statement": "HVN._check_population keeps at least one point, never keeps two points closer than the tolerance, drops a point only if a kept point is within tolerance, and does not otherwise alter points.", "quantifier": "for every symmetric distance matrix/population", "why_tests_cant": "greedy removal order over all populations", "anchors": ["hvd/newton.py: HVN._check_population"]}
{"id": "C33", "title": "HVN's layers cover every individual exactly once", "statement": "In HVN.iterate the index sets for which Newton steps are computed are disjoint and cover the whole population for every feasibility pattern; infeasible points are always in layer 0; a feasible point of layer r has Pareto rank r among the feasible points.", "quantifier": "for all populations and feasibility masks", "why_tests_cant": "all masks and fronts", "anchors": ["hvd/newton.py: HVN.iterate"]}
{"id": "C34", "title": "Optimiser runs stop after exactly max_iters iterations", "statement": "run() on a fresh HVN/DpN/MMDNewton performs exactly max_iters iterations for finite max_iters (0 if max_iters <= 0), histories have that many entries, stop_dict reports the iteration count.", "quantifier": "for every iteration body that does not touch the counter, every max_iters", "why_tests_cant": "history invariant for all max_iters", "anchors": ["hvd/newton.py: HVN.run, HVN.terminate, HVN.log, DpN.run", "hvd/mmd_newton.py: MMDNewton.run"]}
{"id": "C35", "title": "A finished optimiser can be resumed with a larger budget", "statement": "After run() has returned, raising max_iters and calling run() again performs the additional iterations.", "quantifier": "for all budgets", "why_tests_cant": "needs two run() calls on the same object", "anchors": ["hvd/newton.py: HVN.terminate, DpN.terminate"]}
{"id": "C36", "title": "Reference-set bookkeeping stays consistent under match and shift", "statement": "After match(Y), for every approximation point k the medoid stored for its component/position equals the matched reference row k; shift(c, idx) adds c*eta of the component to exactly the rows idx (once per occurrence), changes no other row, and preserves that consistency.", "quantifier": "for every sequence of shifts after a match", "why_tests_cant": "invariant over all histories of calls", "anchors": ["hvd/reference_set.py: ReferenceSet.match, shift, set_medoids"]}
{"id": "C37", "title": "Matching is one-to-one onto the medoids", "statement": "match assigns every approximation point a medoid of its component and uses every medoid exactly once (the matched rows are a permutation of the medoids), for any optimal-assignment result.", "quantifier": "for every result of the assignment solver that is a permutation", "why_tests_cant": "all sizes", "anchors": ["hvd/reference_set.py: ReferenceSet._match, match"]}
{"id": "C38", "title": "Components are matched to the right clusters", "statement": "Each cluster of Y is matched to the reference component the assignment solver chose for it, for every number of clusters not exceeding the number of components.", "quantifier": "for all cost matrices with m <= n", "why_tests_cant": "tests use equally many clusters and components", "anchors": ["hvd/reference_set.py: ReferenceSet._match_components, match"]}
{"id": "C39", "title": "GD gradient is the derivative of GD^p", "statement": "For any p (even p >= 2) and points with a unique nearest reference point at positive distance, the returned gradient is the derivative of GD(Y(X))^p w.r.t. the decision variables.", "quantifier": "for all differentiable objectives, populations, reference sets", "why_tests_cant": "derivative identity over all inputs", "anchors": ["hvd/delta_p.py: GenerationalDistance.compute, compute_derivatives"]}
{"id": "C40", "title": "GD Hessian is the second derivative of GD^p for every p", "statement": "The returned Hessian blocks equal the second derivative of GD^p for every p for which the class accepts input.", "quantifier": "for all p, populations", "why_tests_cant": "tests use p=2 only", "anchors": ["hvd/delta_p.py: GenerationalDistance.compute_derivatives"]}
{"id": "C41", "title": "IGD gradient is the derivative of the indicator IGD reports", "statement": "Without matching and p=2 the gradient is the derivative of IGD^2; with matching it is the derivative of the value compute() returns.", "quantifier": "for all populations and reference sets", "why_tests_cant": "constant factors depend on N", "anchors": ["hvd/delta_p.py: InvertedGenerationalDistance.compute, compute_derivatives"]}
{"id": "C42", "title": "IGD cells partition the reference set", "statement": "Every reference point is counted in exactly one cell, that of a nearest approximation point; the counts m sum to the number of reference points.", "quantifier": "for all point sets", "why_tests_cant": "all tie patterns", "anchors": ["hvd/delta_p.py: InvertedGenerationalDistance._compute_indices"]}
{"id": "C43", "title": "MMD vanishes on equal multisets and is symmetric", "statement": "For a symmetric kernel, MMD(Y, ref) = MMD(ref, Y) and it is 0 when Y is a permutation of ref; it is invariant under permuting Y.", "quantifier": "for all kernels and point lists", "why_tests_cant": "all sizes", "anchors": ["hvd/mmd.py: MMD.compute"]}
{"id": "C44", "title": "MMD gradient uses the current kernel parameter", "statement": "After changing the kernel parameter beta of an indicator, both compute() and the derivatives use the new beta.", "quantifier": "for all histories of parameter changes and evaluations", "why_tests_cant": "needs a second evaluation with the same shape after changing beta", "anchors": ["hvd/mmd.py: MMD", "hvd/bootstrap.py"]}
{"id": "C45", "title": "Das-Dennis reference directions form the simplex lattice", "statement": "get_ref_dirs returns distinct non-negative directions summing to 1, exactly C(p+m-1, m-1) of them for the number p of partitions used, p being the smallest number of partitions that yields at least the requested number of points.", "quantifier": "for every number of objectives >= 2 and every requested size", "why_tests_cant": "recursive enumeration for all m, p", "anchors": ["hvd/problems/utils.py: get_ref_dirs"]}
{"id": "C46", "title": "DTLZ objective identities and Pareto fronts", "statement": "For every decision vector DTLZ1 objectives sum to 0.5(1+g) and DTLZ2-4 objectives lie on the sphere of radius 1+g with g >= 0 (so no objective vector dominates the reported Pareto front surface), with equality g=0 exactly at the optimal distance variables.", "quantifier": "for all decision vectors, n_obj, n_var", "why_tests_cant": "trigonometric product identity for all sizes", "anchors": ["hvd/problems/dtlz.py"]}
{"id": "C47", "title": "Boundary constraints are satisfied exactly on the box", "statement": "With boundary_constraints=True all added inequality constraints are <= 0 iff x lies in [xl, xu], the original constraints keep their values and positions, and n_ieq_constr grows by 2*n_var.", "quantifier": "for all x, boxes, existing constraints", "why_tests_cant": "iff for all vectors", "anchors": ["hvd/problems/base.py: add_boundary_constraints, CMOP.__init__"]}
{"id": "C48", "title": "Problem construction validates its arguments", "statement": "MOP(n_var, n_obj, xl, xu) succeeds iff n_var and n_obj are positive integers, bounds broadcast to n_var entries and xl <= xu everywhere; the stored bounds then have n_var entries.", "quantifier": "for all arguments", "why_tests_cant": "iff over all inputs", "anchors": ["hvd/problems/base.py: MOP.__init__, _validate_dimension, _broadcast_bound, _validate_bound"]}
{"id": "C49", "title": "Monte-Carlo hypervolume estimators count the right samples", "statement": "hv_monte_carlo equals V times the fraction of samples dominated by at least one point; hvc_monte_carlo with k=1 equals V times the fraction dominated by exactly that point; deleting point k updates hv consistently with recomputation on the same samples.", "quantifier": "for every domination matrix, N, number of samples, deletion sequence", "why_tests_cant": "combinatorial identity with rational weights for all N", "anchors": ["hvd/moea/sms_emoa.py: alpha, hv_monte_carlo, hvc_monte_carlo, ApproximateMonteCarloHypervolume.delete"]}
{"id": "C50", "title": "Hypervolume-based survival keeps exactly n_survive individuals", "statement": "LeastHypervolumeContributionSurvival returns exactly n_survive individuals (the whole population if it is smaller), each at most once, complete better fronts first, whatever the contribution values.", "quantifier": "for every population, front structure and contribution oracle", "why_tests_cant": "all fronts and oracles", "anchors": ["hvd/moea/sms_emoa.py: LeastHypervolumeContributionSurvival._do"]}
{"id": "C51", "title": "precondition_hessian returns H plus a non-negative multiple of the identity", "statement": "The result is H + tau*I for some tau >= 0 (tau = 0 if H has a Cholesky factor), off-diagonal entries are unchanged, and if some trial shift is factorisable the returned matrix is factorisable (positive definite).", "quantifier": "for every symmetric matrix and every behaviour of the Cholesky oracle", "why_tests_cant": "quantifies over oracle behaviours", "anchors": ["hvd/utils.py: precondition_hessian"]}
{"id": "C52", "title": "Dynamic hypervolume bookkeeping equals recomputation", "statement": "After any sequence of add and delete operations the stored points are the sequence's net result and hv/hvc are the values of the supplied functions on exactly those points.", "quantifier": "for all operation sequences", "why_tests_cant": "history invariant", "anchors": ["hvd/exact.py: DynamicHypervolume"]}
{"id": "C53", "title": "Reference-set generation returns the requested number of points", "statement": "RSG(Py, Nf) returns exactly Nf points for every two-objective input with at least one detected component.", "quantifier": "for all component length vectors", "why_tests_cant": "rounding of proportions; fails only for particular proportions", "anchors": ["hvd/rsg.py: RSG, interpolate_tst, _matlab_round"]}
{"id": "C54", "title": "Selecting a pymoo backend never leaks", "statement": "Creating a pymoo problem restores the previously active numerical backend on success and on every failure.", "quantifier": "for every outcome of the import/constructor", "why_tests_cant": "exception paths", "anchors": ["hvd/problems/_pymoo_factory.py"]}
{"id": "C55", "title": "Constraint tolerance of the MOEA/D variant decreases to zero", "statement": "The epsilon used by ConstraintAwareMOEAD is non-negative, non-increasing in the consumed budget, at most the initial mean violation and exactly 0 once the fraction perc_eps_until of the budget is used; next() advances by exactly one generation.", "quantifier": "for all budgets and violation values", "why_tests_cant": "all progress values", "anchors": ["hvd/moea/moead.py: ConstraintAwareMOEAD._cv_eps, next"]}
{"id": "C56", "title": "preprocess_reference_set drops only points with close neighbours", "statement": "Before outlier removal, a row is dropped only if another row is close to it (and only when more than 50 rows survive); every returned row is a row of the input in the original order.", "quantifier": "for all matrices", "why_tests_cant": "all sizes", "anchors": ["hvd/utils.py: preprocess_reference_set"]}
{"id": "C57", "title": "set_bounds yields one bound per variable", "statement": "set_bounds(bound, dim) returns a vector of exactly dim entries: the scalar (or the single list element) repeated, or the list itself; every other length is rejected.", "quantifier": "for all scalars, lists and dims", "why_tests_cant": "all sizes", "anchors": ["hvd/utils.py: set_bounds"]}
{"id": "C58", "title": "Decision-space gradient is the true gradient", "statement": "For a differentiable objective function whose images are pairwise different in every objective and lie below the reference point, entry (i,v) of the returned HVdX is the partial derivative of the hypervolume of the image set with respect to variable v of point i, whether minimising or maximising.", "quantifier": "for every objective function and correct Jacobian, number of points, variables and objectives >= 2", "why_tests_cant": "derivative of a piecewise polynomial composed with an arbitrary smooth function; finite differences only sample it", "anchors": ["hvd/hypervolume_derivatives.py: HypervolumeDerivatives._compute_gradient"]}
{"id": "C59", "title": "Decision-space Hessian is the true Hessian", "statement": "Under the same conditions, with correct symmetric second derivatives of the objectives, entry ((i,v),(j,w)) of HVdX2 is the derivative with respect to variable w of point j of the partial derivative with respect to variable v of point i.", "quantifier": "for every twice differentiable objective function, number of points and variables", "why_tests_cant": "the block formula with symmetrisation must equal the second derivative everywhere", "anchors": ["hvd/hypervolume_derivatives.py: HypervolumeDerivatives._compute_hessian"]}
{"id": "C60", "title": "check_KKT decides the approximate first-order conditions", "statement": "Given a right answer of the linear programming solver, check_KKT reports a point iff its constraint violations are within the tolerance and there are non-negative objective weights summing to one, equality multipliers and non-negative multipliers vanishing on inactive inequalities with every component of the stationarity residual within the tolerance; negative tolerances, missing objective or constraint Jacobians raise.", "quantifier": "for all populations, Jacobians, constraint values and tolerances", "why_tests_cant": "an iff with an existential over multipliers, for every linear program built", "anchors": ["hvd/base.py: State.check_KKT"]}
{"id": "C61", "title": "MMD gradients are the partial derivatives of the MMD", "statement": "MMD.compute_derivatives returns, for every point and decision variable, the partial derivative of the squared MMD of the images (and MMDMatching of its matched variant, for the matching made in that call); the derivatives of the three shipped kernels exist as used.", "quantifier": "for all smooth objective functions, point sets, reference sets and kernels", "why_tests_cant": "all sizes and dimensions; a kernel with non-constant diagonal silently drops a term", "anchors": ["hvd/mmd.py: MMD.compute_derivatives, MMDMatching.compute_derivatives, rbf, laplace, rational_quadratic"]}
{"id": "C62", "title": "MMD Hessians are the second derivatives of the MMD", "statement": "Entry (i*n+k, j*n+l) of the Hessian returned by MMD and MMDMatching is the second partial derivative with respect to coordinate k of point i and coordinate l of point j.", "quantifier": "for all smooth objective functions, point sets, reference sets and kernels", "why_tests_cant": "all sizes; block transposition is invisible for kernels of a distance", "anchors": ["hvd/mmd.py: MMD._compute_hessian, MMDMatching._compute_hessian"]}
{"id": "C63", "title": "Decision matrices may be passed with one column per point", "statement": "The indicators return the same derivatives for a decision matrix and for its transpose.", "quantifier": "for all decision matrices", "why_tests_cant": "only a square matrix shows the ambiguity", "anchors": ["hvd/mmd.py: MMD._check_X"]}
{"id": "C64", "title": "Trial evaluations of the line search leave the matching alone", "statement": "A line search that clears re_match, evaluates the indicator at a trial population and sets re_match again leaves the targets of the population unchanged.", "quantifier": "for all reference sets, populations and trial points", "why_tests_cant": "needs a trial point far enough to change the optimal assignment", "anchors": ["hvd/mmd_newton.py: MMDNewton._backtracking_line_search_*", "hvd/newton.py: DpN._backtracking_line_search", "hvd/reference_set.py"]}
{"id": "C65", "title": "Pareto sets of the DTLZ problems have zero distance", "statement": "The decision vectors returned by get_pareto_set have distance function value zero, so they attain the Pareto front.", "quantifier": "for all problems of the suite, n_var, n_obj and position variables", "why_tests_cant": "the regularisation shifts the optimum only slightly", "anchors": ["hvd/problems/dtlz.py: _DTLZ.get_pareto_set, DTLZ6._g"]}
{"id": "C66", "title": "The objective function returns n_obj values", "statement": "The objective of every DTLZ problem accepted by the constructor returns exactly n_obj values.", "quantifier": "for all n_var, n_obj and decision vectors", "why_tests_cant": "array slicing never fails, so too many objectives are not noticed", "anchors": ["hvd/problems/dtlz.py: _DTLZ.__init__, _objective"]}
{"id": "C67", "title": "Reported fronts of the inverted and the constrained problems", "statement": "The points returned by get_pareto_front of the inverted and equality-constrained DTLZ problems are attained by feasible decision vectors and not dominated by another attained point.", "quantifier": "for all n_var, n_obj", "why_tests_cant": "optimality quantifies over all decision vectors", "anchors": ["hvd/problems/eqdtlz.py: InvertedDTLZ, ConstrainedDTLZ"]}
{"id": "C68", "title": "Tournament selection", "statement": "cv_and_dom_tournament selects one of the two competitors of every pair; the one with the smaller constraint violation if they differ, and among feasible ones the dominating one; tournaments that are not pairwise raise ValueError.", "quantifier": "for every population, set of pairs and random tie-breaking", "why_tests_cant": "all populations, all tie-break streams", "anchors": ["hvd/moea/sms_emoa.py: cv_and_dom_tournament"]}
{"id": "C69", "title": "SMS-EMOA generation step", "statement": "_advance merges parents and offspring, calls the survival with the population size, and keeps the size of the population.", "quantifier": "for every population and offspring, including none", "why_tests_cant": "all populations and survival outcomes", "anchors": ["hvd/moea/sms_emoa.py: SMSEMOA._advance"]}
{"id": "C70", "title": "MOEA/D neighbourhood replacement", "statement": "A neighbour is replaced exactly when the offspring has a smaller violation above the tolerance, or neither exceeds the tolerance and the offspring has the smaller decomposed value.", "quantifier": "for all neighbourhoods, values, violations and tolerances", "why_tests_cant": "all values, including ties and the shifted penalty", "anchors": ["hvd/moea/moead.py: ConstraintAwareMOEAD._replace"]}
{"id": "C71", "title": "Root-finding problem R", "statement": "The rows of R are the derivatives of the Lagrangian over the active constraints followed by the values of the active constraints (zero for inactive ones); R is zero exactly when every point satisfies the KKT equations.", "quantifier": "for every number of points, variables and constraints and every active set", "why_tests_cant": "all active sets and all real data", "anchors": ["hvd/newton.py: HVN._compute_R, DpN._compute_R", "hvd/mmd_newton.py: MMDNewton._compute_R"]}
{"id": "C72", "title": "The Newton step solves the linearised KKT conditions", "statement": "For well-shaped data the step is computed without error, does not change the multipliers of inactive constraints, and satisfies the linearised KKT conditions of every point whenever these have a solution, also if the direct solver fails.", "quantifier": "for HVN, DpN and MMDNewton, with and without constraints and preconditioning, all populations and active sets, all solvers that return solutions or minimise the residual", "why_tests_cant": "packing, block matrices and transposes for all sizes and masks", "anchors": ["hvd/newton.py: HVN._compute_netwon_step, DpN._compute_netwon_step", "hvd/mmd_newton.py: MMDNewton._compute_netwon_step"]}
{"id": "C73", "title": "Decrease of the norm of R along the step", "statement": "Along the step of HVN and DpN the squared norm of R has derivative -2 times its value, whenever the linear system is solvable and the active set is locally constant; for MMDNewton this holds for affine active constraints and fails otherwise.", "quantifier": "for all differentiable problem data consistent with the stored derivatives", "why_tests_cant": "a statement about derivatives along all steps", "anchors": ["hvd/newton.py: HVN._compute_netwon_step, DpN._compute_netwon_step", "hvd/mmd_newton.py: MMDNewton._compute_netwon_step"]}
{"id": "C74", "title": "Exactness on affine systems", "statement": "If the derivative of the indicator and the active constraints are affine, R vanishes after one full step.", "quantifier": "for all affine data with a solvable system, all three methods", "why_tests_cant": "all sizes and all data", "anchors": ["hvd/newton.py: HVN, DpN", "hvd/mmd_newton.py: MMDNewton"]}
{"id": "C75", "title": "Direction of the preconditioned step", "statement": "Without constraints and with preconditioning, the step of HVN increases the indicator to first order and the steps of DpN and MMDNewton decrease it, unless the gradient is zero, in which case the step is zero.", "quantifier": "for all symmetric Hessians within the range of the shifts, however indefinite, all gradients", "why_tests_cant": "all indefinite Hessians", "anchors": ["hvd/newton.py: HVN._compute_netwon_step, DpN._compute_netwon_step", "hvd/mmd_newton.py: MMDNewton._compute_netwon_step", "hvd/utils.py: precondition_hessian"]}
{"id": "C76", "title": "Fixed points of the step", "statement": "If R is zero and the linearised conditions determine the step, the step is zero; if the step is zero and the conditions are solvable, R is zero.", "quantifier": "for all data and all three methods", "why_tests_cant": "all data", "anchors": ["hvd/newton.py: HVN._compute_netwon_step, DpN._compute_netwon_step", "hvd/mmd_newton.py: MMDNewton._compute_netwon_step"]}
{"id": "C77", "title": "HVN.iterate moves every individual by the step of its own layer", "statement": "The layers partition the population; every individual is moved by its own row of the step of its layer multiplied by the step size of that layer, and its row of R is the one of its layer.", "quantifier": "for all populations and feasibility patterns and all step and step-size computations", "why_tests_cant": "all partitions", "anchors": ["hvd/newton.py: HVN.iterate"]}
{"id": "C78", "title": "Fronts of ZDT1-4 and ZDT6", "statement": "The set of Pareto-optimal objective vectors of each problem is the stated one, and every reported vector (and Pareto-set row) belongs to it; where the 1e-12 floor or the benchmark scaling breaks this, the reported vectors that are not optimal are exhibited.", "quantifier": "for all numbers of variables, all points of the box and all sample sizes", "why_tests_cant": "optimality quantifies over a continuum of points in any dimension", "anchors": ["hvd/problems/zdt.py: ZDT1", "hvd/problems/zdt.py: ZDT2", "hvd/problems/zdt.py: ZDT3", "hvd/problems/zdt.py: ZDT4", "hvd/problems/zdt.py: ZDT6", "hvd/problems/zdt.py: ZDT.get_pareto_set"]}
{"id": "C79", "title": "Fronts of UF1-UF7", "statement": "The set of Pareto-optimal objective vectors is exactly the curve (or the 21 points, or the point and two segments) the code samples, and every feasible point is weakly dominated by a member of it.", "quantifier": "for all numbers of variables from 3 on, all points of the box and all sample sizes", "why_tests_cant": "optimality quantifies over a continuum of points in any dimension", "anchors": ["hvd/problems/uf.py: UF1", "hvd/problems/uf.py: UF2", "hvd/problems/uf.py: UF3", "hvd/problems/uf.py: UF4", "hvd/problems/uf.py: UF5", "hvd/problems/uf.py: UF6", "hvd/problems/uf.py: UF7"]}
{"id": "C80", "title": "Fronts of UF8-UF10", "statement": "The optimal objective vectors of UF8 and UF10 are the octant of the unit sphere, those of UF9 two parts of the simplex; the reported vectors, built from the reference directions, are in that set, and UF9 drops exactly the directions outside it.", "quantifier": "for all numbers of variables from 5 on, all points of the box and all sample sizes", "why_tests_cant": "optimality quantifies over a continuum of points in any dimension", "anchors": ["hvd/problems/uf.py: UF8", "hvd/problems/uf.py: UF9", "hvd/problems/uf.py: UF10"]}
{"id": "C81", "title": "Constrained fronts of CF1-CF7", "statement": "Under the constraint of each problem the set of optimal vectors is the stated set of points, segments and curves, and every reported vector is in it.", "quantifier": "for all even numbers of variables from 4 on, all feasible points and all sample sizes", "why_tests_cant": "optimality quantifies over a continuum of feasible points in any dimension", "anchors": ["hvd/problems/cf.py: CF1", "hvd/problems/cf.py: CF2", "hvd/problems/cf.py: CF3", "hvd/problems/cf.py: CF4", "hvd/problems/cf.py: CF5", "hvd/problems/cf.py: CF6", "hvd/problems/cf.py: CF7"]}
{"id": "C82", "title": "Constrained fronts of CF8-CF10", "statement": "Under the constraint the optimal vectors are arcs of the unit sphere, five of them for CF8, a curve and two bands for CF9 and CF10, and every reported vector is on them.", "quantifier": "for all numbers of variables from 5 on, all feasible points and all samples", "why_tests_cant": "optimality quantifies over a continuum of feasible points in any dimension", "anchors": ["hvd/problems/cf.py: CF8", "hvd/problems/cf.py: CF9", "hvd/problems/cf.py: CF10"]}
{"id": "C83", "title": "Index groups of the CF problems", "statement": "The two groups of variables of CF1-CF7 contain every variable but the first exactly once.", "quantifier": "for all numbers of variables", "why_tests_cant": "all numbers of variables", "anchors": ["hvd/problems/cf.py: CF1._objective", "hvd/problems/cf.py: CF2._objective", "hvd/problems/cf.py: CF3._objective", "hvd/problems/cf.py: CF4._objective", "hvd/problems/cf.py: CF5._objective", "hvd/problems/cf.py: CF6._objective", "hvd/problems/cf.py: CF7._objective"]}
{"id": "C84", "title": "Front of WFG4 to WFG9", "statement": "The Pareto-optimal objective vectors of WFG4, .., WFG9 are exactly the vectors without negative entries on the ellipsoid with semi-axes 2, 4, .., 2M; every point of the box has a vector and is weakly dominated by one of them; every vector of the reported front is optimal, for every draw of the random rows.", "quantifier": "for all numbers of variables, objectives, position and distance parameters the class accepts, all positive upper bounds and all points of the box", "why_tests_cant": "optimality quantifies over a continuum of points in any dimension", "anchors": ["hvd/problems/wfg.py: _evaluate_wfg", "hvd/problems/wfg.py: WFG.get_pareto_front", "hvd/problems/wfg.py: WFG8._optimal_positions", "hvd/problems/wfg.py: WFG9._optimal_positions"]}
{"id": "C85", "title": "Front of WFG1", "statement": "The Pareto-optimal vectors of WFG1 are those of the convex surface whose last entry is the mixed function of the first position coordinate; every reported vector is optimal.", "quantifier": "for all numbers of variables, objectives, position and distance parameters the class accepts, all positive upper bounds and all points of the box", "why_tests_cant": "optimality quantifies over a continuum of points in any dimension", "anchors": ["hvd/problems/wfg.py: _evaluate_wfg", "hvd/problems/wfg.py: _mixed", "hvd/problems/wfg.py: WFG.get_pareto_set"]}
{"id": "C86", "title": "Front of WFG2", "statement": "The Pareto-optimal vectors of WFG2 are those of the convex surface over the first coordinates at which the disconnected function is smaller than at all smaller coordinates. The reported front consists of such vectors.", "quantifier": "for all numbers of variables, objectives, position and distance parameters the class accepts, all positive upper bounds and all points of the box", "why_tests_cant": "optimality quantifies over a continuum of points in any dimension", "anchors": ["hvd/problems/wfg.py: _evaluate_wfg", "hvd/problems/wfg.py: _disconnected", "hvd/problems/wfg.py: WFG.get_pareto_front"]}
{"id": "C87", "title": "Front of WFG3", "statement": "Every reported vector of WFG3 lies on the degenerate curve and is optimal, and the curve is the whole front.", "quantifier": "for all numbers of variables, objectives, position and distance parameters the class accepts, all positive upper bounds and all points of the box", "why_tests_cant": "optimality quantifies over a continuum of points in any dimension", "anchors": ["hvd/problems/wfg.py: _evaluate_wfg", "hvd/problems/wfg.py: _post", "hvd/problems/wfg.py: WFG.__init__"]}
{"id": "C88", "title": "Parameters and reported points of the WFG problems", "statement": "The constructor accepts exactly the parameters with M >= 2, k >= 4, (M-1) | k, k + l = n, l >= 1 and l even for WFG2 and WFG3; the defaults are accepted exactly for 2 <= M <= 12; the reported points are feasible and there are 2^k of them beside the random ones.", "quantifier": "for all integers and all draws of the random rows", "why_tests_cant": "unbounded integers, arbitrary real rows", "anchors": ["hvd/problems/wfg.py: WFG._validate_parameters", "hvd/problems/wfg.py: WFG.get_pareto_set"]}
{"id": "C89", "title": "Front of CONV3", "statement": "The Pareto-optimal vectors of CONV3 are the squared distances of the points of the triangle of its three centres, and every reported vector is one of them.", "quantifier": "for all boxes containing the triangle, all points of the box and all non-negative draws with a positive sum", "why_tests_cant": "optimality quantifies over a continuum of points", "anchors": ["hvd/problems/misc.py: CONV3._objective", "hvd/problems/misc.py: CONV3.get_pareto_front"]}
{"id": "C90", "title": "Fronts of CONV4 and CONV4_2F", "statement": "The optimal vectors of CONV4 are the squared distances of the points of the tetrahedron of unit vectors; those of CONV4_2F are these together with the shifted second sheet without its corners; the reported vectors are optimal and there are N of them.", "quantifier": "for all boxes containing the sheets, all points, all draws and all N", "why_tests_cant": "optimality quantifies over a continuum of points", "anchors": ["hvd/problems/misc.py: CONV4._objective", "hvd/problems/misc.py: CONV4.get_pareto_front", "hvd/problems/misc.py: CONV4_2F._objective", "hvd/problems/misc.py: CONV4_2F.get_pareto_front"]}
{"id": "C91", "title": "Front of DENT", "statement": "The Pareto-optimal vectors of DENT are the values on the anti-diagonal, and every reported vector is optimal.", "quantifier": "for all symmetric boxes, all N", "why_tests_cant": "optimality quantifies over a continuum of points", "anchors": ["hvd/problems/misc.py: DENT._objective", "hvd/problems/misc.py: DENT.get_pareto_front"]}
{"id": "C92", "title": "Front of DisConnected", "statement": "The feasible points of DisConnected lie on two arcs and one further point, and its Pareto-optimal vectors are the two arcs, the second without its first point.", "quantifier": "for all points of the plane", "why_tests_cant": "optimality quantifies over a continuum of points", "anchors": ["hvd/problems/misc.py: DisConnected._ieq_constraint", "hvd/problems/misc.py: DisConnected._eq_constraint"]}
{"id": "C93", "title": "ModifiedObjective", "statement": "Dominance is preserved by the modified objectives, vectors optimal for the modified problem are optimal for the original one, and the sum of the objectives is unchanged.", "quantifier": "for all numbers of objectives, feasible sets and objective functions", "why_tests_cant": "arbitrary functions and sets", "anchors": ["hvd/problems/misc.py: ModifiedObjective._evaluate"]}
{"id": "C94", "title": "One iteration of the gradient method", "statement": "Starting from points of the box at which no gradient vanishes, an iteration of Lara removes points nearer than 1e-8 to another, moves all others by one common step size between min(1, 1e-10/n_obj) and 1 along the negative sum of normalised gradients, entries leading out of the box from its boundary set to 0, and ends in the box.", "quantifier": "for all boxes with a positive extent, Jacobians, numbers of objectives and variables, populations and set orders", "why_tests_cant": "arbitrary Jacobians and populations of any size", "anchors": ["hvd/gradient_based.py: Lara.iteration", "hvd/gradient_based.py: Lara._compute_step", "hvd/gradient_based.py: Lara._handle_box_constraint", "hvd/gradient_based.py: Lara._check_points_uniqueness"]}
{"id": "C95", "title": "Descent of the gradient method", "statement": "The direction of Lara decreases the sum of the objectives scaled by the lengths of their gradients; with two objectives it is a descent direction for both, strictly unless the gradients are opposite.", "quantifier": "for all dimensions and all Jacobians without a zero row", "why_tests_cant": "unbounded dimension, real entries", "anchors": ["hvd/gradient_based.py: Lara._compute_step", "hvd/gradient_based.py: Lara._handle_box_constraint"]}
{"id": "C96", "title": "Vanishing gradients", "statement": "If a gradient vanishes at a point, the step of that point is NaN; if it is the first point, the whole population becomes NaN and stays so.", "quantifier": "for all Jacobians, boxes and populations", "why_tests_cant": "populations of any size", "anchors": ["hvd/gradient_based.py: Lara._compute_step", "hvd/gradient_based.py: Lara._handle_box_constraint"]}
{"id": "C97", "title": "Runs of the gradient method", "statement": "The initial population of Lara lies in the box, run makes exactly max_iters iterations, and every population of the history lies in the box.", "quantifier": "for all boxes, regular Jacobians, populations and budgets", "why_tests_cant": "unbounded number of iterations", "anchors": ["hvd/gradient_based.py: Lara._initialize", "hvd/gradient_based.py: Lara.run", "hvd/gradient_based.py: Lara.terminate"]}
{"id": "C98", "title": "Direction of the shift", "statement": "compute_chim returns a unit vector without positive entries that is orthogonal to the plane through the minimisers of the objectives.", "quantifier": "for all sets of points, numbers of objectives and correct QR factorisations", "why_tests_cant": "all real point sets; a QR factorisation is unique only up to signs", "anchors": ["hvd/utils.py: compute_chim"]}
{"id": "C99", "title": "Shift of the targets in DpN", "statement": "In the first iteration all targets move by 0.08 times the direction of their component; later exactly those move by 0.05 whose point is at the target and whose last step has length 0 (up to 1e-8); the log gets exactly the moved targets.", "quantifier": "for all consistent matched reference sets, populations, steps and iterations", "why_tests_cant": "arbitrary populations and numbers of components", "anchors": ["hvd/newton.py: DpN._shift_reference_set", "hvd/reference_set.py: ReferenceSet.shift"]}
{"id": "C100", "title": "Shift of the targets in MMDNewton", "statement": "As C99 with the factor 0.08 in every iteration, where the nearest target decides instead of the own one; an unmatched reference set moves as a whole in every iteration, and the first iteration raises an IndexError if there are more points than reference points.", "quantifier": "for all reference sets, populations, steps and iterations", "why_tests_cant": "arbitrary populations and numbers of components", "anchors": ["hvd/mmd_newton.py: MMDNewton._shift_reference_set", "hvd/reference_set.py: ReferenceSet.shift"]}
{"id": "C101", "title": "Incumbent indicator and step size of MMDNewton", "statement": "With type deltap the incumbent indicator of DpN attains the logged value max(GD, IGD). MMDNewton halves the step size up to six times until the norm of R decreases sufficiently, and the iterates stay in the box.", "quantifier": "for all indicator values, merit functions and steps", "why_tests_cant": "arbitrary merit functions", "anchors": ["hvd/newton.py: DpN.active_indicator, DpN.curr_indicator_value", "hvd/mmd_newton.py: MMDNewton._backtracking_line_search_global", "hvd/mmd_newton.py: MMDNewton._handle_box_constraint"]}
{"id": "C102", "title": "Targets during a line search", "statement": "After the trial evaluations of a line search the targets are those of matching all trial populations in turn; with one component they are a permutation of the previous ones.", "quantifier": "for all reference sets, trial populations and correct assignment solvers", "why_tests_cant": "any number of trials and points", "anchors": ["hvd/newton.py: DpN._backtracking_line_search", "hvd/mmd_newton.py: MMDNewton._backtracking_line_search_global", "hvd/reference_set.py: ReferenceSet.match"]}
{"id": "C103", "title": "Problems of this package as problems of pymoo", "statement": "The adapter copies the counts and bounds, returns one row of objective and constraint values per point, writes \"H\" and \"G\" exactly if there are such constraints, evaluates wherever the problem does, and has the same feasible points; anything but a MOP raises a TypeError.", "quantifier": "for all problems and all matrices of points", "why_tests_cant": "arbitrary problems", "anchors": ["hvd/problems/_pymoo_wrapper.py: _PymooProblemAdapter", "hvd/problems/base.py: MOP.as_pymoo_problem"]}
{"id": "C104", "title": "Problems of pymoo as problems of this package", "statement": "A problem is accepted exactly if its constraint counts are not negative and every output it declares can be traced by JAX. For vectorised problems the objective is the value of \"F\", and the feasible set is that of pymoo, intersected with the box if boundary constraints are asked for, which add 2 n_var inequalities. Constraint values are never made up: what a constraint function returns is what the problem stored under its key.", "quantifier": "for all problems of pymoo, all points", "why_tests_cant": "arbitrary problems", "anchors": ["hvd/problems/_pymoo_wrapper.py: _PymooBackedMOP", "hvd/problems/base.py: MOP.from_pymoo"]}
{"id": "C105", "title": "Conversion back and forth", "statement": "Converting a problem of pymoo and back keeps the objective values, the equality count and the feasible points (of the box, with boundary constraints); a problem of this package passes from_pymoo unchanged.", "quantifier": "for all problems and points", "why_tests_cant": "arbitrary problems", "anchors": ["hvd/problems/_pymoo_wrapper.py: _PymooBackedMOP, _PymooProblemAdapter", "hvd/problems/base.py: MOP.as_pymoo_problem, MOP.from_pymoo"]}
{"id": "C106", "title": "Schedule of the bootstrapping", "statement": "A successful run of max_iters iterations bootstraps exactly in the iterations that are positive multiples of the interval, (max_iters - 1) div |interval| of them, each time relaxing the population, replacing the reference set and multiplying beta by 0.8; it never succeeds if max_iters is at most the interval.", "quantifier": "for all optimizers, intervals and numbers of iterations", "why_tests_cant": "any number of iterations", "anchors": ["hvd/bootstrap.py: bootstrap_reference_set"]}
{"id": "C107", "title": "Relaxed populations and new targets", "statement": "Relaxing keeps the order and the mean of a vector and makes dominance strict in every objective; a relaxed point is better than another exactly if it loses less than 1/19 of the gain in the mean in every objective; what is efficient after relaxing was efficient; the new targets weakly dominate the new reference points.", "quantifier": "for all vectors and populations of any dimension", "why_tests_cant": "real vectors", "anchors": ["hvd/bootstrap.py: bootstrap_reference_set"]}
{"id": "C108", "title": "Result of the bootstrapping", "statement": "Every returned vector is, together with its decision variables, an efficient point of one of the last_n recorded populations, and there are N of them.", "quantifier": "for all optimizers, windows and clusterings", "why_tests_cant": "arbitrary runs", "anchors": ["hvd/bootstrap.py: bootstrap_reference_set, filter_outliers", "hvd/utils.py: get_non_dominated"]}
{"id": "C109", "title": "Pareto sets of DTLZ1-6", "statement": "A decision vector of the unit cube is Pareto optimal for DTLZ1-4 exactly if all distance variables are 1/2; the rows get_pareto_set returns are Pareto optimal for DTLZ1-6; with three objectives a vector is optimal for DTLZ6 exactly if all distance variables are at most 1e-30.", "quantifier": "for all decision vectors, n_obj, n_var with n_obj <= n_var + 1", "why_tests_cant": "optimality against all vectors of the cube", "anchors": ["hvd/problems/dtlz.py: get_pareto_set, _objective, g, _transform_x"]}
{"id": "C110", "title": "Front of DTLZ5", "statement": "With three objectives the Pareto front of DTLZ5 is exactly the curve (cos/sqrt 2, cos/sqrt 2, sin), and each attained vector is weakly dominated by the curve point with the same first variable.", "quantifier": "for all decision vectors and n_var >= 2", "why_tests_cant": "optimality against all vectors of the cube", "anchors": ["hvd/problems/dtlz.py: DTLZ5"]}
{"id": "C111", "title": "Pareto set of DTLZ7", "statement": "The last objective of DTLZ7 is at least 2M - sum f_i (1 + sin 3 pi f_i), with equality exactly at zero distance variables; a vector is Pareto optimal exactly if the distance variables are zero and each position variable is a strict record of t (1 + sin 3 pi t); get_pareto_set returns only optimal vectors.", "quantifier": "for all decision vectors, n_obj <= n_var", "why_tests_cant": "optimality against all vectors of the cube", "anchors": ["hvd/problems/dtlz.py: DTLZ7"]}
{"id": "C112", "title": "History of a DpN run", "statement": "After j iterations of DpN the population has the initial size, Y holds the objective values of the primal parts of X, iter_count is j, and the histories of X, Y, indicator values and residual norms are exactly the populations, values max(GD, IGD) and medians of the residual norms of the iterations 1..j; run performs exactly max(max_iters, 0) iterations.", "quantifier": "for all unconstrained or constrained problems, populations, reference sets of one component and numbers of iterations", "why_tests_cant": "all problems and runs of any length", "anchors": ["hvd/newton.py: DpN.iterate, newton_iteration, log, run"]}
{"id": "C113", "title": "Box constraints during a DpN run", "statement": "All populations of a run of DpN stay in the box if in each iteration some component of the step exceeds 1e-8, and an iteration that starts in the box ends at most 1e-8 outside of it; without that condition points can leave the box.", "quantifier": "for all unconstrained or constrained problems, populations, reference sets of one component and numbers of iterations", "why_tests_cant": "all problems and runs of any length", "anchors": ["hvd/newton.py: DpN._handle_box_constraint, _backtracking_line_search, newton_iteration"]}
{"id": "C114", "title": "Jacobian evaluations of a DpN run", "statement": "Each iteration of DpN adds N evaluations to state.n_jac_evals for the new population, plus between one and eight per point for the line search if some component of the step exceeds 1e-8; after j iterations the count is between N (j+1) and N (9 j + 1).", "quantifier": "for all unconstrained or constrained problems, populations, reference sets of one component and numbers of iterations", "why_tests_cant": "all problems and runs of any length", "anchors": ["hvd/newton.py: DpN._backtracking_line_search, newton_iteration", "hvd/base.py: State.update, update_one"]}
{"id": "C115", "title": "Indicator values in the history of DpN", "statement": "The value stored in history_indicator_value at position j is max(GD, IGD) of the population before iteration j+1 with respect to the reference set before the shift of that iteration, with IGD taken for an optimal assignment; it is not the value of the population stored at the same position.", "quantifier": "for all unconstrained or constrained problems, populations, reference sets of one component and numbers of iterations", "why_tests_cant": "all problems and runs of any length", "anchors": ["hvd/newton.py: DpN.log, curr_indicator_value, _compute_indicator_value"]}
{"id": "C116", "title": "Indicator minimised by DpN", "statement": "Without constraints the residual of each iteration is the gradient of GD (each point pulled to its nearest reference point with weight 2/N) for type gd and for deltap if IGD < GD, and otherwise the gradient of the sum of the squared distances to an optimal assignment; the square of the compared GD is at most the compared IGD, so deltap uses GD only if it is below 1.", "quantifier": "for all unconstrained problems, populations and reference sets of one component", "why_tests_cant": "all problems and runs", "anchors": ["hvd/newton.py: DpN.active_indicator, _compute_indicator_value, _compute_R", "hvd/delta_p.py: GenerationalDistance, InvertedGenerationalDistance"]}
{"id": "C117", "title": "DpN does not fail", "statement": "With bounds, callbacks and reference set of matching sizes and external routines that return correct answers, the initialisation, any number of iterations and run return without an exception.", "quantifier": "for all unconstrained or constrained problems, populations, reference sets of one component and numbers of iterations", "why_tests_cant": "absence of exceptions for all arguments", "anchors": ["hvd/newton.py: DpN._initialize, iterate, run", "hvd/reference_set.py: ClusteredReferenceSet.match", "hvd/base.py: State.update"]}
{"id": "C118", "title": "Full Newton steps of DpN for affine objectives", "statement": "For affine objectives without constraints and preconditioning, started strictly inside the box, an iteration with step sizes 1 moves each point to one whose objective vector is closest, over all decision vectors, to its target; the targets are the nearest reference points (gd) or a rearrangement of the shifted reference set (igd).", "quantifier": "for all affine problems of any dimensions, populations and reference sets of one component", "why_tests_cant": "all affine maps, also of deficient rank, and all vectors", "anchors": ["hvd/newton.py: DpN.newton_iteration, _compute_netwon_step"]}
{"id": "C119", "title": "Descent of the residual for GD", "statement": "With type gd and no constraints, an iteration with some component of the step above 1e-8 changes each point such that the norm of the gradient of GD, with respect to the same reference set, shrinks by the factor 1 - 1e-4 s for the step size s, unless s <= 0.6^8 or the norm was within 1e-8 of the machine epsilon.", "quantifier": "for all unconstrained problems, populations and reference sets of one component", "why_tests_cant": "all problems and step sizes", "anchors": ["hvd/newton.py: DpN._backtracking_line_search, newton_iteration"]}
{"id": "C120", "title": "History of an HVN run", "statement": "Each iteration of HVN first drops points until no two are within 1e-8 and every dropped point is that close to a kept one, then moves each kept point by its step size times its step, adding one Jacobian evaluation per kept point; the size of the population stays between 1 and the initial size, Y holds the objective values of the primal parts of X, iter_count is the number of iterations, and the histories are exactly the populations, objective values, indicator values and medians of the residual norms of the iterations; run performs exactly max(max_iters, 0) iterations.", "quantifier": "for all unconstrained or constrained problems, numbers of objectives, nonempty initial populations and numbers of iterations", "why_tests_cant": "all problems and runs of any length", "anchors": ["hvd/newton.py: HVN.iterate, log, run, _check_population"]}
{"id": "C121", "title": "Box constraints during an HVN run", "statement": "With limit_max_step_size all populations of a run of HVN stay in the box and an iteration keeps at least three quarters of the distance of each coordinate to either bound; one point at a bound with a step out of the box stops all points of its layer, and a population that did not move in one iteration never moves again. Without limit_max_step_size (the default) points leave the box, and with it a run can stop for ever at a population that is not optimal.", "quantifier": "for all unconstrained or constrained problems, numbers of objectives, nonempty initial populations and numbers of iterations", "why_tests_cant": "all problems and runs of any length", "anchors": ["hvd/newton.py: HVN.iterate, _compute_max_step_size"]}
{"id": "C122", "title": "Indicator values in the history of HVN", "statement": "The value stored by an iteration of HVN is the hypervolume of the population before the iteration after dropping near-duplicates; it is not the hypervolume of the population stored at the same position of the history.", "quantifier": "for all problems with two objectives, and for more objectives all populations to which the model of hypervolume.py applies", "why_tests_cant": "all problems and runs of any length", "anchors": ["hvd/newton.py: HVN.iterate, log, _compute_indicator_value", "hvd/hypervolume.py: HyperVolume.compute"]}
{"id": "C123", "title": "Exceptions of HVN", "statement": "For two objectives, and for three whose values never fall below the sentinel of hypervolume.py, initialisation, any number of iterations and run return without an exception unless limit_max_step_size is set; then the only possible exception of an iteration is a ValueError, which does occur.", "quantifier": "for all such problems, nonempty populations and numbers of iterations", "why_tests_cant": "absence of exceptions for all arguments", "anchors": ["hvd/newton.py: HVN._initialize, iterate, run, _compute_max_step_size", "hvd/hypervolume_derivatives.py: HypervolumeDerivatives"]}
{"id": "C124", "title": "Line search of HVN", "statement": "In each iteration the points of one layer share a step size mx / 2^k with k <= 6 and mx <= 1 (mx = 1 without limit_max_step_size); unless k = 6 or the norm of the residual was within 1e-8 of the machine epsilon, the norm of the residual of the moved layer is at most (1 - 1e-5 a) times that before for the step size a. The layers are those of infeasible points and of the longest chains of domination among the feasible points.", "quantifier": "for all unconstrained or constrained problems, numbers of objectives, nonempty initial populations and numbers of iterations", "why_tests_cant": "all problems and step sizes", "anchors": ["hvd/newton.py: HVN.iterate, _get_phi_func, _compute_R", "hvd/line_search.py: backtracking_line_search"]}
{"id": "C125", "title": "HVN with limited steps raises at the optimum", "statement": "On a line, with limit_max_step_size and without preconditioning, an iteration of HVN from equally spaced points that are more than 1e-8 apart raises a ValueError, and an iteration raises only if the population without near-duplicates is equally spaced.", "quantifier": "for all problems with one variable and two affine objectives of opposite slopes whose line passes below the reference point, all nonempty populations and all numbers of iterations", "why_tests_cant": "all lines, reference points and populations", "anchors": ["hvd/newton.py: HVN._compute_max_step_size, iterate"]}
{"id": "C126", "title": "One HVN iteration on a line", "statement": "On a line, without preconditioning and limit_max_step_size, one iteration of HVN leads from any population to equally spaced points, preserving the order of the points, and equally spaced points more than 1e-8 apart stay where they are.", "quantifier": "for all problems with one variable and two affine objectives of opposite slopes whose line passes below the reference point, all nonempty populations and all numbers of iterations", "why_tests_cant": "all lines, reference points and populations of any size", "anchors": ["hvd/newton.py: HVN.iterate, _compute_netwon_step", "hvd/hypervolume_derivatives.py: HypervolumeDerivatives"]}
{"id": "C127", "title": "HVN reaches the optimum on a line", "statement": "On a line, without preconditioning and limit_max_step_size, the population after each iteration of HVN has the largest hypervolume among all populations of at most that many points on the line, namely q0 q1 w^2 / 2 * N / (N + 1), where w is the length of the interval of the variable below the reference point.", "quantifier": "for all problems with one variable and two affine objectives of opposite slopes whose line passes below the reference point, all nonempty populations and all numbers of iterations", "why_tests_cant": "all lines, reference points and populations of any size", "anchors": ["hvd/newton.py: HVN.iterate", "hvd/hypervolume_derivatives.py: HypervolumeDerivatives"]}
{"id": "C128", "title": "History of an MMDNewton run", "statement": "The population of MMDNewton keeps its size; after every iteration Y holds the objective values of the primal parts of X and iter_count is the number of iterations; the histories are exactly the populations, objective values, indicator values and medians of the residual norms of the iterations; run performs exactly max(max_iters, 0) iterations.", "quantifier": "for all unconstrained or constrained problems, kernels, matched or unmatched reference sets, nonempty initial populations and numbers of iterations", "why_tests_cant": "all problems and runs of any length", "anchors": ["hvd/mmd_newton.py: MMDNewton.newton_iteration, log, run"]}
{"id": "C129", "title": "Indicator values in the history of MMDNewton", "statement": "The value recorded by iteration j + 1 is the discrepancy of the population before this iteration (with its best assigned reference points if they are matched); it need not be that of the population recorded at the same position.", "quantifier": "for all unconstrained or constrained problems, kernels, matched or unmatched reference sets, nonempty initial populations and numbers of iterations", "why_tests_cant": "all problems and runs of any length", "anchors": ["hvd/mmd_newton.py: MMDNewton.newton_iteration, log, _compute_indicator_value", "hvd/mmd.py: MMD.compute, MMDMatching.compute"]}
{"id": "C130", "title": "MMDNewton raises no exception", "statement": "Initialisation, any number of iterations and run return without an exception if there are at least as many reference points as points; with fewer reference points and no matching the first iteration raises an IndexError.", "quantifier": "for all unconstrained or constrained problems, kernels, matched or unmatched reference sets, nonempty initial populations and numbers of iterations", "why_tests_cant": "absence of exceptions for all arguments", "anchors": ["hvd/mmd_newton.py: MMDNewton._initialize, newton_iteration, run, _shift_reference_set"]}
{"id": "C131", "title": "Motion of the reference points of MMDNewton", "statement": "With matching, an iteration moves a best assigned reference point by 0.08 times the direction if it is the first iteration, or if both the previous step of its point is at most 1e-8 long and some assigned reference point (not necessarily its own) is within 1e-8 of its point, and leaves the others; the moved points are recorded. Without matching, after j iterations every reference point of every component has moved by 0.08 j times the direction of its component, whatever the population does.", "quantifier": "for all unconstrained or constrained problems, kernels, matched or unmatched reference sets, nonempty initial populations and numbers of iterations", "why_tests_cant": "all problems and runs of any length", "anchors": ["hvd/mmd_newton.py: MMDNewton._shift_reference_set", "hvd/reference_set.py: ReferenceSet.shift, match"]}
{"id": "C132", "title": "Jacobian evaluations counted by MMDNewton", "statement": "After j iterations n_jac_evals is (j + 1) times the size of the population: the evaluations of the line search are not counted.", "quantifier": "for all unconstrained or constrained problems, kernels, matched or unmatched reference sets, nonempty initial populations and numbers of iterations", "why_tests_cant": "all problems and runs of any length", "anchors": ["hvd/mmd_newton.py: MMDNewton.newton_iteration, _backtracking_line_search_global", "hvd/base.py: State"]}
{"id": "C133", "title": "Line search of MMDNewton", "statement": "The whole population moves by one step size 2^-k with k <= 6; unless k = 6 or the median component of the step was negligible, the norm of the residual (gradient of the discrepancy, or of the Lagrangian with the active constraints) for the targets of the new population is at most (1 - 1e-6 a) times that before or the latter was within 1e-8 of the machine epsilon; all larger step sizes were rejected because the norm did not fall that much.", "quantifier": "for all unconstrained or constrained problems, kernels, matched or unmatched reference sets, nonempty initial populations and numbers of iterations, for differentiable kernels and objectives with right derivatives", "why_tests_cant": "all problems and step sizes", "anchors": ["hvd/mmd_newton.py: MMDNewton._backtracking_line_search_global, _compute_R"]}
{"id": "C134", "title": "Newton step of MMDNewton", "statement": "The step of an iteration solves the linearised first-order conditions, with the gradient and the Hessian of the discrepancy to the targets at the current population, if these have a solution; it is zero in the inactive multipliers, and the recorded residual is that of these conditions.", "quantifier": "for all unconstrained or constrained problems, kernels, matched or unmatched reference sets, nonempty initial populations and numbers of iterations, for differentiable kernels and objectives with right derivatives", "why_tests_cant": "all problems", "anchors": ["hvd/mmd_newton.py: MMDNewton._compute_netwon_step, _compute_R", "hvd/mmd.py: compute_derivatives"]}
{"id": "C135", "title": "MMDNewton and the box", "statement": "The initial population is put into the box, but the iterations do not depend on the bounds at all, and points leave the box.", "quantifier": "for all unconstrained or constrained problems, kernels, matched or unmatched reference sets, nonempty initial populations and numbers of iterations", "why_tests_cant": "all problems and bounds", "anchors": ["hvd/mmd_newton.py: MMDNewton._initialize, newton_iteration, _handle_box_constraint"]}
{"id": "C136", "title": "One point of MMDNewton with the Gaussian kernel", "statement": "Let z be 2 theta times the squared distance of the point to its target. The Newton step multiplies the difference to the target by z / (z - 1). If z > 1 once, the point moves away from its target in every iteration with a full step, z grows by at least 2 per iteration and the norm of the residual falls by a factor e, so that a vanishing residual means divergence. If z <= 1/4 the full step is taken and the new distance is 2 theta d^3 / (1 - z), at most a third of the old one; if the shifts of the target are small for the kernel this remains so for ever.", "quantifier": "for all problems whose objective is the identity in n variables, one point, a matched reference set of one component and any number of points, the Gaussian kernel with any positive theta, and any number of iterations", "why_tests_cant": "all dimensions, kernels widths, starting points and runs of any length", "anchors": ["hvd/mmd_newton.py: MMDNewton.newton_iteration, _compute_netwon_step, _backtracking_line_search_global, _shift_reference_set", "hvd/mmd.py: rbf, MMDMatching.compute_derivatives"]}
{"id": "C137", "title": "Population read for a benchmark run", "statement": "Decision vectors and objective vectors returned are the first k inliers (label other than 0 and -1) of the files, in the same order in both; the index sets contain each of them exactly once, are nonempty and increasing, and put two points together exactly if they have the same label, unless there is a single set.", "quantifier": "for all contents of the files of a run (missing and unreadable files included)", "why_tests_cant": "all combinations of missing files, labels, numbers of clusters and points", "anchors": ["scripts/utils.py: read_reference_set_data lines 78-110"]}
{"id": "C138", "title": "Clusters read fit into the components of the reference set", "statement": "There are never more clusters of points than components of the reference set and no cluster is larger than a component; the components are merged into one, without shift directions, exactly if this does not hold of the files.", "quantifier": "for all contents of the files of a run (missing and unreadable files included)", "why_tests_cant": "all combinations of missing files, labels, numbers of clusters and points", "anchors": ["scripts/utils.py: read_reference_set_data lines 91-108"]}
{"id": "C139", "title": "Points kept when the components are merged", "statement": "Points are dropped only if there are more of them than reference points, but then a single point is left instead of as many as there are reference points (n = len(ref) is the number of components, which is 1).", "quantifier": "for all contents of the files of a run (missing and unreadable files included)", "why_tests_cant": "all combinations of missing files, labels, numbers of clusters and points", "anchors": ["scripts/utils.py: read_reference_set_data lines 103-107"]}
{"id": "C140", "title": "Reference points read for a benchmark run", "statement": "Every reference point returned is a row of the file of some cluster; their number is the sum of the numbers of rows of the readable files, at most 3000 of each.", "quantifier": "for all contents of the files of a run (missing and unreadable files included)", "why_tests_cant": "all combinations of missing files, labels, numbers of clusters and points", "anchors": ["scripts/utils.py: read_reference_set_data lines 44-62"]}
{"id": "C141", "title": "Missing files of shift directions", "statement": "With well-formed files, reading succeeds exactly if the missing directions can be filled in: a missing direction in the first cluster of several, or one after a cluster without reference file, raises an exception. The directions returned are one for each component, that of the nearest cluster before it with a file; none are returned only if the components were merged, the first cluster has no file or an entry is NaN.", "quantifier": "for all contents of the files of a run (missing and unreadable files included)", "why_tests_cant": "all combinations of missing files, labels, numbers of clusters and points", "anchors": ["scripts/utils.py: read_reference_set_data lines 63-76"]}
{"id": "C142", "title": "Data read and the class ReferenceSet", "statement": "If all reference files are readable the keys of the dictionary are 0, 1, ... and the reference set built from the data can be matched to the population without an exception; with an unreadable file there may be no key 0, which ReferenceSet requires.", "quantifier": "for all contents of the files of a run (missing and unreadable files included)", "why_tests_cant": "all combinations of missing files, labels, numbers of clusters and points", "anchors": ["scripts/utils.py: read_reference_set_data", "hvd/reference_set.py: ReferenceSet.match"]}
{"id": "C143", "title": "Pieces of a front run through one after the other", "statement": "For parameters in [0,1] the pieces of a piecewise front are run through one after the other, each over an interval of equal length; parameters above 1 raise IndexError. Parameters below 0 are not rejected: the last piece answers, outside of its own parameters.", "quantifier": "for all lists of pieces and all parameters", "why_tests_cant": "all parameters, including those exactly at and just beside the ends of the pieces", "anchors": ["examples/HVSS/utils.py: lines 56-92", "examples/HVSS/components.py: lines 52-88"]}
{"id": "C144", "title": "Derivatives of piecewise fronts", "statement": "Inside of a piece the Jacobian reported is the derivative divided by the number N of pieces and the Hessian the second derivative divided by N^2, so they are not the derivatives of the objective as soon as N > 1; a Newton step computed with them is N times the right one.", "quantifier": "for all lists of pieces with right derivatives and all parameters inside of a piece", "why_tests_cant": "all parameters, including those exactly at and just beside the ends of the pieces", "anchors": ["examples/HVSS/utils.py: lines 56-92", "examples/HVSS/components.py: lines 52-88"]}
{"id": "C145", "title": "Derivatives of B-spline pieces at the ends", "statement": "The Jacobian and Hessian of a front of B-spline pieces are right (up to C144) inside of the pieces and 0 at all parameters k/N, also in the interior of [0,1] where the derivative is not 0.", "quantifier": "for all lists of B-spline pieces and all k", "why_tests_cant": "all parameters, including those exactly at and just beside the ends of the pieces", "anchors": ["examples/HVSS/utils.py: class BS lines 95-116"]}
{"id": "C146", "title": "Choice of the piece with a tolerance", "statement": "The second version of get_index agrees with the first away from the ends of the pieces; in general it chooses a piece whose parameter exceeds 1 by at most the tolerance. Just above 0 it chooses the last piece.", "quantifier": "for all lists of pieces and all parameters", "why_tests_cant": "all parameters, including those exactly at and just beside the ends of the pieces", "anchors": ["examples/subset_selection/utils.py: lines 69-73"]}
{"id": "C147", "title": "Cubic splines for fronts", "statement": "Between two breaks the value is that of the cubic polynomial of the piece and the other two results are its derivatives; below the first break IndexError. At the last break the value is that of the last piece at its left end (version of ZDT1), so the approximation jumps, or IndexError (version of Dent).", "quantifier": "for all coefficients, increasing breaks and arguments", "why_tests_cant": "all arguments, including the breaks", "anchors": ["examples/HVSS/ZDT1/spline.py: lines 10-27", "examples/HVSS/Dent/spline.py: lines 10-26"]}
{"id": "C148", "title": "The constraint \"on the curve\"", "statement": "The equality constraint of the examples has the right gradient and Hessian for the curve y(x) - z (ZDT1). In scaled coordinates (TwoOnOne) the factors of the scaling are missing; with the bounds used there the gradient is wrong at every point whatever the curve.", "quantifier": "for all smooth curves and points", "why_tests_cant": "all curves and points", "anchors": ["examples/HVSS/ZDT1/example.py: lines 54-63", "examples/HVSS/TwoOnOne/example.py: lines 30-31, 62-74"]}
{"id": "C149", "title": "Jacobian cleared at the boundary", "statement": "A gradient in objective space multiplied by the Jacobian of the example keeps the entries of coordinates other than 0 and 1 and clears the others.", "quantifier": "for all points and gradients", "why_tests_cant": "all points, with coordinates at 0 or 1 in any number", "anchors": ["examples/HVSS/ZDT1/example.py: lines 39-47"]}
{"id": "C150", "title": "Union of boxes as a constraint", "statement": "The values of union_box_constraint belong to the box with the nearest centre: all are at most 0 exactly if the point is in that box, so a point satisfying the constraint is in the union. For intervals of equal length the converse holds; in general a point of the union may violate the constraint.", "quantifier": "for all points, centres and half radii of any dimension and number", "why_tests_cant": "boxes of different sizes overlap in ways the single test point does not show", "anchors": ["examples/HVSS/box_domain.py: union_box_constraint lines 5-25"]}
{"id": "C151", "title": "Polynomial features and the layer behind them", "statement": "poly_features returns one column for each multiset (subset with interaction_only) of 1 to degree columns. The linear layer of PolynomialRegression has the right width exactly for degree 2; for every other degree forward raises.", "quantifier": "for all degrees, numbers of columns and inputs", "why_tests_cant": "the counts are combinatorial; all examples use degree 2", "anchors": ["examples/HVSS/base.py: lines 24-71"]}
{"id": "C152", "title": "Fronts as problems with identity objective", "statement": "For the convex, concave and linear front every feasible point is optimal, and the inequality constraint follows from the equality constraint and the bounds. The rows returned by get_pareto_front are feasible for the concave and the linear one; for the convex one no returned row is feasible.", "quantifier": "for all points", "why_tests_cant": "all feasible points, a continuum", "anchors": ["examples/HVSS/run3D_example.py: lines 39-108"]}
{"id": "C153", "title": "MOP1 of the examples", "statement": "The Pareto set of MOP1 in R^n is exactly the set of p(1,...,1) with -1 <= p <= 1; Jacobian and Hessian give the exact expansion of objectives and constraint; on the unit sphere the sum of the objectives is constant, so all feasible points are optimal.", "quantifier": "for all dimensions and points", "why_tests_cant": "all points of R^n", "anchors": ["examples/HVN/2D_example.py: lines 27-57"]}
{"id": "C154", "title": "Initial points from clusters", "statement": "select_initial_points returns N different indices of different clusters, each nearest to its centre among the points of its cluster; it raises exactly if fewer than N of the 2N clusters are not empty.", "quantifier": "for all points, labels and centres of KMeans and answers of random.sample", "why_tests_cant": "all possible answers of KMeans", "anchors": ["examples/HVSS/run3D_example.py: select_initial_points lines 111-128"]}
{"id": "C155", "title": "Tables of wins, ties and losses", "statement": "In compute_statistics.py wins, ties and losses sum to the number of rows, ties are the rows not rejected and wins those rejected with smaller first median; rejected rows with equal medians count as losses whichever side comes first. In the HVSS table the median of the other algorithm is compared with its own range of quantiles: given the decisions the table does not depend on the data of HVN, it counts all rejections as wins if the values of the other algorithm spread less than their size, and may count a rejection as a loss although all values of HVN are larger.", "quantifier": "for all data and decisions of the test", "why_tests_cant": "all data sets", "anchors": ["scripts/compute_statistics.py: lines 70-84", "examples/HVSS/compute_stats.py: lines 40-54"]}
{"id": "C156", "title": "Files of B-splines", "statement": "read_bspline_csv reads back every well-formed file, with or without header; rows with a number of fields other than three are dropped silently; without a degree section the degree is None. The header is recognised in the first line only: after an empty line it raises ValueError.", "quantifier": "for all files, and all functions as float", "why_tests_cant": "all texts", "anchors": ["examples/HVSS/utils.py: read_bspline_csv lines 8-46"]}
{"id": "C157", "title": "Set-up of the evolutionary algorithms", "statement": "Whenever a set-up exists there are at least one and at most as many reference directions as individuals, of the dimension of the objective space. Set-ups exist exactly for 2 to 4 objectives and the four algorithms, except MOEA/D with 4 objectives in run_EA_save_population.py, which raises ValueError. The populations of the last six generations are saved if all are performed; an exception is raised exactly if fewer than n_gen - 5 are. benchmark_EA.py raises if there is no feasible point although NaN values are meant.", "quantifier": "for all numbers of objectives, algorithms and numbers of generations", "why_tests_cant": "all numbers of generations; the failing combination takes hours to reach", "anchors": ["scripts/run_EA_save_population.py: lines 60-117", "scripts/benchmark_EA.py: lines 113-153, 178-183"]}
{"id": "C158", "title": "Curve fitted to ZDT1", "statement": "On [0,1] the first objective of the Bezier curve is strictly increasing and the second strictly decreasing, so no point of the curve dominates another; outside there is no value; the ends are the first and last control points.", "quantifier": "for all parameters", "why_tests_cant": "a continuum of parameters", "anchors": ["examples/HVSS/ZDT1/B_spline.py: lines 6-26"]}
{"id": "C159", "title": "Best values and points from the archive", "statement": "The running best values are the maxima of the first values, never decrease, and end with the maximum of the run. The points selected from the archive are, one for each point, nearest ones; the same one may be selected several times.", "quantifier": "for all histories, archives and points", "why_tests_cant": "all histories and archives", "anchors": ["examples/HVSS/run.py: lines 68-79"]}
{"id": "C160", "title": "Cluster of a point in the CONV4 benchmark", "statement": "A point is put into a cluster whose farthest point is nearest, so a point that is itself in one cluster may be put into another one.", "quantifier": "for all clusters and points", "why_tests_cant": "all clusters", "anchors": ["scripts/benchmark_CONV4.py: match_cluster lines 32-36"]}
{"id": "C161", "title": "UF1-UF10 are the published functions", "statement": "The objectives computed for UF1 to UF10 are those of the CEC 2009 publication: index sets, targets, penalties and the constants of UF5, UF6 and UF9.", "quantifier": "for all numbers of variables (at least 3, resp. 5) and all points", "why_tests_cant": "all points; the tests compare a few points only", "anchors": ["hvd/problems/uf.py: lines 65-218"]}
{"id": "C162", "title": "CF1-CF10 are the published functions", "statement": "For even numbers of variables and points in the box the objectives of CF1 to CF10 except CF4 are the published ones, and the constraint values are minus the published ones. In CF4 the term of the second variable is the constant 0.125 beyond the threshold instead of 0.125 + (t-1)^2: the second objective is smaller by exactly (t-1)^2.", "quantifier": "for all even numbers of variables, all points of the box and all objective vectors", "why_tests_cant": "all points", "anchors": ["hvd/problems/cf.py: lines 43-586"]}
{"id": "C163", "title": "ZDT1-ZDT6 are the published functions", "statement": "ZDT2 is the published function; ZDT1, ZDT3 and ZDT4 have the published first objective and a second one that differs by at most g*1e-6, and not at all where x1/g >= 1e-12; ZDT6 is the published function where the mean of the other variables is at least 1e-12.", "quantifier": "for all numbers of variables (at least 2) and all points with non-negative entries (ZDT4: non-negative first entry)", "why_tests_cant": "all points", "anchors": ["hvd/problems/zdt.py: lines 35-111"]}
{"id": "C164", "title": "DTLZ1-DTLZ7 are the published functions", "statement": "The computed objectives are the published products, for every number of objectives: factor c, product over the first m-i position variables, last factor of variable m-i+1, and the distance functions over the variables m,...,n. DTLZ6 where the distance variables are at least 1e-30.", "quantifier": "for all numbers of variables n, objectives m <= n and points", "why_tests_cant": "all points and numbers of objectives", "anchors": ["hvd/problems/dtlz.py: lines 41-170"]}
{"id": "C165", "title": "WFG1-WFG9 are the published functions", "statement": "For accepted parameters and every point of the box the nine functions are those of the WFG publication: the shift, bias and reduction transformations with their constants, the order of the stages, the degeneracy of WFG3, the shapes and the scales 2m.", "quantifier": "for all accepted parameters (numbers of variables, objectives, position and distance parameters), all positive upper bounds and all points of the box", "why_tests_cant": "all parameters and points; covers every branch of the floor functions", "anchors": ["hvd/problems/wfg.py: lines 16-297", "hvd/problems/wfg.py: lines 350-361"]}
{"id": "C166", "title": "The reported fronts of ZDT, UF and CF, vector for vector", "statement": "The front methods return exactly the published curve at N equidistant parameters in increasing order; UF6, CF2 and CF3 exactly the samples outside the gaps; ZDT3 the five intervals; CF8 the five arcs with 1 in the second column. For CF2 a sampled vector is reported iff it is optimal and its first entry is not 0.", "quantifier": "for all numbers of points N and all numbers of variables", "why_tests_cant": "membership in both directions for every N", "anchors": ["hvd/problems/zdt.py: lines 29-31", "hvd/problems/zdt.py: lines 39-75", "hvd/problems/uf.py: lines 46-151", "hvd/problems/cf.py: lines 65-67", "hvd/problems/cf.py: lines 128-132", "hvd/problems/cf.py: lines 179-183", "hvd/problems/cf.py: lines 235-242", "hvd/problems/cf.py: lines 364-371", "hvd/problems/cf.py: lines 474-483"]}
{"id": "C167", "title": "Non-dominated sorting on IEEE doubles", "statement": "Run with IEEE binary64 numbers and comparisons, and with no NaN in the data, is_dominate decides dominance, non_domin_sort returns exactly the peeled fronts and get_non_dominated (default) the rows no other row weakly dominates; infinities, subnormal numbers and both signs of zero included. With NaN is_dominate skips the coordinate and is cyclic (refuted).", "quantifier": "for all lists of vectors of doubles without NaN, any number of points and objectives", "why_tests_cant": "quantifies over all 2^64 bit patterns per coordinate and over all sizes", "anchors": ["hvd/utils.py: lines 224-246", "hvd/utils.py: lines 303-327", "hvd/utils.py: lines 330-752"]}
{"id": "C168", "title": "Hypervolume of doubles on a grid is exact", "statement": "Computed with IEEE binary64 arithmetic, the hypervolume of points and a reference point on a grid of spacing 2^e is exactly the hypervolume, no rounding at all, if the relevant points are at most W grid steps below the reference point and W^m <= 2^53 (and m e within the exponent range); in particular for integer coordinates. With the bound -1.0e308 of the code and every sorting np.argsort.", "quantifier": "for all sets of any size, all doubles on the grid, one to three objectives, any sorting permutation", "why_tests_cant": "quantifies over all doubles, all sizes and every tie-breaking of the sort", "anchors": ["hvd/hypervolume.py: lines 6-142"]}
{"id": "C169", "title": "Rounding error of the hypervolume in doubles", "statement": "For coordinates that are zero or between 2^-250 and 2^250 in size and at most 2^50 points, the hypervolume computed in IEEE binary64 arithmetic succeeds, is finite and has relative error at most (2n+8) 2^-52; dominated points and ties included. Monotonicity is lost: adding a dominated point can lower the computed value (refuted).", "quantifier": "for all sets of moderate doubles, one to three objectives, any sorting permutation", "why_tests_cant": "an error bound for all doubles, all sizes and every tie-breaking of the sort", "anchors": ["hvd/hypervolume.py: lines 6-142"]}
{"id": "C170", "title": "Gradient of the hypervolume in doubles", "statement": "Computed with IEEE binary64 arithmetic: with two objectives every entry of the gradient with respect to the objectives is the partial derivative of the hypervolume correctly rounded, for all finite coordinates up to 2^1022 in size; with two to four objectives the entries are exactly the partial derivatives if the coordinates lie on a grid of spacing 2^e within W steps and W^(m-1) <= 2^53; with three and four objectives and coordinates zero or between 2^-250 and 2^250 in size within an interval of length B, the absolute error is at most (4n+18) 2^-52 B^(m-1). Entries for dominated points are within the same distance of 0, all entries are finite.", "quantifier": "for all nonempty sets of any size of points strictly below the reference point, dominated and equal points included; partial derivatives for the coordinates without ties; any sorting permutation", "why_tests_cant": "quantifies over all doubles, all sizes and every tie-breaking of the sort", "anchors": ["hvd/hypervolume_derivatives.py: lines 27-31, 99-111, 161-199, 276-297, 337-373", "hvd/hypervolume.py: lines 6-142"]}
{"id": "C171", "title": "Hessian of the hypervolume in doubles", "statement": "Computed with IEEE binary64 arithmetic for points in general position: with two and three objectives every entry of the Hessian with respect to the objectives is the second derivative of the hypervolume correctly rounded; with three to five objectives exact on a grid with W^(m-2) <= 2^53; with four and five objectives the absolute error is at most (4n+18) 2^-52 B^(m-2). All entries are finite.", "quantifier": "for all nonempty sets of any size of points in general position strictly below the reference point, dominated points included; any sorting permutation", "why_tests_cant": "quantifies over all doubles, all sizes and every sort", "anchors": ["hvd/hypervolume_derivatives.py: lines 27-31, 99-111, 201-247, 276-297, 337-373", "hvd/hypervolume.py: lines 6-142"]}
{"id": "C172", "title": "Automatic and analytic derivatives agree", "statement": "compute_automatic_differentiation returns the derivatives of the hypervolume for the reference point of the object: gradient and Hessian in decision space are the true derivatives for any number of objectives from two on; HVdY is the gradient with respect to the objective values of the user, also when maximising; and all four entries of its dictionary (HVdX, HVdY, HVdX2, HVdY2) equal those of the analytic computation for two to five objectives (six with a stable sort). The wrappers HVY and HVX return the hypervolume of the rows of a flat vector, or a ValueError if it cannot be cut into rows.", "quantifier": "for all objects whose reference point has not been changed since the first call, all sets of points in general position inside the box, all objective functions with the given Jacobian and Hessian, and every autograd that differentiates the hypervolume function correctly at such points", "why_tests_cant": "the tests compare the two at a few points; the claim is for all sets of points, any number of them, any number of objectives", "anchors": ["hvd/hypervolume_derivatives.py: lines 13-24, 66-92, 189-199, 201-274, 299-335, 375-400", "tests/test_2D.py: line 64", "tests/test_ND.py: line 55"]}
{"id": "C173", "title": "Changing the reference point", "statement": "Automatic derivatives are computed for the current reference point of the object. False: the functions to be differentiated are built at the first call and keep the reference point of that time; the setter of ref does not discard them, so later calls return the same as if the reference point had not been set. A reference point set before the first call is used.", "quantifier": "for all objects, points, reference points and all autograds", "why_tests_cant": "a test creates a new object for each reference point", "anchors": ["hvd/hypervolume_derivatives.py: lines 77-92, 322-325"]}
{"id": "C174", "title": "Start without an initial population", "statement": "Without X0 the three Newton methods draw N points in the box: each coordinate is the affine image of a random number in [0, 1), so all points lie in the box, below the upper bound wherever the interval is not a single point, and every point of the half-open box can be drawn. The constructor raises an AssertionError exactly if N is missing or a bound is infinite. From then on HVN, DpN and MMDNewton behave exactly as if the drawn points had been given as X0. The numbers of constraints found at the random trial point are those of the functions, unless a function returns an array without dimensions, for which the constructor raises a TypeError.", "quantifier": "for all sizes, dimensions, bounds (infinite ones included), random draws and problems", "why_tests_cant": "a test draws a few populations", "anchors": ["hvd/newton.py: lines 83-95, 97-115, 409-421, 423-440", "hvd/mmd_newton.py: lines 116-128, 130-147"]}
{"id": "C175", "title": "Rounding when points are drawn", "statement": "In IEEE double arithmetic a drawn coordinate rand * (xu - xl) + xl is finite and never leaves [xl, xu], for all finite bounds whose difference does not overflow and all random numbers NumPy can return, although the width, the product and the sum are rounded (the points are not clipped afterwards). The upper bound itself can be hit. If the difference of the bounds overflows, NaN or infinity is returned although the assertions of the code pass.", "quantifier": "for all doubles as bounds and all multiples of 2^-53 in [0, 1) as random numbers, in any dimension", "why_tests_cant": "the rounding error would show up for few bounds only; no test covers all doubles", "anchors": ["hvd/newton.py: lines 87, 110-111, 413, 436-437", "hvd/mmd_newton.py: lines 120, 143-144"]}
{"id": "C176", "title": "Neighbourhoods of MOEA/D", "statement": "The set-up of ConstraintAwareMOEAD gives every reference direction a neighbourhood of min(n_neighbors, number of directions) different directions such that no direction outside is closer than one inside; the population size is the number of directions. A direction that differs from all others is the first of its own neighbourhood. With equal directions this is false: the order of equal distances is open, and a direction can be missing in its own neighbourhood.", "quantifier": "for all reference directions in any dimension, all sizes of the neighbourhood and every argsort that sorts", "why_tests_cant": "a test looks at one set of directions with one sorting routine", "anchors": ["hvd/moea/moead.py: lines 28-36"]}
{"id": "C177", "title": "Replacement in the population of MOEA/D", "statement": "An offspring for direction k replaces exactly those members of the neighbourhood of k that it beats for their own direction (smaller violation above the tolerance, or no violation above the tolerance and a smaller decomposed value); all other members stay, and no index error occurs. Over any sequence of offspring no subproblem gets worse, for a fixed tolerance and ideal point; every changed member is one of the offspring and was offered to a neighbourhood it belongs to.", "quantifier": "for all populations, directions, decompositions, offspring and all lengths of the sequence", "why_tests_cant": "tests run a few generations; the claim is an invariant over all sequences", "anchors": ["hvd/moea/moead.py: lines 32-34, 50-65"]}
{"id": "C178", "title": "Lists of MultiList", "statement": "In a new MultiList every list is empty. append and extend put the nodes at the end of the given list, and change no other list and no bound; extend is append for each node in turn. Reading the list forwards and backwards gives the same nodes in opposite orders. getLength returns the number of nodes and __str__ visits exactly the nodes of every list in order. On links that never come back to the sentinel getLength does not end.", "quantifier": "for all numbers of lists and nodes and all contents of the lists", "why_tests_cant": "the data structure is exercised in tests only through complete hypervolume computations", "anchors": ["hvd/hypervolume.py: lines 174-243"]}
{"id": "C179", "title": "Removal and reinsertion in MultiList", "statement": "remove takes a node out of exactly the lists below the index and keeps the order of the other nodes, leaves the other lists alone, keeps the links of the node itself, and lowers each bound below the index to the coordinate of the node when that is smaller. Any sequence of removals of different nodes, with any indices, is undone by reinserting in the opposite order: all links are exactly as before. Another order need not restore the lists.", "quantifier": "for all contents of the lists, all sequences of removals of any length and all indices", "why_tests_cant": "the invariant holds over all sequences; tests see a few of them, and only through the value of the hypervolume", "anchors": ["hvd/hypervolume.py: lines 245-267"]}
{"id": "C180", "title": "Analytical front of the HVSS components example", "statement": "Along FLatConvex and along Linear the first objective grows and the second falls strictly, so neither piece has a dominated point; on Linear the sum of the objectives is constant. The piecewise problem runs through FLatConvex on [0, 1/2) and Linear on [1/2, 1], and every point is below the reference point (2, 1). The curve as a whole is not a Pareto front: the constant 0.92713359 is smaller than the first objective 0.95^1.475 at the end of FLatConvex, so parameters just below 1/2 are dominated by the parameter 1/2. Only such points are dominated, and their first objective exceeds the constant by less than 5e-9.", "quantifier": "for all parameters in [0, 1]", "why_tests_cant": "the overlap is a few billionths wide; a grid of parameters (the example uses 1000 points up to 0.4999) does not meet it", "anchors": ["examples/HVSS/components.py: lines 29-94"]}
{"id": "C181", "title": "Reported front of ZDT3 contains dominated points", "statement": "get_pareto_front of ZDT3 returns five blocks of max(1, n_points // 5) rows, and flatten=True their concatenation. The rounded ends of the regions do not fit together: from 10 points on, the ends of the second, third and fourth block dominate the beginnings of the third, fourth and fifth block (by 1e-10 to 7e-10 in the second objective, far above the precision of doubles); for every number of points these three reported vectors are not Pareto-optimal for the problem.", "quantifier": "for all numbers of points and of variables", "why_tests_cant": "the difference is below the tolerance of a usual comparison, and a test would compare with the same constants", "anchors": ["hvd/problems/zdt.py: lines 53-75"]}
{"id": "C182", "title": "A part of the front of ZDT3 is never reported", "statement": "The second region of ZDT3 begins at 0.182228780, while the front begins at 0.18222872...: the Pareto-optimal vector with first objective 0.18222875 is farther than 1e-8 from every reported vector in the first objective, for every number of points.", "quantifier": "for all numbers of points and of variables", "why_tests_cant": "optimality of the missing vector quantifies over all points of the box", "anchors": ["hvd/problems/zdt.py: lines 54-62, 70-75"]}
{"id": "C183", "title": "Location of the front of ZDT3", "statement": "The first objectives of the Pareto front of ZDT3 form five regions, known up to 1e-8 (3e-8 at the beginning of the second): all values in five inner intervals belong to the front, and no value outside of five slightly larger ones does. Hence every vector that get_pareto_front reports has its first objective within 1e-8 of an optimal one and is itself optimal unless it lies within 1e-8 of an end of a region (or below the floor 1e-12), and the front is within 1e-7 of the reported regions.", "quantifier": "for all numbers of points and of variables, all values of the first objective", "why_tests_cant": "optimality quantifies over all points of the box and the constants are accurate to 1e-8", "anchors": ["hvd/problems/zdt.py: lines 53-75"]}
{"id": "C184", "title": "Three-objective example problems", "statement": "The problems defined in 3D_example1.py and 3D_example2.py (squared distances to three centres): the hand-written Jacobians and Hessians of objectives and constraints are the derivatives; convex combinations of the centres are optimal without constraints. 3D_example1 (HVN): every sampled point is on the sphere and Pareto-optimal on it. 3D_example2 with the constraint of the DpN script (x[0] >= 0): a point is optimal exactly if x[0] = 0 and the rest is a convex combination of the projected centres, so the two ends of every sampled row, moved outwards by 0.01, are not. 3D_example2 of HVN passes x[0] as inequality constraint (x[0] <= 0): no point of the reported front is optimal.", "quantifier": "for all points, centres and rows", "why_tests_cant": "optimality quantifies over a continuum; the sampled fronts are only plotted or used as reference sets", "anchors": ["examples/HVN/3D_example1.py: lines 14-76", "examples/HVN/3D_example2.py: lines 31-89, 115-133", "examples/DpN/3D_example2.py: lines 64-87"]}
{"id": "C185", "title": "Two-objective example problems", "statement": "EqCon1.py (HVN and DpN variants): the Pareto front under x[1] = 0 is exactly the image of the segment from -1 to 1, for every box that contains it, and all sampled points are optimal. concave_example.py and convex_example.py: the front of the identity under the constraint is exactly the curve 1 - t^2 respectively (1 - t)^2 for t in [0, 1]. All hand-written gradients and Hessians are the derivatives.", "quantifier": "for all points of the boxes", "why_tests_cant": "optimality quantifies over a continuum", "anchors": ["examples/HVN/EqCon1.py: lines 28-79", "examples/DpN/EqCon1.py: lines 30-58", "examples/HVN/concave_example.py: lines 29-50", "examples/HVN/convex_example.py: lines 29-50"]}
{"id": "C186", "title": "Asserted Hessian of the four-objective example", "statement": "The 20 x 20 matrix asserted in 4D_example_Hessian.py is what _compute_hessian gives, for every admissible sorting routine and sentinel, and its entries are the second derivatives of the hypervolume.", "quantifier": "for all sorting routines that sort, all sentinels up to -100, all entries", "why_tests_cant": "the script tests one sorting routine and cannot test that the numbers are the derivatives", "anchors": ["examples/HV_Hessian/4D_example_Hessian.py: lines 10-44", "hvd/hypervolume_derivatives.py: lines 201-247"]}
{"id": "C187", "title": "Start of the subset selection", "statement": "sort_splines returns the same splines, ordered by the first objective at parameter 0. get_preimage recovers every point of the curve if the scalar minimiser returns a global minimiser of the distance, and need not if it returns a local one. The reference point 1.5 * max(data) is strictly above all data if every objective is positive somewhere on the data; if an objective is negative on all data, the worst data point in it lies beyond the reference point.", "quantifier": "for all splines, curves, minimisers and data", "why_tests_cant": "the splines and data are read from files; no test uses an objective with negative values", "anchors": ["examples/HVSS/utils.py: lines 49-66", "examples/HVSS/run.py: lines 46-47"]}
{"id": "C188", "title": "Calls of the constructors in examples and scripts", "statement": "A call binds its arguments exactly if it has not too many positional arguments, gives no parameter twice, has no unknown keyword (without **kwargs) and gives every parameter without default; otherwise it raises TypeError. Of the transcribed calls of HVN, DpN and MMD in examples and scripts exactly one of HVN, thirteen of DpN and two of MMD raise TypeError; every call of DpN with X0 and of HVN with x0 does. All calls of MMDNewton, including the keywords passed on to the indicator, bind.", "quantifier": "binding: for all signatures and calls; table: all calls in the repository without ** dictionaries", "why_tests_cant": "the example and benchmark scripts are not run by any test", "anchors": ["hvd/newton.py: lines 36-60, 331-355", "hvd/mmd.py: lines 41-52, 255-267", "hvd/mmd_newton.py: lines 38-61, 100-106", "examples/DpN/example_ZDT3.py: lines 36-55", "scripts/benchmark_HVN.py: lines 27-46", "examples/MMD/set_theta.py: lines 47-57"]}
{"id": "C189", "title": "Table of four methods and failed runs", "statement": "compute_statistics_ICML.py: each comparison counts every problem once, wins are the rejected problems with larger first median. The decisions for the comparison with the MOEA alone are those of the second comparison: the table does not depend on its p-values, its ties always equal those of the second comparison, and it may have none although no test rejects. Runs of benchmark_DpN2.py and benchmark_Lara.py that raise an exception are entered as (0, 0): no order statistic and no median is larger than with any nonnegative values of these runs, and a method all of whose runs fail has the best possible median.", "quantifier": "for all data, tests and corrections", "why_tests_cant": "the published tables are made by the script itself", "anchors": ["scripts/compute_statistics_ICML.py: lines 37-98", "scripts/benchmark_DpN2.py: lines 81-110", "scripts/benchmark_Lara.py: lines 79-103"]}
