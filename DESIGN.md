# Formal model of hvd (HypervolumeDerivatives) in Rocq/Coq 8.16.1

This file states what is modelled, how each property of `properties.jsonl` is
attacked, and what has to be trusted.  The status of every property is in
`MANIFEST.json`.

## 1. Layout

* `rocq/theories/*Model.v` – definitions only, one comment per definition citing
  the lines of `/repo/hvd` it models and every simplification.
* `rocq/theories/*Spec.v` – small specifications, independent of the models.
* `rocq/theories/*Proof*.v` – lemmas.
* `rocq/theories/Props*.v` – the property theorems: statement, `exact lemma`,
  `Print Assumptions`, and an `Example` showing the hypotheses are satisfiable.

## 2. Numbers

The code computes with IEEE doubles.  The models are polymorphic in a record of
operations (class `Num`: 0, 1, +, -, *, /, <, =); theorems are proved at the
instance of the real numbers `R` (Coq standard library), sanity computations run
at `Z` (or `Q`).  So *rounding is not modelled* in these theorems: they are about the
exact-arithmetic algorithm.  The exceptions are C167 and later, where the same generic models are instantiated at the
IEEE binary64 numbers of Flocq (`DblModel`, round to nearest even), with rounding, overflow, infinities and signed zeros.  Infinities and NaN are modelled explicitly only where control flow
depends on them (DpN box handler, `handle_box_constraint`, line search
interpolation).

Exceptions are values (`res`, see `Exn.v`), loops are structural recursion or
fuelled recursion with an explicit out-of-fuel error that the theorems exclude.
External calls (argsort tie order, linear_sum_assignment, KMedoids, Cholesky,
LocalOutlierFactor, random numbers, user callbacks) are explicit parameters; each
theorem states the assumption it makes about them as a hypothesis.

## 3. Plan per property

* C01 pointer-level model of `HyperVolume` (node store with next/prev arrays,
  cached area/volume, ignore flags, bounds); specification = volume of a union of
  boxes, defined by inclusion/exclusion on corner points, itself validated against
  an iterated Riemann integral of the indicator function.  Proof: a purely
  functional sweep equals the specification; the pointer program refines the sweep
  (invariants: dancing-link lists represent sub-lists of fixed sorted lists, cached
  entries below `bounds` are valid, ignored nodes are dominated).
* C02–C05 consequences, proved on the specification and transported by C01.
* C06–C09 `_project`, `hypervolume_dY`, `_compute_gradient`, `_compute_hessian`
  modelled on top of the hypervolume *specification-equal* function; derivatives
  stated as exact affine identities on an interval (and `is_derive` as corollary).
  C08 is expected to be refuted by the 2-D formula.
* C10 matrices as lists of rows, block assembly, symmetrisation.
* C11 expected to be refuted (`Y` argument is not negated).
* C12–C13 function-by-function model of `non_domin_sort` on a mutable front array;
  specification = longest dominating chain; fuelled recursion, termination proved.
* C14–C16 direct models; C16 expected to be refuted by duplicates.
* C17–C18 floor/mod model on R with optional (non-finite) bounds; shape logic modelled
  separately; C18 expected to be refuted for n = d.
* C19 list model of ragged boolean masks.
* C20–C24 State as a record; callbacks as functions; batch variants modelled by
  an arbitrary function that agrees row-wise; save/load with an explicit dictionary
  of attributes and an exception value (C23 expected to be refuted: key `_jac`).
* C25–C31 line searches and box handlers, numpy NaN/inf semantics made explicit
  through an extended-number type; C26, C28, C30 expected to be refuted.
* C32–C35 population de-duplication, layers, run loops with arbitrary bodies; C35
  expected to be refuted (`stop_dict` is sticky).
* C36–C38 ReferenceSet as a state machine with solver oracles; C38 expected to be
  refuted (row indices of the assignment are discarded).
* C39–C42 GD/IGD over R with derivatives (Coquelicot `is_derive`); C40 and the
  matching half of C41 expected to be refuted.
* C43–C44 MMD with an arbitrary kernel; C44 needs a model of the trace cache.
* C45–C48 problem utilities, DTLZ, boundary constraints, constructor validation.
* C49–C50, C52 Monte-Carlo estimators, survival, dynamic hypervolume.
* C51 Cholesky as an oracle.
* C53 RSG counts (expected to be refuted: rounding), C54 backend switching as a
  try/finally state machine, C55 MOEA/D epsilon and generation draining, C56–C57
  utilities.
* C58–C59 gradient and Hessian of the hypervolume in decision space by the chain
  rule, on top of C07 and C09; objectives are arbitrary twice differentiable functions.
* C60 `check_KKT`: the linear program is posed explicitly, its answer is an oracle.
* C61–C64 MMD with and without matching: gradient and Hessian against Coquelicot
  derivatives for an arbitrary smooth kernel, then the three shipped kernels; shape
  check of `_check_X`; the `re_match` flag as a two-object state machine.
* C65–C67 optimum of the DTLZ distance functions, number of objective values, reported
  fronts of the inverted and constrained variants.
* C68–C70 tournament, generation step of SMS-EMOA, constraint-aware MOEA/D replacement.
* C58–C59 gradient and Hessian of the hypervolume in decision space by the chain
  rule, on top of C07 and C09; objectives are arbitrary twice differentiable functions.
* C60 `check_KKT`: the linear program is posed explicitly, its answer is an oracle.
* C61–C64 MMD with and without matching: gradient and Hessian against Coquelicot
  derivatives for an arbitrary smooth kernel, then the three shipped kernels; shape
  check of `_check_X`; the `re_match` flag as a two-object state machine.
* C65–C67 optimum of the DTLZ distance functions, number of objective values, reported
  fronts of the inverted and constrained variants.
* C68–C70 tournament, generation step of SMS-EMOA, constraint-aware MOEA/D replacement.

* C71–C77 the system R = 0 and the Newton steps: block matrices, masks and packing as lists; the
  specification `linear_kkt` is a sum formula per point; solvers are parameters; derivative of
  the norm of R along the step with Coquelicot; affine systems; direction of preconditioned
  steps; layers and update of HVN.iterate.
* C58–C59 gradient and Hessian of the hypervolume in decision space by the chain
  rule, on top of C07 and C09; objectives are arbitrary twice differentiable functions.
* C60 `check_KKT`: the linear program is posed explicitly, its answer is an oracle.
* C61–C64 MMD with and without matching: gradient and Hessian against Coquelicot
  derivatives for an arbitrary smooth kernel, then the three shipped kernels; shape
  check of `_check_X`; the `re_match` flag as a two-object state machine.
* C65–C67 optimum of the DTLZ distance functions, number of objective values, reported
  fronts of the inverted and constrained variants.
* C68–C70 tournament, generation step of SMS-EMOA, constraint-aware MOEA/D replacement.

* C78–C83 fronts of the ZDT, UF and CF benchmarks: optimality over the whole box in any
  dimension against the short specification `front` of `BenchSpec.v`; index groups.
* C58–C59 gradient and Hessian of the hypervolume in decision space by the chain
  rule, on top of C07 and C09; objectives are arbitrary twice differentiable functions.
* C60 `check_KKT`: the linear program is posed explicitly, its answer is an oracle.
* C61–C64 MMD with and without matching: gradient and Hessian against Coquelicot
  derivatives for an arbitrary smooth kernel, then the three shipped kernels; shape
  check of `_check_X`; the `re_match` flag as a two-object state machine.
* C65–C67 optimum of the DTLZ distance functions, number of objective values, reported
  fronts of the inverted and constrained variants.
* C68–C70 tournament, generation step of SMS-EMOA, constraint-aware MOEA/D replacement.
* C58–C59 gradient and Hessian of the hypervolume in decision space by the chain
  rule, on top of C07 and C09; objectives are arbitrary twice differentiable functions.
* C60 `check_KKT`: the linear program is posed explicitly, its answer is an oracle.
* C61–C64 MMD with and without matching: gradient and Hessian against Coquelicot
  derivatives for an arbitrary smooth kernel, then the three shipped kernels; shape
  check of `_check_X`; the `re_match` flag as a two-object state machine.
* C65–C67 optimum of the DTLZ distance functions, number of objective values, reported
  fronts of the inverted and constrained variants.
* C68–C70 tournament, generation step of SMS-EMOA, constraint-aware MOEA/D replacement.

* C84–C88 the WFG toolkit: every transformation maps [0, 1] into itself; constructive preimages
  of every position vector with distance 0; shape vectors as a recursive fan; antichains.
* C58–C59 gradient and Hessian of the hypervolume in decision space by the chain
  rule, on top of C07 and C09; objectives are arbitrary twice differentiable functions.
* C60 `check_KKT`: the linear program is posed explicitly, its answer is an oracle.
* C61–C64 MMD with and without matching: gradient and Hessian against Coquelicot
  derivatives for an arbitrary smooth kernel, then the three shipped kernels; shape
  check of `_check_X`; the `re_match` flag as a two-object state machine.
* C65–C67 optimum of the DTLZ distance functions, number of objective values, reported
  fronts of the inverted and constrained variants.
* C68–C70 tournament, generation step of SMS-EMOA, constraint-aware MOEA/D replacement.

* C89–C93 fronts of the problems of `misc.py`: projections onto triangles and tetrahedra as
  weights; the second sheet of CONV4_2F; dominance under the modified objectives.
* C94–C97 the gradient method: one iteration (thinning, common step size, box), descent, NaN as
  `None`, and the run on the loop model of `NewtonModel`.
* C58–C59 gradient and Hessian of the hypervolume in decision space by the chain
  rule, on top of C07 and C09; objectives are arbitrary twice differentiable functions.
* C60 `check_KKT`: the linear program is posed explicitly, its answer is an oracle.
* C61–C64 MMD with and without matching: gradient and Hessian against Coquelicot
  derivatives for an arbitrary smooth kernel, then the three shipped kernels; shape
  check of `_check_X`; the `re_match` flag as a two-object state machine.
* C65–C67 optimum of the DTLZ distance functions, number of objective values, reported
  fronts of the inverted and constrained variants.
* C68–C70 tournament, generation step of SMS-EMOA, constraint-aware MOEA/D replacement.

* C98–C102 shifts of the reference set: the direction over a QR oracle, the masks of DpN and
  MMDNewton on top of C36, step size and update of MMDNewton, matching during line searches.
* C58–C59 gradient and Hessian of the hypervolume in decision space by the chain
  rule, on top of C07 and C09; objectives are arbitrary twice differentiable functions.
* C60 `check_KKT`: the linear program is posed explicitly, its answer is an oracle.
* C61–C64 MMD with and without matching: gradient and Hessian against Coquelicot
  derivatives for an arbitrary smooth kernel, then the three shipped kernels; shape
  check of `_check_X`; the `re_match` flag as a two-object state machine.
* C65–C67 optimum of the DTLZ distance functions, number of objective values, reported
  fronts of the inverted and constrained variants.
* C68–C70 tournament, generation step of SMS-EMOA, constraint-aware MOEA/D replacement.

* C103–C105 conversions from and to pymoo: records of callbacks, the tracing of JAX as an oracle for the keys.
* C106–C108 bootstrapping of the reference set: the run as a trajectory over an abstract Newton
  iteration, the filter on top of C15.
* C58–C59 gradient and Hessian of the hypervolume in decision space by the chain
  rule, on top of C07 and C09; objectives are arbitrary twice differentiable functions.
* C60 `check_KKT`: the linear program is posed explicitly, its answer is an oracle.
* C61–C64 MMD with and without matching: gradient and Hessian against Coquelicot
  derivatives for an arbitrary smooth kernel, then the three shipped kernels; shape
  check of `_check_X`; the `re_match` flag as a two-object state machine.
* C65–C67 optimum of the DTLZ distance functions, number of objective values, reported
  fronts of the inverted and constrained variants.
* C68–C70 tournament, generation step of SMS-EMOA, constraint-aware MOEA/D replacement.

* C109–C111 Pareto sets of DTLZ: total and norm of the objectives for optimality, the row with the same
  position variables for the converse; concavity of the sine for the curve of DTLZ5.
* C58–C59 gradient and Hessian of the hypervolume in decision space by the chain
  rule, on top of C07 and C09; objectives are arbitrary twice differentiable functions.
* C60 `check_KKT`: the linear program is posed explicitly, its answer is an oracle.
* C61–C64 MMD with and without matching: gradient and Hessian against Coquelicot
  derivatives for an arbitrary smooth kernel, then the three shipped kernels; shape
  check of `_check_X`; the `re_match` flag as a two-object state machine.
* C65–C67 optimum of the DTLZ distance functions, number of objective values, reported
  fronts of the inverted and constrained variants.
* C68–C70 tournament, generation step of SMS-EMOA, constraint-aware MOEA/D replacement.

* C112–C119 whole runs of DpN: `IterModel` composes the pieces; an invariant (population evaluated,
  reference set of one component, matched after the first iteration) gives totality; histories as a list of
  objects; normal equations for affine objectives; Armijo's condition carried through the matching.
* C58–C59 gradient and Hessian of the hypervolume in decision space by the chain
  rule, on top of C07 and C09; objectives are arbitrary twice differentiable functions.
* C60 `check_KKT`: the linear program is posed explicitly, its answer is an oracle.
* C61–C64 MMD with and without matching: gradient and Hessian against Coquelicot
  derivatives for an arbitrary smooth kernel, then the three shipped kernels; shape
  check of `_check_X`; the `re_match` flag as a two-object state machine.
* C65–C67 optimum of the DTLZ distance functions, number of objective values, reported
  fronts of the inverted and constrained variants.
* C68–C70 tournament, generation step of SMS-EMOA, constraint-aware MOEA/D replacement.

* C120–C127 whole runs of HVN: `HvnModel` composes the pieces; an invariant (population evaluated) gives
  totality where the indicator is defined; on a line the Newton system is a tridiagonal one with the equally
  spaced points as its only solution, and a bound on the hypervolume by induction on the sorted points.
* C58–C59 gradient and Hessian of the hypervolume in decision space by the chain
  rule, on top of C07 and C09; objectives are arbitrary twice differentiable functions.
* C60 `check_KKT`: the linear program is posed explicitly, its answer is an oracle.
* C61–C64 MMD with and without matching: gradient and Hessian against Coquelicot
  derivatives for an arbitrary smooth kernel, then the three shipped kernels; shape
  check of `_check_X`; the `re_match` flag as a two-object state machine.
* C65–C67 optimum of the DTLZ distance functions, number of objective values, reported
  fronts of the inverted and constrained variants.
* C68–C70 tournament, generation step of SMS-EMOA, constraint-aware MOEA/D replacement.
* C58–C59 gradient and Hessian of the hypervolume in decision space by the chain
  rule, on top of C07 and C09; objectives are arbitrary twice differentiable functions.
* C60 `check_KKT`: the linear program is posed explicitly, its answer is an oracle.
* C61–C64 MMD with and without matching: gradient and Hessian against Coquelicot
  derivatives for an arbitrary smooth kernel, then the three shipped kernels; shape
  check of `_check_X`; the `re_match` flag as a two-object state machine.
* C65–C67 optimum of the DTLZ distance functions, number of objective values, reported
  fronts of the inverted and constrained variants.
* C68–C70 tournament, generation step of SMS-EMOA, constraint-aware MOEA/D replacement.

* C128–C136 whole runs of MMDNewton: `MnModel` composes the pieces; an invariant (population evaluated, the
  reference set freshly built or matched) gives totality; the derivatives of the indicator are those of C61/C62;
  for one point and the Gaussian kernel the Newton system is solved in closed form (a rank-one update of a
  multiple of the identity).
* C58–C59 gradient and Hessian of the hypervolume in decision space by the chain
  rule, on top of C07 and C09; objectives are arbitrary twice differentiable functions.
* C60 `check_KKT`: the linear program is posed explicitly, its answer is an oracle.
* C61–C64 MMD with and without matching: gradient and Hessian against Coquelicot
  derivatives for an arbitrary smooth kernel, then the three shipped kernels; shape
  check of `_check_X`; the `re_match` flag as a two-object state machine.
* C65–C67 optimum of the DTLZ distance functions, number of objective values, reported
  fronts of the inverted and constrained variants.
* C68–C70 tournament, generation step of SMS-EMOA, constraint-aware MOEA/D replacement.
* C58–C59 gradient and Hessian of the hypervolume in decision space by the chain
  rule, on top of C07 and C09; objectives are arbitrary twice differentiable functions.
* C60 `check_KKT`: the linear program is posed explicitly, its answer is an oracle.
* C61–C64 MMD with and without matching: gradient and Hessian against Coquelicot
  derivatives for an arbitrary smooth kernel, then the three shipped kernels; shape
  check of `_check_X`; the `re_match` flag as a two-object state machine.
* C65–C67 optimum of the DTLZ distance functions, number of objective values, reported
  fronts of the inverted and constrained variants.
* C68–C70 tournament, generation step of SMS-EMOA, constraint-aware MOEA/D replacement.
* C58–C59 gradient and Hessian of the hypervolume in decision space by the chain
  rule, on top of C07 and C09; objectives are arbitrary twice differentiable functions.
* C60 `check_KKT`: the linear program is posed explicitly, its answer is an oracle.
* C61–C64 MMD with and without matching: gradient and Hessian against Coquelicot
  derivatives for an arbitrary smooth kernel, then the three shipped kernels; shape
  check of `_check_X`; the `re_match` flag as a two-object state machine.
* C65–C67 optimum of the DTLZ distance functions, number of objective values, reported
  fronts of the inverted and constrained variants.
* C68–C70 tournament, generation step of SMS-EMOA, constraint-aware MOEA/D replacement.

* C137–C142 reading of benchmark data (`RdModel`): one lemma `read_spec` characterises all successful reads,
  `read_total` all well-formed files; the result is composed with the matching of C36.
* C58–C59 gradient and Hessian of the hypervolume in decision space by the chain
  rule, on top of C07 and C09; objectives are arbitrary twice differentiable functions.
* C60 `check_KKT`: the linear program is posed explicitly, its answer is an oracle.
* C61–C64 MMD with and without matching: gradient and Hessian against Coquelicot
  derivatives for an arbitrary smooth kernel, then the three shipped kernels; shape
  check of `_check_X`; the `re_match` flag as a two-object state machine.
* C65–C67 optimum of the DTLZ distance functions, number of objective values, reported
  fronts of the inverted and constrained variants.
* C68–C70 tournament, generation step of SMS-EMOA, constraint-aware MOEA/D replacement.

* C143–C149 parametrised fronts of the examples (`ExModel`): floor of N·t by `Int_part`; derivatives with
  Coquelicot, local at a parameter inside of a piece.
* C58–C59 gradient and Hessian of the hypervolume in decision space by the chain
  rule, on top of C07 and C09; objectives are arbitrary twice differentiable functions.
* C60 `check_KKT`: the linear program is posed explicitly, its answer is an oracle.
* C61–C64 MMD with and without matching: gradient and Hessian against Coquelicot
  derivatives for an arbitrary smooth kernel, then the three shipped kernels; shape
  check of `_check_X`; the `re_match` flag as a two-object state machine.
* C65–C67 optimum of the DTLZ distance functions, number of objective values, reported
  fronts of the inverted and constrained variants.
* C68–C70 tournament, generation step of SMS-EMOA, constraint-aware MOEA/D replacement.

* C150–C160 further examples and scripts (`Ex2Model`): argmin by a specification of the first smallest value; MOP1
  by weighted sums; Bernstein polynomials by the mean value theorem; the parser by lemmas on joined and split texts.
* C58–C59 gradient and Hessian of the hypervolume in decision space by the chain
  rule, on top of C07 and C09; objectives are arbitrary twice differentiable functions.
* C60 `check_KKT`: the linear program is posed explicitly, its answer is an oracle.
* C61–C64 MMD with and without matching: gradient and Hessian against Coquelicot
  derivatives for an arbitrary smooth kernel, then the three shipped kernels; shape
  check of `_check_X`; the `re_match` flag as a two-object state machine.
* C65–C67 optimum of the DTLZ distance functions, number of objective values, reported
  fronts of the inverted and constrained variants.
* C68–C70 tournament, generation step of SMS-EMOA, constraint-aware MOEA/D replacement.
* C58–C59 gradient and Hessian of the hypervolume in decision space by the chain
  rule, on top of C07 and C09; objectives are arbitrary twice differentiable functions.
* C60 `check_KKT`: the linear program is posed explicitly, its answer is an oracle.
* C61–C64 MMD with and without matching: gradient and Hessian against Coquelicot
  derivatives for an arbitrary smooth kernel, then the three shipped kernels; shape
  check of `_check_X`; the `re_match` flag as a two-object state machine.
* C65–C67 optimum of the DTLZ distance functions, number of objective values, reported
  fronts of the inverted and constrained variants.
* C68–C70 tournament, generation step of SMS-EMOA, constraint-aware MOEA/D replacement.

* C161–C164 the benchmark functions are the published ones (`FormSpec`: formulas of the literature with variables
  counted from 1): index sets as sorted lists with the same elements, products by induction over the positions.
* C58–C59 gradient and Hessian of the hypervolume in decision space by the chain
  rule, on top of C07 and C09; objectives are arbitrary twice differentiable functions.
* C60 `check_KKT`: the linear program is posed explicitly, its answer is an oracle.
* C61–C64 MMD with and without matching: gradient and Hessian against Coquelicot
  derivatives for an arbitrary smooth kernel, then the three shipped kernels; shape
  check of `_check_X`; the `re_match` flag as a two-object state machine.
* C65–C67 optimum of the DTLZ distance functions, number of objective values, reported
  fronts of the inverted and constrained variants.
* C68–C70 tournament, generation step of SMS-EMOA, constraint-aware MOEA/D replacement.

* C165 the WFG problems are the published ones (`FormWfgSpec`: vectors as functions of indices from 1): every stage maps
  the list of a vector with entries in [0,1] to the list of the published vector, again with entries in [0,1].
* C58–C59 gradient and Hessian of the hypervolume in decision space by the chain
  rule, on top of C07 and C09; objectives are arbitrary twice differentiable functions.
* C60 `check_KKT`: the linear program is posed explicitly, its answer is an oracle.
* C61–C64 MMD with and without matching: gradient and Hessian against Coquelicot
  derivatives for an arbitrary smooth kernel, then the three shipped kernels; shape
  check of `_check_X`; the `re_match` flag as a two-object state machine.
* C65–C67 optimum of the DTLZ distance functions, number of objective values, reported
  fronts of the inverted and constrained variants.
* C68–C70 tournament, generation step of SMS-EMOA, constraint-aware MOEA/D replacement.

* C166 reported fronts as lists: by mapping over the sample numbers, filters decided by arithmetic.
* C58–C59 gradient and Hessian of the hypervolume in decision space by the chain
  rule, on top of C07 and C09; objectives are arbitrary twice differentiable functions.
* C60 `check_KKT`: the linear program is posed explicitly, its answer is an oracle.
* C61–C64 MMD with and without matching: gradient and Hessian against Coquelicot
  derivatives for an arbitrary smooth kernel, then the three shipped kernels; shape
  check of `_check_X`; the `re_match` flag as a two-object state machine.
* C65–C67 optimum of the DTLZ distance functions, number of objective values, reported
  fronts of the inverted and constrained variants.
* C68–C70 tournament, generation step of SMS-EMOA, constraint-aware MOEA/D replacement.

* C04 change of units and origin (HVScale): simulation, the memory of the run on the changed data is a function of the memory of the original run; for every input, not only those of C01.
* C58–C59 gradient and Hessian of the hypervolume in decision space by the chain
  rule, on top of C07 and C09; objectives are arbitrary twice differentiable functions.
* C60 `check_KKT`: the linear program is posed explicitly, its answer is an oracle.
* C61–C64 MMD with and without matching: gradient and Hessian against Coquelicot
  derivatives for an arbitrary smooth kernel, then the three shipped kernels; shape
  check of `_check_X`; the `re_match` flag as a two-object state machine.
* C65–C67 optimum of the DTLZ distance functions, number of objective values, reported
  fronts of the inverted and constrained variants.
* C68–C70 tournament, generation step of SMS-EMOA, constraint-aware MOEA/D replacement.
* C58–C59 gradient and Hessian of the hypervolume in decision space by the chain
  rule, on top of C07 and C09; objectives are arbitrary twice differentiable functions.
* C60 `check_KKT`: the linear program is posed explicitly, its answer is an oracle.
* C61–C64 MMD with and without matching: gradient and Hessian against Coquelicot
  derivatives for an arbitrary smooth kernel, then the three shipped kernels; shape
  check of `_check_X`; the `re_match` flag as a two-object state machine.
* C65–C67 optimum of the DTLZ distance functions, number of objective values, reported
  fronts of the inverted and constrained variants.
* C68–C70 tournament, generation step of SMS-EMOA, constraint-aware MOEA/D replacement.

* C167 doubles (DblModel, DblNDS): the sorting only compares, so its model commutes with order preserving maps (NDSHom);
  applied to the inclusion of the non-NaN doubles and to their real values (infinities beyond all finite values).
* C58–C59 gradient and Hessian of the hypervolume in decision space by the chain
  rule, on top of C07 and C09; objectives are arbitrary twice differentiable functions.
* C60 `check_KKT`: the linear program is posed explicitly, its answer is an oracle.
* C61–C64 MMD with and without matching: gradient and Hessian against Coquelicot
  derivatives for an arbitrary smooth kernel, then the three shipped kernels; shape
  check of `_check_X`; the `re_match` flag as a two-object state machine.
* C65–C67 optimum of the DTLZ distance functions, number of objective values, reported
  fronts of the inverted and constrained variants.
* C68–C70 tournament, generation step of SMS-EMOA, constraint-aware MOEA/D replacement.

* C168/C169 hypervolume in doubles (DblSim, DblTop, DblRel, DblExact, DblErr): a side-by-side simulation of the run on doubles and
  of the run on the real values of the shifted points.  The links, the bounds and the branches agree; the accumulated areas and
  volumes are related by relations given as parameters, with the facts each arithmetic step needs.  The comparison of two
  computed areas only sets a flag, which with up to three objectives is not read again.  Instantiated with exact values on the grid (C168) and with
  relative errors counted in steps (C169), then combined with C01.
* C58–C59 gradient and Hessian of the hypervolume in decision space by the chain
  rule, on top of C07 and C09; objectives are arbitrary twice differentiable functions.
* C60 `check_KKT`: the linear program is posed explicitly, its answer is an oracle.
* C61–C64 MMD with and without matching: gradient and Hessian against Coquelicot
  derivatives for an arbitrary smooth kernel, then the three shipped kernels; shape
  check of `_check_X`; the `re_match` flag as a two-object state machine.
* C65–C67 optimum of the DTLZ distance functions, number of objective values, reported
  fronts of the inverted and constrained variants.
* C68–C70 tournament, generation step of SMS-EMOA, constraint-aware MOEA/D replacement.

* C170/C171 derivatives in doubles (DblGrad, DblGradI): the projections, the non-dominated filter and the order of the points commute with
  taking real values, so the runs on doubles and on their values differ only in the arithmetic of the entries: differences of two
  coordinates, or of two hypervolumes with one or two objectives less.  Instantiated with correct rounding, exact values on the grid
  and an absolute error (C169 twice and one subtraction), then combined with C07 and C09.
* C58–C59 gradient and Hessian of the hypervolume in decision space by the chain
  rule, on top of C07 and C09; objectives are arbitrary twice differentiable functions.
* C60 `check_KKT`: the linear program is posed explicitly, its answer is an oracle.
* C61–C64 MMD with and without matching: gradient and Hessian against Coquelicot
  derivatives for an arbitrary smooth kernel, then the three shipped kernels; shape
  check of `_check_X`; the `re_match` flag as a two-object state machine.
* C65–C67 optimum of the DTLZ distance functions, number of objective values, reported
  fronts of the inverted and constrained variants.
* C68–C70 tournament, generation step of SMS-EMOA, constraint-aware MOEA/D replacement.
* C58–C59 gradient and Hessian of the hypervolume in decision space by the chain
  rule, on top of C07 and C09; objectives are arbitrary twice differentiable functions.
* C60 `check_KKT`: the linear program is posed explicitly, its answer is an oracle.
* C61–C64 MMD with and without matching: gradient and Hessian against Coquelicot
  derivatives for an arbitrary smooth kernel, then the three shipped kernels; shape
  check of `_check_X`; the `re_match` flag as a two-object state machine.
* C65–C67 optimum of the DTLZ distance functions, number of objective values, reported
  fronts of the inverted and constrained variants.
* C68–C70 tournament, generation step of SMS-EMOA, constraint-aware MOEA/D replacement.

* C172/C173 automatic differentiation (AdProof, AdMain): the function of the flat vector is, near a point in general position, the
  polynomial of the specification, so it has the partial derivatives of C07 and the second derivatives of C09 without the limit on the number of objectives;
  autograd returns these by hypothesis.  The rest is the chain rule of C58/C59 with matrices given by flat indices, and the symmetry of the Hessian.
* C58–C59 gradient and Hessian of the hypervolume in decision space by the chain
  rule, on top of C07 and C09; objectives are arbitrary twice differentiable functions.
* C60 `check_KKT`: the linear program is posed explicitly, its answer is an oracle.
* C61–C64 MMD with and without matching: gradient and Hessian against Coquelicot
  derivatives for an arbitrary smooth kernel, then the three shipped kernels; shape
  check of `_check_X`; the `re_match` flag as a two-object state machine.
* C65–C67 optimum of the DTLZ distance functions, number of objective values, reported
  fronts of the inverted and constrained variants.
* C68–C70 tournament, generation step of SMS-EMOA, constraint-aware MOEA/D replacement.

* C174/C175 drawn populations (StartProof, StartDbl): clipping is the identity on drawn points, so the constructors with and without X0 agree. On
  doubles the width of the box is rounded; if it was rounded up it is normal, its predecessor is not above the exact width, and the
  largest random number 1 - 2^-53 brings the product down to the predecessor.
* C58–C59 gradient and Hessian of the hypervolume in decision space by the chain
  rule, on top of C07 and C09; objectives are arbitrary twice differentiable functions.
* C60 `check_KKT`: the linear program is posed explicitly, its answer is an oracle.
* C61–C64 MMD with and without matching: gradient and Hessian against Coquelicot
  derivatives for an arbitrary smooth kernel, then the three shipped kernels; shape
  check of `_check_X`; the `re_match` flag as a two-object state machine.
* C65–C67 optimum of the DTLZ distance functions, number of objective values, reported
  fronts of the inverted and constrained variants.
* C68–C70 tournament, generation step of SMS-EMOA, constraint-aware MOEA/D replacement.

* C176/C177 MOEA/D (NbProof): the neighbourhoods are prefixes of a sorting permutation; the replacement is read off C70 position by position, and
  the comparison is a strict part of a preorder, so sequences are handled by induction.
* C58–C59 gradient and Hessian of the hypervolume in decision space by the chain
  rule, on top of C07 and C09; objectives are arbitrary twice differentiable functions.
* C60 `check_KKT`: the linear program is posed explicitly, its answer is an oracle.
* C61–C64 MMD with and without matching: gradient and Hessian against Coquelicot
  derivatives for an arbitrary smooth kernel, then the three shipped kernels; shape
  check of `_check_X`; the `re_match` flag as a two-object state machine.
* C65–C67 optimum of the DTLZ distance functions, number of objective values, reported
  fronts of the inverted and constrained variants.
* C68–C70 tournament, generation step of SMS-EMOA, constraint-aware MOEA/D replacement.

* C178/C179 linked lists (MlProof): walking in both directions is equivalent to the invariant of the hypervolume proof (HVLinks); sequences of
  removals are undone by induction, the memory before each removal being restored exactly.
* C58–C59 gradient and Hessian of the hypervolume in decision space by the chain
  rule, on top of C07 and C09; objectives are arbitrary twice differentiable functions.
* C60 `check_KKT`: the linear program is posed explicitly, its answer is an oracle.
* C61–C64 MMD with and without matching: gradient and Hessian against Coquelicot
  derivatives for an arbitrary smooth kernel, then the three shipped kernels; shape
  check of `_check_X`; the `re_match` flag as a two-object state machine.
* C65–C67 optimum of the DTLZ distance functions, number of objective values, reported
  fronts of the inverted and constrained variants.
* C68–C70 tournament, generation step of SMS-EMOA, constraint-aware MOEA/D replacement.

* C180–C182 numerical comparisons (CompProof, ZregProof, ZregMin): powers with rational exponents are compared as powers of integers; PI is
  bounded by the Machin series of the standard library, sine and cosine by their Taylor polynomials, and everything else is
  linear arithmetic on rationals.  The minimum of C182 is found wave by wave: convexity on one part, bounds on the others.
* C58–C59 gradient and Hessian of the hypervolume in decision space by the chain
  rule, on top of C07 and C09; objectives are arbitrary twice differentiable functions.
* C60 `check_KKT`: the linear program is posed explicitly, its answer is an oracle.
* C61–C64 MMD with and without matching: gradient and Hessian against Coquelicot
  derivatives for an arbitrary smooth kernel, then the three shipped kernels; shape
  check of `_check_X`; the `re_match` flag as a two-object state machine.
* C65–C67 optimum of the DTLZ distance functions, number of objective values, reported
  fronts of the inverted and constrained variants.
* C68–C70 tournament, generation step of SMS-EMOA, constraint-aware MOEA/D replacement.

* C58–C59 gradient and Hessian of the hypervolume in decision space by the chain
  rule, on top of C07 and C09; objectives are arbitrary twice differentiable functions.
* C60 `check_KKT`: the linear program is posed explicitly, its answer is an oracle.
* C61–C64 MMD with and without matching: gradient and Hessian against Coquelicot
  derivatives for an arbitrary smooth kernel, then the three shipped kernels; shape
  check of `_check_X`; the `re_match` flag as a two-object state machine.
* C65–C67 optimum of the DTLZ distance functions, number of objective values, reported
  fronts of the inverted and constrained variants.
* C68–C70 tournament, generation step of SMS-EMOA, constraint-aware MOEA/D replacement.

* C184/C185 example problems (ExcProof): weighted sums of squared distances differ from the squared distance to the weighted mean by a constant;
  points outside of the triangle are improved by projecting them onto the line of an edge.
* C186 the asserted matrix (PropsHess4): one run over the integers, and uniqueness of the derivatives (C09) for all other sorting routines.
* C58–C59 gradient and Hessian of the hypervolume in decision space by the chain
  rule, on top of C07 and C09; objectives are arbitrary twice differentiable functions.
* C60 `check_KKT`: the linear program is posed explicitly, its answer is an oracle.
* C61–C64 MMD with and without matching: gradient and Hessian against Coquelicot
  derivatives for an arbitrary smooth kernel, then the three shipped kernels; shape
  check of `_check_X`; the `re_match` flag as a two-object state machine.
* C65–C67 optimum of the DTLZ distance functions, number of objective values, reported
  fronts of the inverted and constrained variants.
* C68–C70 tournament, generation step of SMS-EMOA, constraint-aware MOEA/D replacement.

* C187 start of the subset selection (PropsSs): a permutation of the indices given by the sorting oracle; the maximum of a column is attained;
* C58–C59 gradient and Hessian of the hypervolume in decision space by the chain
  rule, on top of C07 and C09; objectives are arbitrary twice differentiable functions.
* C60 `check_KKT`: the linear program is posed explicitly, its answer is an oracle.
* C61–C64 MMD with and without matching: gradient and Hessian against Coquelicot
  derivatives for an arbitrary smooth kernel, then the three shipped kernels; shape
  check of `_check_X`; the `re_match` flag as a two-object state machine.
* C65–C67 optimum of the DTLZ distance functions, number of objective values, reported
  fronts of the inverted and constrained variants.
* C68–C70 tournament, generation step of SMS-EMOA, constraint-aware MOEA/D replacement.

* C188 calls (PropsCall): the four checks of the binding are equivalent to the rules; the transcribed calls are evaluated;
* C58–C59 gradient and Hessian of the hypervolume in decision space by the chain
  rule, on top of C07 and C09; objectives are arbitrary twice differentiable functions.
* C60 `check_KKT`: the linear program is posed explicitly, its answer is an oracle.
* C61–C64 MMD with and without matching: gradient and Hessian against Coquelicot
  derivatives for an arbitrary smooth kernel, then the three shipped kernels; shape
  check of `_check_X`; the `re_match` flag as a two-object state machine.
* C65–C67 optimum of the DTLZ distance functions, number of objective values, reported
  fronts of the inverted and constrained variants.
* C68–C70 tournament, generation step of SMS-EMOA, constraint-aware MOEA/D replacement.
* C58–C59 gradient and Hessian of the hypervolume in decision space by the chain
  rule, on top of C07 and C09; objectives are arbitrary twice differentiable functions.
* C60 `check_KKT`: the linear program is posed explicitly, its answer is an oracle.
* C61–C64 MMD with and without matching: gradient and Hessian against Coquelicot
  derivatives for an arbitrary smooth kernel, then the three shipped kernels; shape
  check of `_check_X`; the `re_match` flag as a two-object state machine.
* C65–C67 optimum of the DTLZ distance functions, number of objective values, reported
  fronts of the inverted and constrained variants.
* C68–C70 tournament, generation step of SMS-EMOA, constraint-aware MOEA/D replacement.

* C189 tables (PropsStat): insertion is monotone, so is sorting, hence every order statistic;
* C58–C59 gradient and Hessian of the hypervolume in decision space by the chain
  rule, on top of C07 and C09; objectives are arbitrary twice differentiable functions.
* C60 `check_KKT`: the linear program is posed explicitly, its answer is an oracle.
* C61–C64 MMD with and without matching: gradient and Hessian against Coquelicot
  derivatives for an arbitrary smooth kernel, then the three shipped kernels; shape
  check of `_check_X`; the `re_match` flag as a two-object state machine.
* C65–C67 optimum of the DTLZ distance functions, number of objective values, reported
  fronts of the inverted and constrained variants.
* C68–C70 tournament, generation step of SMS-EMOA, constraint-aware MOEA/D replacement.
* C58–C59 gradient and Hessian of the hypervolume in decision space by the chain
  rule, on top of C07 and C09; objectives are arbitrary twice differentiable functions.
* C60 `check_KKT`: the linear program is posed explicitly, its answer is an oracle.
* C61–C64 MMD with and without matching: gradient and Hessian against Coquelicot
  derivatives for an arbitrary smooth kernel, then the three shipped kernels; shape
  check of `_check_X`; the `re_match` flag as a two-object state machine.
* C65–C67 optimum of the DTLZ distance functions, number of objective values, reported
  fronts of the inverted and constrained variants.
* C68–C70 tournament, generation step of SMS-EMOA, constraint-aware MOEA/D replacement.
* C58–C59 gradient and Hessian of the hypervolume in decision space by the chain
  rule, on top of C07 and C09; objectives are arbitrary twice differentiable functions.
* C60 `check_KKT`: the linear program is posed explicitly, its answer is an oracle.
* C61–C64 MMD with and without matching: gradient and Hessian against Coquelicot
  derivatives for an arbitrary smooth kernel, then the three shipped kernels; shape
  check of `_check_X`; the `re_match` flag as a two-object state machine.
* C65–C67 optimum of the DTLZ distance functions, number of objective values, reported
  fronts of the inverted and constrained variants.
* C68–C70 tournament, generation step of SMS-EMOA, constraint-aware MOEA/D replacement.

* C183 regions of ZDT3 (ZwaveBase, ZwaveQ, ZwaveNum, ZwaveProof): on each wave of the sine the derivative is negative on the first quarter and grows on the second,
  so its sign at two points around the minimum (ZwaveNum, Taylor polynomials evaluated with integers by ZwaveQ) locates the minimum; the waves are then compared by their minima.

## 4. Scope: what is modelled

File names are relative to `/repo/hvd` unless they start with `scripts/` or `examples/`.  Everything not named in the middle column is not
modelled.

| file | modelled | not modelled |
|---|---|---|
| `hypervolume.py` | all of it (`hypervolume`, `HyperVolume`, `MultiList`) as a program on a node store, in `HVModel`; `append`, `getLength` and the traversal of `__str__` in `MlModel` | the strings of `__str__` |
| `hypervolume_derivatives.py` | constructor defaults and setters, `compute`, `_compute_gradient`, `_compute_hessian`, `_project`, `hypervolume_dY`, `compute_derivatives`, `_compute_objective_derivatives`, `hypervolume_improvement`, in `HVDModel`, `HVXModel`; `compute_automatic_differentiation` with its caches, the wrappers `HVX`/`HVY`, the dictionary of `_compute_hessian` in `AdModel` | changing the array of the reference point in place; the object after an exception |
| `utils.py` | `matrix_to_Nd_vector`, `Nd_vector_to_matrix`, `precondition_hessian`, `preprocess_reference_set`, `get_non_dominated`, `set_bounds`, `handle_box_constraint`, `is_dominate`, `non_domin_sort` with all helpers, in `NDSModel`, `UtilsModel`, `MiscModel`; `compute_chim` in `ShiftModel` | plotting, logging, `timeit` |
| `base.py` | all of `State` in `StateModel` | integer dtypes of `X`; aliasing of numpy arrays (values are immutable in the model) |
| `newton.py` | line searches, `_compute_max_step_size`, `_check_population`, layers of `iterate`, `_handle_box_constraint`, `run`/`log`/`terminate`, `_check_constraints`; `_compute_R`, `_compute_netwon_step` of both classes and the update of `HVN.iterate` in `StepModel`; `_shift_reference_set`, `active_indicator` of DpN in `ShiftModel`; the whole of `DpN.iterate` and `DpN.run` in `IterModel`, the whole of `HVN.iterate` and `HVN.run` in `HvnModel`; drawing of the initial points and `_check_constraints` in `StartModel` | texts of the logger, plotting, timing, the user's metrics |
| `line_search.py` | all (the branch `if 11 < 2` is dead) | – |
| `mmd_newton.py` | both line searches, run loop, `Nd_vector_to_matrix`, `_compute_R`, `_compute_netwon_step` in `StepModel`; early return of the line search, box handler (returns at once, the rest is dead code), `_shift_reference_set` in `ShiftModel`; the whole of `newton_iteration`, `log` and `run` in `MnModel`; drawing of the initial points in `StartModel` | texts of the logger, plotting, the user's metrics |
| `reference_set.py` | all of `ReferenceSet` in `RefModel` | – |
| `delta_p.py` | both indicators: `compute`, `compute_derivatives`, `_compute_indices` in `IndModel` | `__str__` |
| `mmd.py` | both classes and the three kernels in `MMDModel`; the jit cache as a table from input shapes to captured `beta` | the numerics of JAX autodiff (replaced by the hypothesis that derivatives of the kernel are right, `kernel_ok`, and proved for the shipped kernels) |
| `exact.py` | `DynamicHypervolume` in `MoeaModel` | `hv_exact` (external binary) |
| `moea/sms_emoa.py` | `alpha`, the Monte-Carlo estimators, `ApproximateMonteCarloHypervolume`, survival, tournament, `_advance` | constructor defaults; pymoo's filter of infeasible individuals |
| `moea/moead.py` | `_cv_eps`, `next`, `_initialize_advance` in `MoeaModel`; `_setup`, `_replace` in `NbModel` | negative `n_neighbors`; pymoo's default directions and decomposition are parameters |
| `rsg.py` | all, in `RsgModel` | DBSCAN numerics (labels are an oracle) |
| `problems/base.py` | `MOP`, `CMOP` constructors, bounds, constraint wrappers, `add_boundary_constraints`, `as_pymoo_problem`, `from_pymoo` (the last two in `WrapModel`) | JAX derivatives |
| `problems/utils.py` | all | – |
| `problems/dtlz.py`, `problems/eqdtlz.py` | objectives, distance functions, reported fronts and sets | `get_pareto_front` of DTLZ5–7 (a file fetched from the network) |
| `problems/zdt.py`, `problems/uf.py`, `problems/cf.py` | objectives, constraints, default bounds and reported fronts, in `BenchModel`; `flatten=False` of ZDT3 in `ZregModel` | Pareto sets drawn at random; the random sample of CF9/CF10 is a parameter; a read outside an array (whose value JAX leaves open) is `None` |
| `problems/wfg.py` | all, one row of a batch, in `WfgModel` | lower bounds other than 0 in the theorems; the random interior rows are a parameter |
| `problems/_pymoo_factory.py` | all | the import system (oracle) |
| `problems/misc.py` | objectives, constraints, reported fronts, in `ConvModel` (random rows are parameters) | pymoo constructor of `ModifiedObjective` |
| `gradient_based.py` | all of `Lara` in `LaraModel`; a point with NaN entries is `None` | logging, metrics |
| `problems/_pymoo_wrapper.py` | both adapters in `WrapModel`; arrays in `out` by their rows, tracing by the keys it produces | derivatives through JAX, names and printing |
| `bootstrap.py` | `filter_outliers`, `bootstrap_reference_set` in `BootModel`; one Newton iteration is a parameter | plots, csv files, HVN as optimizer |
| `scripts/utils.py` | `read_reference_set_data` in `RdModel`, on the tables `pd.read_csv` returns | plotting; non-integer labels, file names |
| `examples/HVSS/{utils,components}.py`, `examples/subset_selection/utils.py` | `PiecewiseBS`, `BS`, `Piecewise` components with `get_index`, in `ExModel`; `sort_splines`, `get_preimage` and the reference point of `HVSS/run.py` in `SsModel` (`argsort` and `minimize_scalar` are parameters); `FLatConvex` and `Linear` in `CompModel`; a piece is its three functions | scipy's B-splines (their evaluation and derivatives are parameters), plotting |
| `examples/HVSS/{ZDT1,Dent}/spline.py`, `examples/HVSS/{ZDT1,TwoOnOne}/example.py` | cubic splines, objective, Jacobian and constraint functions, in `ExModel` | csv data (not in the repository), the optimizer calls |
| `examples/{HVN,DpN}/{3D_example1,3D_example2,EqCon1}.py`, `examples/HVN/{concave,convex}_example.py`, `examples/HV_Hessian/4D_example_Hessian.py` | objectives, constraints, derivatives, sampled Pareto sets, in `ExcModel`; the asserted matrix in `PropsHess4` | initial populations drawn at random, plotting, the runs of the optimizers |
| `examples/HVSS/{box_domain,base,run,run3D_example,compute_stats,utils}.py`, `examples/HVSS/ZDT1/B_spline.py`, `examples/HVN/2D_example.py` | union of boxes, polynomial features and regression, fronts as problems, initial points, tables, `read_bspline_csv`, Bezier curve, MOP1, in `Ex2Model` | neural networks and their training, plotting, calls of the optimizers (see C120–C127 for these) |
| calls of `HVN`, `DpN`, `MMD`, `MMDNewton` in `examples/` and `scripts/` | binding of arguments to parameters, the 96 calls as number of positional arguments and keywords, in `CallModel` | values of the arguments; calls with `**` dictionaries; everything the script does before the call |
| `scripts/{compute_statistics,run_EA_save_population,benchmark_EA,benchmark_CONV4}.py` | counting of wins, set-up of the algorithms, saved generations, `match_cluster`, in `Ex2Model`; `compute_statistics_ICML.py` and the rows of failed runs of `benchmark_{DpN2,Lara}.py` in `StatModel` (`mannwhitneyu`, `multipletests` are parameters) | scipy's tests, pymoo's algorithms, files |

Simplifications that hold everywhere:

* real numbers instead of doubles; no rounding, no overflow (except in the theorems on `double`, C167 and later: there
  the models of `non_domin_sort`, `is_dominate`, `get_non_dominated`, `hypervolume` and the gradient and Hessian of `HypervolumeDerivatives` in objective space run on Flocq's binary64);
* arrays are lists (of lists), without dtypes, views or aliasing; an in-place update is a
  new value of the state;
* objects are records, methods take and return the state;
* Python exceptions are the constructors of `exn`; their messages are dropped.  Warnings
  are dropped.

## 5. Trusted base

* The Coq 8.16.1 kernel, and `coqc`/`coqchk`.  Libraries: the standard library, Coquelicot
  (derivatives only; it adds no axioms), ssreflect through Coquelicot, Flocq (IEEE 754; it adds no axioms).
* The axioms of section 6, all from the standard library.
* The reading of the Python code (no execution of the code took place), including the
  semantics of the numpy operations used.
* The hypotheses on external components listed here.  They are hypotheses of the theorems,
  not axioms.

| component | model | assumption (name) |
|---|---|---|
| `np.argsort`, `sorted` | order given by a parameter or by a stable insertion sort | any sorting permutation (`argsort_ok`) in C53, C01–C09; for C04_affine instead that the answer depends only on the order of the entries (`order_determined`, met by `stable_argsort`); also stable (`argsort_stable`, met by `stable_argsort`) in C01_stable_sort_partial, C01_sorted_input and in the cases of five objectives with ties (C06–C08) and of six objectives (C09, C59, C172); numpy promises this only for `kind="stable"`, its default sort is stable for up to 16 elements on platforms without vector sort; stable for Python's `sorted`; on doubles any sorting permutation of arrays without NaN (`dargsort_ok`, C168–C171) |
| iteration order of a Python `set` | parameter | any enumeration without repetition |
| user callbacks for values, Jacobians, Hessians | functions that may raise | batch variants act row by row (`rowwise_all`); derivative callbacks return the true derivatives where a theorem says so |
| `scipy.optimize.linear_sum_assignment` | function | answer is a permutation pair of minimal cost (`lsa_ok`, met by `lsa0` of `IterOracle`); for C115–C119 also that it answers for square matrices (`oracles_ok`) |
| `KMedoids` | function | the medoid indices are k different row numbers in range (`kmedoids_ok`); for C115–C119 also that it answers (`oracles_ok`) |
| `directed_hausdorff` | function | none |
| `np.linalg.cholesky` | function to an option | a returned factor is lower triangular with positive diagonal and `L L^T = H` (`chol_ok`); positive definite matrices have one (`chol_complete`) |
| `scipy.optimize.linprog` | function | answer feasible and optimal (`lp_answer`) |
| `LocalOutlierFactor`, `DBSCAN` | function to labels | one label per row |
| JAX automatic differentiation | kernel derivatives as parameters | they are the derivatives (`kernel_ok`) |
| `autograd.jacobian`, `autograd.hessian` | functions of a function and a vector | for points in general position inside the box they return the derivatives of the hypervolume function (`jacobian_ok`, `hessian_ok`, met by `AJ0`, `AH0` of `AdMain`) |
| `jax.jit` | table from input shape to the captured value | traces once per shape; tracing a data-dependent shape raises |
| pymoo sorting, contributions, imports, constructors, generation step | functions | fronts are disjoint; one contribution per point; the generation counter advances by at most one; constructors do not switch the backend |
| `scipy.linalg.solve`, `spsolve` | function to an option (`None`: exception or warning) | a returned vector solves the system (`solve_ok`, met by `solve0` of `StepSolver`) |
| `np.linalg.lstsq` | function | the answer minimises the residual (`lstsq_ok`, met by `lstsq0`) |
| `scipy.linalg.qr` | function | orthonormal square factor, and the input is this factor times an upper triangular matrix (`qr_ok`) |
| `jax.eval_shape` on a problem of pymoo | function to the keys it fills | none |
| `newton_iteration` in the bootstrapping | function on the optimizer | keeps the weight (C106_beta) and well-formed populations (C108_rows), changes the reference set in place |
| `random.sample` in `scripts/utils.py` | function | 3000 rows at different positions (`sample_ok`) |
| `random.sample` in `run3D_example.py` | function | different positions (`picks`) |
| KMeans, Mann-Whitney test, `float` in the examples and scripts | answers as parameters | none |
| random numbers | parameter streams | for drawn populations: the requested shape, values in [0, 1) (`uniform`), as doubles multiples of 2^-53 (`random_double`) |

## 5a. Findings

Statements of `properties.jsonl` (or natural strengthenings) that are false of the model are
proved as `…_refuted` theorems.  In short:

* hypervolume: with equal coordinates the skip flags give wrong values, in 4 objectives
  (dominated set) and 5 objectives (non-dominated set: 14 instead of 16; 16 again if the objectives are reversed) – C01–C05;
* hypervolume derivatives: the Hessian is wrong for 8 objectives (C09, C59); outside the reference
  point components of the gradient are wrong (C08); with maximisation a given `Y` is not
  negated (C11); tied coordinates in 6 objectives (C06); an unstable sort makes the gradient wrong from 5 objectives with ties (C06) and the Hessian from 6 objectives (C09);
* `get_non_dominated` drops all copies of a duplicated row (C16);
  `preprocess_reference_set` also (C56);
* `handle_box_constraint`: wrong axis when the matrix is square (C18), NaN for equal bounds (C17);
* `State.save` always raises, `load` omits the extension (C23); `update_one` needs a previous
  gradient (C20);
* line searches return an untested step (C26); zero step raises (C28); box handler picks a NaN
  at corners (C30); negligible steps ignore the maximal step (C31);
  `eps` of `_check_population` has no effect (C32); `stop_dict` is sticky (C35);
* MMDNewton leaves the Hessians of the constraints out of the Newton matrix: its step can increase
  the norm of R to first order (C73);
* `_match_components` discards row indices (C38);
* GD Hessian for p other than 2 (C40), IGD matching derivatives lack 1/N (C41);
* MMD: stale `beta` under jit (C44); kernels with a non-constant diagonal (C61, C62);
  transposition of square inputs (C63); `re_match` cleared on the wrong object (C64);
* problems: NaN bounds accepted (C48); `get_ref_dirs` does not end for one objective (C45);
  DTLZ6 optimum shifted (C65); too few values for `n_obj > n_var + 1` (C66); reported fronts
  of IDTLZ2–4 (every reported vector is dominated with two or three objectives) and of all equality-constrained problems wrong (C67); ZDT1/3/4 report a dominated first vector and ZDT6 only
  vectors no point attains, because of the floor 1e-12 (C78); CF1 reports infeasible vectors
  (C81); CF8 reports 1 as second objective throughout (C82); CF1–CF7 read outside the array for
  an odd number of variables (C83); CF4 lacks the term (t-1)^2 beyond the threshold (C162); WFG2 reports dominated vectors (C86); the curve of WFG3 is
  not the whole front for three or more objectives (C87); CONV4_2F reports a dominated corner if
  all but one of the drawn weights are 0, and two vectors for N = 1 (C90);
  `DisConnected.get_pareto_front` returns None; `ModifiedObjective` loses optimal vectors (C93);
* gradient method: no descent with three objectives or at the boundary (C95); a vanishing gradient
  at the first point turns the whole population into NaN (C96);
* shifts: the direction of `compute_chim` loses the signs of the normal (C98, three objectives); both
  docstrings of `_shift_reference_set` ask for a non-zero step, the code for a zero one (C99);
  MMDNewton looks at the nearest target instead of the own one, and shifts everything in every
  iteration without matching (C100);
* MMDNewton takes a step of median 0 untested and does not keep the box (C101); a line search
  exchanges targets (C102);
* wrappers of pymoo: elementwise problems get a matrix (C104); the adapter of a problem of this package is
  rejected by `from_pymoo` (C105);
* runs of DpN: points leave the box by steps below 1e-8 (C113); the history pairs each population with the
  indicator value of the one before (C115); `deltap` compares a distance with a squared distance (C116);
* runs of HVN: points leave the box by default, and with `limit_max_step_size` one point at a bound stops its
  layer for ever (C121); the history pairs each population with the hypervolume of the one before (C122); an
  iteration at an exact optimum raises with `limit_max_step_size` (C123, C125);
* DTLZ5 rows miss a part of the front beyond three objectives (C110), DTLZ7 rows are partly dominated (C111);
* bootstrapping: needs more iterations than the interval, and an indicator with `beta` (C106); ignores the
  last population; two equal points end the run (C108); the discount of `beta` is void by C44;
* evolutionary part: `n_exclusive > 1`, jit of Monte-Carlo functions (C49); stale values of
  `DynamicHypervolume` (C52); `_advance` without offspring (C69);
* reading data: a single point is left where as many as reference points were meant (C139); a missing direction file raises in
  its own handler (C141); an unreadable reference file leaves a dictionary that `ReferenceSet` rejects (C142);
* examples: piecewise fronts accept parameters below 0 (C143), report derivatives divided by the number of pieces (C144) and 0 at
  interior ends (C145); with a tolerance the last piece answers just above 0 (C146); splines jump at the last break (C147); a
  constraint in scaled coordinates has a wrong gradient (C148);
* examples and scripts: union of boxes (C150), degree other than 2 (C151), reported convex front infeasible (C152), tables (C155),
  header after an empty line (C156), MOEA/D with four objectives and runs without feasible point (C157), repeated archive points
  (C159), clusters by the farthest point (C160); by reading only: `scripts/benchmark_EA.py` imports a module that does not exist and
  `scripts/benchmark_CONV4.py` calls `DpN` with a parameter it does not have;
* automatic differentiation keeps the reference point of the first call (C173_reference_refuted);
* a constraint function that returns an array without dimensions makes the constructors fail (C174_scalar_array), and finite bounds whose difference overflows pass the assertion and give populations of NaN and infinity (C175_wide_refuted);
* doubles: rounding can lower the computed hypervolume when a dominated point is added (C169_monotone_refuted), and is_dominate
  is cyclic with NaN (C167_nan_refuted);
* ZDT3: the constant 0.182228780 lacks a digit of the published 0.1822287280, so a part of the front is never reported (C182), and the rounded
  ends of the other regions make three reported vectors dominated by others (C181); apart from the ends of the regions the reported front is right (C183);
* `scripts/compute_statistics_ICML.py` decides the third comparison with the p-values of the second, and failed runs are entered as perfect ones (C189); by reading only: its captions name the Holm-Sidak correction, the code uses Benjamini-Hochberg;
* fourteen example and benchmark scripts call `DpN` or `HVN` with keywords the constructors do not have (`X0` for `x0`, `pareto_front`, `eta`, `Y_label`, `minimization`, `problem_name`), `examples/MMD/set_theta.py` calls `MMD` without `n_var` and `n_obj`: TypeError (C188);
* the reference point `1.5 * max` of `examples/HVSS/run.py` is below data whose objective is negative, and the preimages found by a local search need not be preimages (C187);
* the two pieces of `examples/HVSS/components.py` overlap by 4e-9, points at the end of the first one are dominated (C180);
* `examples/HVN/3D_example2.py` passes x[0] <= 0 instead of x[0] = 0, so the front it plots is entirely dominated, and its sampled rows reach 0.01 beyond the Pareto set (C184);
* RSG: number of points, small shares, no extent, other than two objectives (C53).

## 6. Axioms used by each theorem

Output of `Print Assumptions`, grouped.

* closed under the global context (no axiom):
  C19_pack_unpack, C19_unpack_pack, C57_one_bound_per_variable, C23_save_always_fails, C23_save_load_refuted, C23_load_name_refuted, C23_load_partial, C24_slice_counters, C34_exact_iterations, C34_exceptions, C34_unlimited, C35_resume_refuted, C35_no_resume_partial, C49_compiled_refuted, C52_step, C52_sequence_partial, C55_next, C55_next_ends, C54_restored, C54_context, C54_exception, C54_bound, C54_rejected, C54_registry, C71_unconstrained, C83_even, C88_wfg_parameters, C88_wfg_defaults, C90_conv4_2f_sizes, C90_conv4_2f_size_one_refuted, C103_data, C103_type_error, C103_evaluate, C103_total, C105_same, C137_population, C137_groups, C138_fits, C138_merged, C139_kept_partial, C140_reference, C140_size, C141_succeeds_partial, C141_directions, C141_none, C142_keys, C156_round_trip, C156_no_degree, C156_dropped, C156_header_refuted, C157_directions_partial, C157_defined, C157_moead_refuted, C157_saved, C157_infeasible_refuted, C156_blanks, C156_strip, C156_padding, C156_lower, C157_wrapped, C178_extend_appends, C178_length, C178_show, C178_endless, C188_binding, C188_calls_refuted, C188_x0_refuted, C188_mmdnewton.
* `ClassicalDedekindReals.sig_forall_dec`:
  C36_shift_unmatched, C63_rows, C47_created, C52_initial_refuted, C52_stale_refuted, C102_rematched, C103_feasible, C104_accepted, C104_values, C104_only_values, C104_counts, C104_elementwise_refuted, C105_there_and_back_refuted, C139_kept_refuted, C141_missing_refuted, C142_keys_refuted, C151_features, C151_forward_partial, C151_degree_refuted, C92_disconnected_box_bounds, C173_before_first_call_partial, C187_sorted.
* `functional_extensionality_dep`:
  C178_extend, C178_append.
* `ClassicalDedekindReals.sig_forall_dec`, `FunctionalExtensionality.functional_extensionality_dep`:
  C14_is_dominate_iff, C14_is_dominate_total, C14_is_dominate_strict_order, C12_fronts_are_pareto_ranks, C12_decisions_per_front, C12_front_mutually_nondominated, C13_partition, C13_terminates, C15_get_non_dominated_iff, C16_complete_refuted, C16_all_equal_refuted, C16_complete_partial, C01_hypervolume_is_volume_partial, C01_up_to_three_objectives, C01_four_objectives_nondominated, C01_distinct_coordinates, C01_stable_sort_partial, C01_sorted_input, C02_set_function_partial, C02_set_function_refuted, C03_monotone_partial, C03_strict_iff_partial, C03_monotone_refuted, C04_affine_partial, C04_objective_permutation_partial, C05_improvement_partial, C05_diminishing_returns_partial, C05_improvement_nonnegative_refuted, C04_affine, C04_improvement_affine, C04_objective_permutation_refuted, C10_chain_rule, C10_no_other_jacobian, C10_hessian_symmetric, C11_consistent_partial, C11_consistent_refuted, C17_reflects_into_box, C17_unique, C17_idempotent, C17_periodic_reflection, C17_equal_bounds_refuted, C18_rows_partial, C18_rows_refuted, C51_shifted, C51_positive_definite, C51_enough_trials, C56_rows_of_input, C56_outliers, C56_dropped_only_close, C56_isolated_kept, C56_representative_refuted, C20_update_one_is_update, C20_other_rows, C20_without_gradient_refuted, C21_counters, C22_active_and_feasible, C22_feasible_active_set, C24_slice_commutes, C60_check_KKT, C60_errors, C25_line_search, C25_finite, C25_success, C26_untested_step_refuted, C26_untested_step_partial, C27_step_limit, C28_zero_step_refuted, C28_defined_partial, C29_box_safe, C30_projection_partial, C30_corner_refuted, C32_duplicates, C32_eps_without_effect, C33_layers, C36_shifts, C43_value, C43_symmetric, C43_permutation, C43_zero, C61_mmdm_value, C63_transposed_partial, C63_transposed_refuted, C45_lattice, C45_given_partitions, C45_directions, C45_one_objective, C67_eq_constraint, C47_boundary, C48_succeeds_partial, C48_stored, C48_errors, C48_nan_refuted, C67_constrained_partial, C49_estimates_partial, C49_succeeds, C49_deletions, C49_delete_rows, C49_exclusive_refuted, C49_weights, C50_survive, C50_size, C50_removal, C50_no_number, C68_tournament, C68_all, C68_shape, C69_advance_partial, C69_boundary, C69_no_infills_refuted, C55_eps, C55_monotone, C55_other_cases, C70_replacement, C70_total, C71_residual, C71_zero_iff, C72_hvn, C72_hvn_unconstrained, C72_mmd, C72_mmd_unconstrained, C72_dpn, C72_dpn_unconstrained, C74_hvn_exact, C74_mmd_exact, C74_dpn_exact, C76_hvn_fixed, C76_mmd_fixed, C76_dpn_fixed, C77_iterate, C78_zdt2, C44_history_hessian, C89_conv3_front, C89_conv3_reported, C90_corner_refuted, C92_disconnected_feasible, C92_disconnected_front, C92_disconnected_gap, C93_modified_optimal, C93_modified_dominates, C93_modified_sum, C93_modified_all_optimal_refuted, C97_initial_given, C97_initial_random, C101_deltap, C101_logged_refuted, C101_mmd_step, C101_armijo_refuted, C101_box_refuted, C104_feasible, C105_and_back, C106_run, C106_rounds, C106_beta, C106_errors, C106_no_weight, C107_relax, C107_tradeoff, C107_efficient, C107_converse_refuted, C107_targets, C108_rows, C108_size, C108_last_population_refuted, C108_duplicates_refuted, C135_initial, C143_curve, C143_index, C143_above, C143_below_refuted, C144_newton, C145_inside, C145_ends, C146_same, C146_index_partial, C146_start_refuted, C147_value, C147_below, C147_right_end, C147_jump_refuted, C149_cleared, C153_pareto_set, C153_derivatives, C153_constrained, C155_counts, C155_equal_refuted, C155_hvss_independent, C155_hvss_wins_partial, C155_hvss_wins_refuted, C158_outside, C158_ends, C159_best, C92_disconnected_box, C94_smallest, C165_default_bounds, C165_correction, C172_wrappers, C172_dictionary, C173_frozen_reference, C174_in_box, C174_affine, C174_every_point, C174_assertions, C174_otherwise, C174_hvn, C174_dpn, C174_mmd, C174_counts, C174_scalar_array, C180_linear, C184_derivatives, C184_hull, C184_plane, C184_rows_refuted, C184_hvn_refuted, C185_eqcon, C185_eqcon_set, C185_concave, C185_convex, C185_derivatives, C187_preimage, C187_local_refuted, C187_reference, C187_negative_refuted, C189_counts, C189_third_refuted, C189_failed_refuted, C189_all_failed_refuted.
* `ClassicalDedekindReals.sig_forall_dec`, `functional_extensionality_dep`:
  C178_new, C179_remove, C179_undo, C179_order_refuted.
* `ClassicalDedekindReals.sig_forall_dec`, `ClassicalDedekindReals.sig_not_dec`, `FunctionalExtensionality.functional_extensionality_dep`:
  C01_volume_unique, C01_hypervolume_is_volume_refuted, C01_nondominated_refuted, C02_volume_set_function, C03_volume_strict_iff, C04_volume_affine, C04_volume_objective_permutation, C05_volume_submodular, C06_derivative_unique, C08_outside_points_partial, C08_true_derivative_zero, C08_outside_points_refuted, C08_two_objectives_refuted, C31_line_search, C31_stays_in_box, C31_negligible_step_refuted, C32_population, C32_tolerance_refuted, C36_match_consistent, C36_no_rematch, C36_match_total, C37_one_to_one, C38_components_partial, C38_components_refuted, C41_igd_matching_partial, C41_igd_matching_hessian_partial, C42_igd_cells, C61_mmd_gradient_partial, C61_mmdm_gradient_partial, C62_mmd_hessian_partial, C62_mmdm_hessian_partial, C44_unchanged_beta_partial, C44_first_call_partial, C44_later_calls, C64_no_rematch_partial, C64_rearranged_partial, C64_trial_refuted, C46_dtlz1_sum, C46_distance, C46_dtlz1_front, C46_fronts_returned, C65_distance_zero_partial, C66_length_refuted, C67_idtlz1_front_partial, C67_eq1dtlz1_front_refuted, C67_constrained_infeasible, C67_constrained_refuted, C53_count_partial, C53_error, C53_single, C53_succeeds, C53_on_path, C53_no_extent_refuted, C53_objectives_refuted, C53_count_refuted, C53_small_share_refuted, C73_hvn_merit, C73_dpn_merit, C73_mmd_merit_affine, C78_zdt1_zdt4, C78_zdt1_zdt4_refuted, C78_zdt1_set, C78_zdt3_partial, C78_zdt3_refuted, C79_uf4, C80_uf9, C81_cf4_cf5, C81_cf6_cf7, C82_cf9_reported, C161_three_objectives, C162_three_objectives, C162_constraints_of_objectives, C162_constraints_of_variables, C162_cf4_partial, C162_cf4_refuted, C166_curves, C166_gaps, C166_zdt3, C44_history_partial, C90_conv4_front, C90_conv4_reported, C90_conv4_2f_front, C90_conv4_2f_reported, C94_iteration, C95_scaled_sum, C95_two_objectives, C95_three_objectives_refuted, C95_blocked_refuted, C96_zero_gradient, C96_first_point, C96_nan_stays, C97_run, C98_unit, C98_two, C98_one_sign_partial, C98_normal_refuted, C99_dpn_shift, C99_docstring_refuted, C100_mmd_shift, C100_own_target_refuted, C100_unmatched, C100_unmatched_refuted, C100_unmatched_error, C102_permuted, C102_kept_refuted, C109_pareto_set, C109_rows, C110_four_objectives_refuted, C111_objectives, C111_pareto_set, C111_rows_refuted, C120_population, C120_iteration, C120_history, C120_run, C121_in_box, C121_margin, C121_stall, C121_still, C121_stuck, C121_stuck_refuted, C121_refuted, C122_value, C122_refuted, C123_total, C123_run, C123_error, C123_refuted, C124_merit, C125_raises, C125_only, C126_even, C126_stay, C127_optimal, C128_population, C128_history, C128_run, C129_previous, C130_iterations, C130_run, C130_small_error, C131_matched, C131_unmatched, C132_njac, C133_merit, C134_newton, C135_bounds_unused, C142_match, C150_nearest, C150_sound, C150_complete_partial, C150_complete_refuted, C152_optimal, C152_redundant, C152_reported_partial, C152_convex_refuted, C154_points, C154_clusters, C154_error, C159_archive, C159_distinct_refuted, C160_minimax, C160_nearest_refuted, C152_feasible_sets, C152_constraint_values, C176_neighbourhood, C176_setup, C176_own, C176_own_refuted, C177_replace, C177_monotone, C177_decreasing, C181_blocks, C184_constraint_derivatives, C184_sphere.
* `ClassicalDedekindReals.sig_forall_dec`, `Classical_Prop.classic`, `FunctionalExtensionality.functional_extensionality_dep`:
  C75_hvn_ascends, C75_mmd_descends, C75_dpn_descends.
* `ClassicalDedekindReals.sig_forall_dec`, `ClassicalDedekindReals.sig_not_dec`, `Classical_Prop.classic`, `FunctionalExtensionality.functional_extensionality_dep`:
  C06_front_gradient_partial, C06_any_points, C06_front_gradient_refuted, C06_unstable_refuted, C07_full_gradient, C07_full_gradient_ties, C09_hessian_partial, C09_hessian_unique, C09_hessian_refuted, C09_unstable_refuted, C58_true_gradient, C59_true_hessian_partial, C59_true_hessian_refuted, C39_gd_value, C39_gd_gradient, C40_gd_hessian_partial, C40_gd_hessian_general, C40_gd_hessian_refuted, C41_igd_value, C41_igd_derivatives_partial, C41_igd_matching_refuted, C61_rbf_ok, C61_rational_quadratic_ok, C61_laplace_ok, C61_mmd_gradient_refuted, C62_shipped_kernels, C62_smooth_kernels, C62_mmd_hessian_refuted, C44_current_beta_refuted, C46_sphere, C46_dtlz234_front, C65_dtlz6_distance, C65_dtlz6_pareto_set_refuted, C66_length_partial, C67_idtlz2_dominated, C67_idtlz2_front_refuted, C67_inverted_sphere, C67_inverted_front_dominated, C67_inverted_front_refuted, C73_mmd_merit_refuted, C78_zdt3_front, C78_zdt6, C78_zdt6_refuted, C79_uf1_uf2_uf3, C79_uf5, C79_uf6, C79_uf7, C80_uf8_uf10, C81_cf1, C81_cf1_refuted, C81_cf2, C81_cf3, C82_cf8, C82_cf8_refuted, C82_cf9_cf10, C82_cf9_tolerance_refuted, C83_odd_refuted, C161_two_objectives, C162_two_objectives, C163_zdt, C164_dtlz, C165_wfg, C166_cf2_optimal, C166_cf8, C84_wfg4_to_wfg9_front, C84_wfg4_to_wfg9_reported, C85_wfg1_front, C85_wfg1_reported, C86_wfg2_front, C86_wfg2_reported_refuted, C87_wfg3_curve, C87_wfg3_reported, C87_wfg3_two_objectives, C87_wfg3_more_objectives_refuted, C88_wfg_reported_feasible, C91_dent_front, C91_dent_reported, C109_dtlz6_rows, C109_dtlz6_three, C110_front_three, C110_weakly_dominated, C112_population, C112_history, C112_run, C113_in_box, C113_margin, C113_refuted, C114_iteration, C114_total, C115_previous, C115_current_refuted, C116_residual, C116_units, C116_larger_refuted, C117_iterations, C117_run, C118_affine, C119_gd_descent, C129_current_refuted, C135_box_refuted, C136_step, C136_away, C136_near, C136_tracks, C144_derivatives_partial, C144_jacobian_refuted, C145_interior_refuted, C147_derivatives, C148_right, C148_scaled_partial, C148_scaled_refuted, C158_monotone, C158_nondominated, C167_dominate, C167_fronts, C167_decisions, C167_get_non_dominated, C167_nan_refuted, C167_dominate_nan, C168_exact_on_grid, C168_integers, C169_relative_error, C169_monotone_refuted, C170_gradient_rounded, C170_gradient_grid, C170_gradient_error, C171_hessian_rounded, C171_hessian_grid, C171_hessian_error, C39_negative_exponent, C172_true_derivatives, C172_objective_gradient, C172_agree, C173_reference_refuted, C175_in_box, C175_half_open_refuted, C175_wide, C175_wide_refuted, C180_flat, C180_flat_front, C180_curve, C180_reference, C180_overlap, C180_front_refuted, C181_front_refuted, C181_optimal_refuted, C182_missing_refuted, C183_inside, C183_around, C183_reported, C183_exact, C183_covered, C186_asserted, C186_true.
