(** Notions for the properties of whole runs of MMDNewton. *)
From Coq Require Import List Arith Bool Reals Permutation.
From Verif Require Import Exn StateModel StateSpec HVXModel HVXSpec RefModel RefSpec IndSpec MMDModel MMDSpec StepModel StepSpec ShiftSpec IterModel IterSpec MnModel.
Import ListNotations.
Open Scope R_scope.

(** what is expected of the arguments and of the external routines; MMDNewton does not hand the Hessians of
    the constraints to its state *)
Record mn_posed (M : mn_cfg) : Prop := {
  np_problem : well_posed (n_base M);
  np_oracles : oracles_ok (n_base M);
  np_hhess : c_hhess (k_prob (n_base M)) = None;
  np_ghess : c_ghess (k_prob (n_base M)) = None
}.
(** a new reference set, of any number of components, of at least [N] points of [m] objectives *)
Definition components (m N : nat) (comps : list (list (list R))) (es : list (list R)) (rs : refset) : Prop :=
  new_refset comps es None = Ok rs /\ length es = length comps /\ (forall e, In e es -> length e = m) /\
  (forall r, In r (concat comps) -> length r = m) /\ (N <= length (concat comps))%nat.
(** the arguments of a run: a nonempty population and a reference set, of one component if it is matched *)
Definition mn_input (M : mn_cfg) (rs : refset) (X0 : list (list R)) : Prop :=
  (0 < length X0)%nat /\ (forall x, In x X0 -> length x = c_nvar (k_prob (n_base M))) /\
  if n_match M then one_component (k_nobj (n_base M)) (length X0) rs
  else exists comps es, components (k_nobj (n_base M)) (length X0) comps es rs.
(** [l] are the initial object and the objects after 1, 2, ... iterations *)
Definition mn_objects (M : mn_cfg) (rs : refset) (X0 : list (list R)) (l : list mn) : Prop :=
  match l with [] => False | o :: l' => mn_init M rs X0 = Ok o /\ trace (mn_iterate M) o l' end.
(** the discrepancy that is minimised: that of the matched points with the weight 1/4, or that of the set *)
Definition discrepancy (M : mn_cfg) (T Y : list (list R)) (v : R) : Prop :=
  if n_match M then MMDM (k_ (n_kern M)) (1 / 4) T Y v else MMD2 (k_ (n_kern M)) T Y v.
(** the reference points that the points [Y] are compared with: best assigned ones, or all *)
Definition targets (M : mn_cfg) (S Y T : list (list R)) : Prop :=
  if n_match M then best_match S Y T else T = S.
(** the components moved by [t] times their directions *)
Definition drift (t : R) (es : list (list R)) (C C' : list (list (list R))) : Prop :=
  length C' = length C /\ forall k comp e, nth_error C k = Some comp -> nth_error es k = Some e ->
    exists comp', nth_error C' k = Some comp' /\ length comp' = length comp /\ forall i, (i < length comp)%nat -> shifted t e (nth i comp []) (nth i comp' []).
(** the derivatives of the kernel and of the objectives are right; the kernel is differentiable everywhere *)
Record mn_smooth (M : mn_cfg) : Prop := {
  ns_kern : kernel_ok (k_nobj (n_base M)) (fun _ _ => True) (k_ (n_kern M)) (k_dx (n_kern M)) (k_dx2 (n_kern M)) (k_dxdy (n_kern M));
  ns_sym : forall x y a b, length x = k_nobj (n_base M) -> length y = k_nobj (n_base M) -> (a < k_nobj (n_base M))%nat -> (b < k_nobj (n_base M))%nat ->
    k_dxdy (n_kern M) x y a b = k_dxdy (n_kern M) y x a b;
  ns_jac : forall x, length x = c_nvar (k_prob (n_base M)) ->
    jac_at (c_nvar (k_prob (n_base M))) (k_nobj (n_base M)) (cb_point (c_func (k_prob (n_base M)))) (cb_point (c_jac (k_prob (n_base M))) x) x;
  ns_hess : forall x, length x = c_nvar (k_prob (n_base M)) ->
    hess_at (c_nvar (k_prob (n_base M))) (k_nobj (n_base M)) (cb_point (c_jac (k_prob (n_base M)))) (k_hess (n_base M) x) x
}.
(** first and second derivatives of the discrepancy to the points [T] in the variables of the population [X] *)
Definition is_gradient (M : mn_cfg) (T X g : list (list R)) : Prop :=
  matrix (length X) (c_nvar (k_prob (n_base M))) g /\
  forall i k, (i < length X)%nat -> (k < c_nvar (k_prob (n_base M)))%nat -> is_partial_I (discrepancy M T) (cb_point (c_func (k_prob (n_base M)))) X i k (nth k (nth i g []) 0).
Definition is_hessian (M : mn_cfg) (T X H : list (list R)) : Prop :=
  let n := c_nvar (k_prob (n_base M)) in
  matrix (length X * n) (length X * n) H /\
  forall i k j l, (i < length X)%nat -> (k < n)%nat -> (j < length X)%nat -> (l < n)%nat ->
    is_second_I (discrepancy M T) (cb_point (c_func (k_prob (n_base M)))) X i k j l (nth (j * n + l) (nth (i * n + k) H []) 0).
(** the residual of the first-order conditions (StepSpec.is_R) for the points [T]; without constraints the gradient *)
Definition is_residual (M : mn_cfg) (s : pstate) (T Rm : list (list R)) : Prop :=
  let K := n_base M in
  exists g, is_gradient M T (primal_of K s) g /\ (is_constrained K = false -> Rm = g) /\
    (is_constrained K = true -> is_R (c_nvar (k_prob K)) (c_neq (k_prob K) + c_nieq (k_prob K)) (points_of K s g) Rm).
(** the state is that of an evaluation of its population (variables and multipliers) *)
Definition is_evaluated (M : mn_cfg) (s : pstate) : Prop := exists s0, upd (n_base M) s0 (s_X s) = Ok s.
(** the same arguments with other bounds *)
Definition with_bounds (M : mn_cfg) (xl xu : list R) : mn_cfg :=
  let K := n_base M in
  mkMnCfg (mkDpnCfg (k_prob K) (k_hess K) xl xu (k_type K) (k_pre K) (k_nobj K) (k_lsa K) (k_hausdorff K) (k_kmedoids K) (k_solve K) (k_lstsq K) (k_chol K)) (n_kern M) (n_match M).
(** one point in [n] dimensions, the identity as objective, matching, and the Gaussian kernel *)
Record point_problem (M : mn_cfg) (n : nat) (theta : R) : Prop := {
  pp_nvar : c_nvar (k_prob (n_base M)) = n;
  pp_nobj : k_nobj (n_base M) = n;
  pp_free : unconstrained (n_base M);
  pp_func : forall x, length x = n -> cb_point (c_func (k_prob (n_base M))) x = x;
  pp_jac : forall x a k, length x = n -> (a < n)%nat -> (k < n)%nat -> cb_point (c_jac (k_prob (n_base M))) x a k = if (a =? k)%nat then 1 else 0;
  pp_hess : forall x a k l, length x = n -> (a < n)%nat -> (k < n)%nat -> (l < n)%nat -> k_hess (n_base M) x a k l = 0;
  pp_pre : k_pre (n_base M) = false;
  pp_match : n_match M = true;
  pp_theta : 0 < theta;
  pp_dx : forall x y a, k_dx (n_kern M) x y a = - 2 * theta * (nth a x 0 - nth a y 0) * exp (- theta * sqd x y);
  pp_dx2 : forall x y a b, k_dx2 (n_kern M) x y a b =
    (4 * theta ^ 2 * (nth a x 0 - nth a y 0) * (nth b x 0 - nth b y 0) - (if (a =? b)%nat then 2 * theta else 0)) * exp (- theta * sqd x y)
}.
