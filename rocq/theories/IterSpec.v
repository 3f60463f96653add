(** Notions for the properties of whole runs of the Newton methods.  [IterModel] is only needed for the
    types. *)
From Coq Require Import List Arith Bool Reals Permutation.
From Verif Require Import Exn StateModel StateSpec HVXModel RefModel RefSpec IndSpec StepSpec IterModel.
Import ListNotations.
Open Scope R_scope.

(** [l] are the objects after 1, 2, ... iterations, starting from [o] *)
Fixpoint trace {St : Type} (iterate : St -> res St) (o : St) (l : list St) : Prop :=
  match l with [] => True | o' :: l' => iterate o = Ok o' /\ trace iterate o' l' end.

(** every coordinate is between its bounds *)
Definition in_box (xl xu x : list R) : Prop :=
  length x = length xl /\ length x = length xu /\ forall k, (k < length x)%nat -> nth k xl 0 <= nth k x 0 <= nth k xu 0.
(** some component is larger than 1e-8 (the tolerance of [np.isclose]) *)
Definition notable (step : list (list R)) : Prop := exists row t, In row step /\ In t row /\ / 10 ^ 8 < Rabs t.


(** * what is expected of the arguments of DpN *)
(** a callback, if there is one, returns [n] values *)
Definition returns {A} (n : nat) (f : option (callback (list A))) (d : nat) : Prop :=
  forall g x, f = Some g -> length x = d -> length (cb_point g x) = n.
Definition return_rows (f : option (callback (list (list R)))) (d : nat) : Prop :=
  forall g x r, f = Some g -> length x = d -> In r (cb_point g x) -> length r = d.
Record well_posed (K : dpn_cfg) : Prop := {
  (* a batch method does the same as the function; the numbers of constraints are those of the functions *)
  wp_rows : rowwise_all (k_prob K);
  wp_neq : c_h (k_prob K) = None -> c_neq (k_prob K) = 0%nat;
  wp_nieq : c_g (k_prob K) = None -> c_nieq (k_prob K) = 0%nat;
  (* the bounds and the results of the functions have the right sizes *)
  wp_xl : length (k_xl K) = c_nvar (k_prob K);
  wp_xu : length (k_xu K) = c_nvar (k_prob K);
  wp_func : forall x, length x = c_nvar (k_prob K) -> length (cb_point (c_func (k_prob K)) x) = k_nobj K;
  wp_h : returns (c_neq (k_prob K)) (c_h (k_prob K)) (c_nvar (k_prob K));
  wp_g : returns (c_nieq (k_prob K)) (c_g (k_prob K)) (c_nvar (k_prob K));
  wp_hj : returns (c_neq (k_prob K)) (c_hjac (k_prob K)) (c_nvar (k_prob K));
  wp_gj : returns (c_nieq (k_prob K)) (c_gjac (k_prob K)) (c_nvar (k_prob K));
  wp_hjr : return_rows (c_hjac (k_prob K)) (c_nvar (k_prob K));
  wp_gjr : return_rows (c_gjac (k_prob K)) (c_nvar (k_prob K));
  wp_hh : returns (c_neq (k_prob K)) (c_hhess (k_prob K)) (c_nvar (k_prob K));
  wp_gh : returns (c_nieq (k_prob K)) (c_ghess (k_prob K)) (c_nvar (k_prob K));
  (* with constraints there is a Jacobian of a constraint *)
  wp_jac : c_h (k_prob K) <> None \/ c_g (k_prob K) <> None -> c_hjac (k_prob K) <> None \/ c_gjac (k_prob K) <> None
}.
(** the external routines return, and what they return is right *)
Record oracles_ok (K : dpn_cfg) : Prop := {
  oo_solve : solve_ok (k_solve K);
  oo_lstsq : lstsq_ok (k_lstsq K);
  oo_lsa : lsa_ok (k_lsa K);
  oo_lsa_total : forall C, (forall r, In r C -> length r = length C) -> exists a, k_lsa K C = Ok a;
  oo_kmed : kmedoids_ok (k_kmedoids K);
  oo_kmed_total : forall comp k, (k <= length comp)%nat -> exists r, k_kmedoids K comp k = Ok r
}.
(** a new reference set of one component, of at least [N] points of [m] objectives *)
Definition one_component (m N : nat) (rs : refset) : Prop :=
  exists comp e, new_refset [comp] [e] None = Ok rs /\ length e = m /\ (N <= length comp)%nat /\ forall r, In r comp -> length r = m.

(** * what the iterations are about *)
(** generational distance: root mean square of the distances to the set *)
Definition gd_is (S Y : list (list R)) (v : R) : Prop := 0 <= v /\ mean_dist 2 Y S (v * v).
(** [M] assigns different members of [S] to the points of [Y], and no rearrangement of them is closer in total *)
Definition best_match (S Y M : list (list R)) : Prop :=
  length M = length Y /\ (exists rest, Permutation (M ++ rest) S) /\ forall P, Permutation P M -> sum_dist Y M <= sum_dist Y P.
(** matched inverted generational distance: mean square (no root) of the distances to the assigned points *)
Definition igd_is (S Y : list (list R)) (v : R) : Prop :=
  exists M, best_match S Y M /\ v = sumR (NewtonModel.zip_with sqd Y M) / INR (length Y).
Definition is_nearest (S : list (list R)) (y t : list R) : Prop := In t S /\ forall r, In r S -> sqd y t <= sqd y r.
(** [g] is the gradient of (w/2) |f(x) - t|^2 in the variables *)
Definition gradient_to (K : dpn_cfg) (w : R) (t x g : list R) : Prop :=
  length g = c_nvar (k_prob K) /\
  forall k, (k < c_nvar (k_prob K))%nat ->
    nth k g 0 = w * sumn (k_nobj K) (fun a => cb_point (c_jac (k_prob K)) x a k * (nth a (cb_point (c_func (k_prob K)) x) 0 - nth a t 0)).
(** [g] is the gradient of (1/N) |f(x) - t|^2 for a nearest point [t] of [S] *)
Definition gd_gradient (K : dpn_cfg) (N : nat) (S : list (list R)) (x g : list R) : Prop :=
  exists t, is_nearest S (cb_point (c_func (k_prob K)) x) t /\ gradient_to K (2 / INR N) t x g.
Definition euclid (v : list R) : R := sqrt (sumR (map (fun a => a ^ 2) v)).
(** the objectives are f(x) = A x + b, and the derivatives given are those *)
Definition affine (K : dpn_cfg) (A : nat -> nat -> R) (b : nat -> R) : Prop :=
  let n := c_nvar (k_prob K) in
  (forall x a, length x = n -> (a < k_nobj K)%nat -> nth a (cb_point (c_func (k_prob K)) x) 0 = sumn n (fun k => A a k * nth k x 0) + b a) /\
  (forall x a k, length x = n -> (a < k_nobj K)%nat -> (k < n)%nat -> cb_point (c_jac (k_prob K)) x a k = A a k) /\
  (forall x a k l, length x = n -> (a < k_nobj K)%nat -> (k < n)%nat -> (l < n)%nat -> k_hess K x a k l = 0).
(** the coordinates are strictly between their bounds *)
Definition inside (xl xu x : list R) : Prop := forall k, (k < length x)%nat -> nth k xl 0 < nth k x 0 < nth k xu 0.
Definition unconstrained (K : dpn_cfg) : Prop := c_h (k_prob K) = None /\ c_g (k_prob K) = None.

(** the arguments of a run: a nonempty population and a reference set *)
Definition input (K : dpn_cfg) (rs : refset) (X0 : list (list R)) : Prop :=
  (0 < length X0)%nat /\ (forall x, In x X0 -> length x = c_nvar (k_prob K)) /\ one_component (k_nobj K) (length X0) rs.
(** [l] are the initial object and the objects after 1, 2, ... iterations *)
Definition objects (K : dpn_cfg) (rs : refset) (X0 : list (list R)) (l : list dpn) : Prop :=
  match l with [] => False | o :: l' => dpn_init K rs X0 = Ok o /\ trace (dpn_iterate K) o l' end.
