(** Notions for the properties of whole runs of HVN. *)
From Coq Require Import List Arith Bool Reals Permutation.
From Verif Require Import Exn StateModel StateSpec NewtonModel NewtonPop HVXModel RefModel StepModel StepSpec ShiftModel IterModel IterSpec HvnModel.
Import ListNotations.
Open Scope R_scope.

(** the arguments of HVN that DpN has too; the other arguments of DpN do not occur in [well_posed] *)
Definition as_dpn (V : hvn_cfg) : dpn_cfg :=
  mkDpnCfg (v_prob V) (v_hess V) (v_xl V) (v_xu V) GD (v_pre V) (v_nobj V)
    (fun _ => Exn ValueError) (fun _ _ => Exn ValueError) (fun _ _ => Exn ValueError) (v_solve V) (v_lstsq V) (v_chol V).
(** what is expected of the arguments and of the external routines *)
Record hvn_posed (V : hvn_cfg) : Prop := {
  hp_problem : well_posed (as_dpn V);
  hp_obj : (2 <= v_nobj V)%nat;
  hp_ref : length (v_ref V) = v_nobj V;
  hp_order : forall l, Permutation (v_order V l) l;
  hp_solve : solve_ok (v_solve V);
  hp_lstsq : lstsq_ok (v_lstsq V)
}.
(** the initial object and the objects after 1, 2, ... iterations *)
Definition hvn_objects (V : hvn_cfg) (X0 : list (list R)) (l : list hvn) : Prop :=
  match l with [] => False | o :: l' => hvn_init V X0 = Ok o /\ trace (hvn_iterate V) o l' end.
(** a nonempty initial population *)
Definition hvn_input (V : hvn_cfg) (X0 : list (list R)) : Prop :=
  (0 < length X0)%nat /\ forall x, In x X0 -> length x = c_nvar (v_prob V).

(** the rows [idx] of a list *)
Definition rows_at {A} (d : A) (l : list A) (idx : list nat) : list A := map (fun i => nth i l d) idx.
(** [idx] are different positions of [X], no two of the points there are closer than 1e-8 and the other
    points are that close to one of them *)
Definition thinned (X : list (list R)) (idx : list nat) : Prop :=
  NoDup idx /\ (forall i, In i idx -> (i < length X)%nat) /\
  (forall i j, In i idx -> In j idx -> i <> j -> / 10 ^ 8 < dist2 (nth i X []) (nth j X [])) /\
  (forall j, (j < length X)%nat -> ~ In j idx -> exists i, In i idx /\ dist2 (nth i X []) (nth j X []) <= / 10 ^ 8).
(** point [i] is in layer [k]: it is infeasible and [k] is 0, or the longest chain of feasible points each
    of which dominates the one before it, starting at [i], has [k] links *)
Definition in_layer (feas : list bool) (Y : list (list R)) (i k : nat) : Prop :=
  if nth i feas false then (exists c, feasible_chain feas Y i c /\ length c = k) /\ (forall c, feasible_chain feas Y i c -> (length c <= k)%nat)
  else k = 0%nat.
(** Euclidean norm of the residual (first-order conditions, [is_R]; without constraints the gradient of the
    hypervolume) of the population of the state [s] *)
Definition residual_norm (V : hvn_cfg) (s : pstate) (r : R) : Prop :=
  exists g Rm, hv_gradient V s = Ok g /\ r = euclid (concat Rm) /\
    (vconstrained V = false -> Rm = g) /\ (vconstrained V = true -> is_R (vdim_p V) (vdim_d V) (vpoints V s g) Rm).
(** the state has been evaluated at the population [X] *)
Definition evaluated_at (V : hvn_cfg) (s : pstate) (X : list (list R)) : Prop :=
  s_X s = X /\ exists s0, vupd V s0 X = Ok s.
(** the points [x] moved by [a] times the steps *)
Definition moved_by (a : R) (X st X' : list (list R)) : Prop :=
  length X' = length X /\ forall i, (i < length X)%nat -> length (nth i X' []) = length (nth i X []) /\
    forall j, (j < length (nth i X []))%nat -> nth j (nth i X' []) 0 = nth j (nth i X []) 0 + a * nth j (nth i st []) 0.
(** one variable, two objectives whose values lie on a descending line that passes below the reference point *)
Record line_problem (V : hvn_cfg) (p0 p1 q0 q1 : R) : Prop := {
  lp_nvar : c_nvar (v_prob V) = 1%nat;
  lp_h : c_h (v_prob V) = None;
  lp_g : c_g (v_prob V) = None;
  lp_func : forall x, cb_point (c_func (v_prob V)) [x] = [p0 + q0 * x; p1 - q1 * x];
  lp_jac : forall x, cb_point (c_jac (v_prob V)) [x] 0%nat 0%nat = q0 /\ cb_point (c_jac (v_prob V)) [x] 1%nat 0%nat = - q1;
  lp_hess : forall x k, v_hess V [x] k 0%nat 0%nat = 0;
  lp_nobj : v_nobj V = 2%nat;
  lp_q0 : 0 < q0;
  lp_q1 : 0 < q1;
  lp_below : (p1 - nth 1 (v_ref V) 0) / q1 < (nth 0 (v_ref V) 0 - p0) / q0
}.
(** the line is below the reference point for values of the variable in an interval; [N] points divide it
    into [N + 1] parts of this length, and point [u] is at this value *)
Definition spacing (V : hvn_cfg) (p0 p1 q0 q1 : R) (N : nat) : R :=
  ((nth 0 (v_ref V) 0 - p0) / q0 - (p1 - nth 1 (v_ref V) 0) / q1) / INR (S N).
Definition even_point (V : hvn_cfg) (p0 p1 q0 q1 : R) (N u : nat) : R :=
  (p1 - nth 1 (v_ref V) 0) / q1 + INR (S u) * spacing V p0 p1 q0 q1 N.
(** the population consists of these points, in some order *)
Definition evenly_spaced (V : hvn_cfg) (p0 p1 q0 q1 : R) (X : list (list R)) : Prop :=
  Permutation X (map (fun u => [even_point V p0 p1 q0 q1 (length X) u]) (seq 0 (length X))).
(** two objectives, or three that never fall below the sentinel of hypervolume.py *)
Definition two_or_three (V : hvn_cfg) : Prop :=
  v_nobj V = 2%nat \/
  v_nobj V = 3%nat /\ forall x k, length x = c_nvar (v_prob V) -> (k < 3)%nat -> v_minf V <= nth k (cb_point (c_func (v_prob V)) x) 0 - nth k (v_ref V) 0.
