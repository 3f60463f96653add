(** Specification notions for the State properties. *)
From Coq Require Import List Arith Bool Reals.
From Verif Require Import Num Exn StateModel.
Import ListNotations.
Open Scope R_scope.

(** the batch method of a callback evaluates each row on its own *)
Definition rowwise {A} (f : callback A) : Prop :=
  forall b, cb_batch f = Some b -> forall X, b X = map (cb_point f) X.
Definition rowwise_opt {A} (f : option (callback A)) : Prop :=
  match f with None => True | Some f => rowwise f end.
Definition rowwise_all {TY TJ TG TH} (c : @config TY TJ TG TH) : Prop :=
  rowwise (c_func c) /\ rowwise (c_jac c) /\ rowwise_opt (c_h c) /\ rowwise_opt (c_hjac c) /\
  rowwise_opt (c_hhess c) /\ rowwise_opt (c_g c) /\ rowwise_opt (c_gjac c) /\ rowwise_opt (c_ghess c).

(** everything in a state but the counters *)
Definition data {TY TJ TG TH} (s : @state TY TJ TG TH) :=
  (s_X s, s_Y s, s_J s, s_cstr s, s_active s, s_grad s, s_hess s).

(** the number of points an operation asks a Jacobian (constraint Jacobian, constraint
    Hessian) for *)
Definition jac_points (o : op) : nat := match o with OpUpdate X g _ => if g then length X else 0 | OpOne _ _ => 1 end.
Definition points (o : op) : nat := match o with OpUpdate X _ _ => length X | OpOne _ _ => 1 end.
Definition hess_points (o : op) : nat := match o with OpUpdate X _ h => if h then length X else 0 | OpOne _ _ => 1 end.

(** * Linear programs *)
Fixpoint dot (a b : list R) : R :=
  match a, b with x :: a', y :: b' => x * y + dot a' b' | _, _ => 0 end.
Definition lp_feasible (p : lp) (z : list R) : Prop :=
  length z = length (lp_c p) /\
  Forall2 (fun r b => dot r z <= b) (lp_Aub p) (lp_bub p) /\
  Forall2 (fun r b => dot r z = b) (lp_Aeq p) (lp_beq p) /\
  Forall2 (fun l v => match l with None => True | Some b => b <= v end) (lp_lower p) z.
(** what a linear programming solver promises about its answer *)
Definition lp_answer (p : lp) (answer : option (list R)) : Prop :=
  match answer with
  | Some z => lp_feasible p z /\ forall z', lp_feasible p z' -> dot (lp_c p) z <= dot (lp_c p) z'
  | None => (forall z, ~ lp_feasible p z) \/ forall B, exists z, lp_feasible p z /\ dot (lp_c p) z < B
  end.

(** the approximate first-order conditions at a point with objective Jacobian [J],
    constraint values [H], [G] and constraint Jacobians [DH], [DG] *)
Definition approx_kkt (n_var : nat) (stol ftol atol : R) (J : list (list R)) (H G : list R) (DH DG : list (list R)) : Prop :=
  (forall h, In h H -> Rabs h <= ftol) /\ (forall g, In g G -> g <= ftol) /\
  exists w mu lam : list R,
    length w = length J /\ length mu = length H /\ length lam = length G /\
    (forall a, In a w -> 0 <= a) /\ fold_right Rplus 0 w = 1 /\
    (forall l, (l < length G)%nat -> 0 <= nth l lam 0 /\ (nth l G 0 < - atol -> nth l lam 0 = 0)) /\
    forall i, (i < n_var)%nat ->
      Rabs (dot w (map (fun r => nth i r 0) J) + dot mu (map (fun r => nth i r 0) DH)
            + dot lam (map (fun r => nth i r 0) DG)) <= stol.
