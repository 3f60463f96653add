(** Specification of the Newton step for the KKT conditions, independent of the packing and
    of the block matrices of the model. *)
From Coq Require Import List Arith Bool Reals.
From Verif Require Import HVXModel StepModel.
Import ListNotations.
Open Scope R_scope.

Definition ent (M : list (list R)) (i j : nat) : R := nth j (nth i M []) 0.
(** sum over the active constraints *)
Definition asum (nc : nat) (p : pt) (f : nat -> R) : R :=
  sumn nc (fun k => if nth k (pt_act p) false then f k else 0).
(** second derivative of constraint [k] *)
Definition curvature (p : pt) (k a b : nat) : R := nth b (nth a (nth k (pt_B p) []) []) 0.

(** the data have the shapes announced: [d] variables, [nc] constraints *)
Definition shaped (d nc : nat) (p : pt) : Prop :=
  length (pt_grad p) = d /\ length (pt_dual p) = nc /\ length (pt_cval p) = nc /\ length (pt_act p) = nc /\
  length (pt_D p) = nc /\ (forall r, In r (pt_D p) -> length r = d) /\ length (pt_B p) = nc.
Definition matrix (n m : nat) (A : list (list R)) : Prop := length A = n /\ forall r, In r A -> length r = m.

(** derivative of the Lagrangian with respect to variable [a] of a point *)
Definition lagrangian (nc : nat) (p : pt) (a : nat) : R :=
  nth a (pt_grad p) 0 + asum nc p (fun k => nth k (pt_dual p) 0 * ent (pt_D p) k a).

(** the step [S] (one row per point, [d] primal and [nc] dual components) satisfies the KKT
    conditions linearised at the current point; [A] is the second derivative of the
    indicator, [curv] says whether the curvature of the constraints is taken into account *)
Definition linear_kkt (curv : bool) (d nc : nat) (A : list (list R)) (ps : list pt) (st : list (list R)) : Prop :=
  forall i p, nth_error ps i = Some p ->
    (forall a, (a < d)%nat ->
       sumn (length ps) (fun j => sumn d (fun b => ent A (i * d + a) (j * d + b) * ent st j b))
       + (if curv then asum nc p (fun k => nth k (pt_dual p) 0 * sumn d (fun b => curvature p k a b * ent st i b)) else 0)
       + asum nc p (fun k => ent st i (d + k) * ent (pt_D p) k a)
       = - lagrangian nc p a) /\
    (forall k, (k < nc)%nat -> nth k (pt_act p) false = true ->
       sumn d (fun a => ent (pt_D p) k a * ent st i a) = - nth k (pt_cval p) 0).
(** dual variables of inactive constraints are not changed *)
Definition inactive_zero (d nc : nat) (ps : list pt) (st : list (list R)) : Prop :=
  forall i p k, nth_error ps i = Some p -> (k < nc)%nat -> nth k (pt_act p) false = false -> ent st i (d + k) = 0.

(** the rows of R: stationarity of the Lagrangian and the values of the active constraints *)
Definition is_R (d nc : nat) (ps : list pt) (Rm : list (list R)) : Prop :=
  matrix (length ps) (d + nc) Rm /\
  forall i p, nth_error ps i = Some p ->
    (forall a, (a < d)%nat -> ent Rm i a = lagrangian nc p a) /\
    (forall k, (k < nc)%nat -> ent Rm i (d + k) = if nth k (pt_act p) false then nth k (pt_cval p) 0 else 0).

(** * what is assumed of the solvers *)
Definition mv (A : list (list R)) (x : list R) : list R := map (fun r => NewtonModel.dotR r x) A.
Definition sqdist (x y : list R) : R := fold_right Rplus 0 (NewtonModel.zip_with (fun a b => (a - b) * (a - b)) x y).
(** a solution returned without error or warning is one *)
Definition solve_ok (solve : list (list R) -> list R -> option (list R)) : Prop :=
  forall n A b x, matrix n n A -> length b = n -> solve A b = Some x -> length x = n /\ mv A x = b.
(** the least-squares solver minimises the residual *)
Definition lstsq_ok (lstsq : list (list R) -> list R -> list R) : Prop :=
  forall n A b, matrix n n A -> length b = n -> length (lstsq A b) = n /\
    forall y, length y = n -> sqdist (mv A (lstsq A b)) b <= sqdist (mv A y) b.
