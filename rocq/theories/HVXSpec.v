(** Specification of derivatives in decision space, independent of the model. *)
From Coq Require Import List Arith Reals.
From Coquelicot Require Import Coquelicot.
From Verif Require Import HVSpec HVDSpec.
Import ListNotations.
Open Scope R_scope.

(** [f] maps vectors of [n] numbers to vectors of [m] numbers *)
Definition maps (n m : nat) (f : list R -> list R) : Prop := forall x, length x = n -> length (f x) = m.

(** [J] is the Jacobian of [f] at [x] *)
Definition jac_at (n m : nat) (f : list R -> list R) (J : nat -> nat -> R) (x : list R) : Prop :=
  forall k v, (k < m)%nat -> (v < n)%nat -> is_derive (fun t => nth k (f (set_at v t x)) 0) (nth v x 0) (J k v).

(** [H] holds the second derivatives of [f] at [x]: derivatives of the Jacobian [J] *)
Definition hess_at (n m : nat) (J : list R -> nat -> nat -> R) (H : nat -> nat -> nat -> R) (x : list R) : Prop :=
  forall k v w, (k < m)%nat -> (v < n)%nat -> (w < n)%nat ->
    is_derive (fun t => J (set_at w t x) k v) (nth w x 0) (H k v w) /\ H k v w = H k w v.

(** [g] is the partial derivative, with respect to variable [v] of point [i], of the
    hypervolume of the image of the points *)
Definition is_partial_X (f : list R -> list R) (ref : list R) (X : list (list R)) (i v : nat) (g : R) : Prop :=
  forall h : R -> R, (forall t, is_hypervolume (map f (set_coord X i v t)) ref (h t)) ->
    is_derive h (coord X i v) g.

(** [c] is the derivative of that partial derivative with respect to variable [w] of point [j] *)
Definition is_second_X (f : list R -> list R) (ref : list R) (X : list (list R)) (i v j w : nat) (c : R) : Prop :=
  forall D : R -> R,
    locally (coord X j w) (fun t => is_partial_X f ref (set_coord X j w t) i v (D t)) ->
    is_derive D (coord X j w) c.
