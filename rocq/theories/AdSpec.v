(** Specification of gradients and Hessians of functions of a vector, independent of the model. *)
From Coq Require Import List Arith Reals.
From Coquelicot Require Import Coquelicot.
From Verif Require Import Exn HVDSpec.
Import ListNotations.
Open Scope R_scope.

(** [g] holds the partial derivatives of [f], which is defined near [x] on the lines parallel to the axes *)
Definition is_gradient (f : list R -> res R) (x : list R) (g : nat -> R) : Prop :=
  forall r, (r < length x)%nat -> exists h : R -> R,
    locally (nth r x 0) (fun t => f (set_at r t x) = Ok (h t)) /\ is_derive h (nth r x 0) (g r).
(** [H r s] is the derivative with respect to [x_s] of the partial derivative with respect to [x_r] *)
Definition is_hessian (f : list R -> res R) (x : list R) (H : nat -> nat -> R) : Prop :=
  forall r s, (r < length x)%nat -> (s < length x)%nat -> exists D : R -> R,
    locally (nth s x 0) (fun t => exists g, is_gradient f (set_at s t x) g /\ g r = D t) /\ is_derive D (nth s x 0) (H r s).

(** the coordinates are strictly above the sentinel [-1.0e308] of the code *)
Definition strictly_above (minf : R) (F : list (list R)) (ref : list R) : Prop :=
  forall i k, (i < length F)%nat -> (k < length ref)%nat -> minf < coord F i k - nth k ref 0.
