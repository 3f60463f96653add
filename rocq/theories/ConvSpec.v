(** Squared distances, convex hulls and curves, independently of the model. *)
From Coq Require Import List Arith Reals.
Import ListNotations.
Open Scope R_scope.

(** the squared distance of two points *)
Fixpoint sqdist (x a : list R) : R :=
  match x, a with u :: x, v :: a => (u - v) ^ 2 + sqdist x a | _, _ => 0 end.
Definition weights (w : list R) : Prop := Forall (fun a => 0 <= a) w /\ fold_right Rplus 0 w = 1.
(** the corners of the triangle of CONV3, and the point with weights [w] *)
Definition corners3 : list (list R) := [[-1; -1; -1]; [1; 1; 1]; [-1; -1; 1]].
Definition triangle (x : list R) : Prop :=
  exists a b c, weights [a; b; c] /\ x = [- a + b - c; - a + b - c; - a + b + c].
(** the unit vectors of four dimensions, whose convex hull consists of the weights *)
Definition corners4 : list (list R) := [[1; 0; 0; 0]; [0; 1; 0; 0]; [0; 0; 1; 0]; [0; 0; 0; 1]].
Definition tetrahedron (x : list R) : Prop := length x = 4%nat /\ weights x.
(** the squared distances of a point of [D] to the corners *)
Definition distances (D : list R -> Prop) (corners : list (list R)) (u : list R) : Prop :=
  exists x, D x /\ u = map (sqdist x) corners.
(** the same, moved by [s] *)
Definition moved (s : list R) (C : list R -> Prop) (u : list R) : Prop :=
  exists v, C v /\ u = map (fun p => fst p + snd p) (combine v s).
Definition not_corner (x : list R) : Prop := Forall (fun a => a < 1) x.
(** the vectors of CONV4_2F: those of CONV4, and those of its points other than the corners, moved *)
Definition shift7 : list R := [-7; 0; 0; 7].
Definition front2f (u : list R) : Prop :=
  distances tetrahedron corners4 u \/ moved shift7 (distances (fun x => tetrahedron x /\ not_corner x) corners4) u.
(** a vector of DENT; [d] is the difference of the two variables *)
Definition dent_entry (d : R) : R := (1 + sqrt (1 + d ^ 2) + d) / 2 + 85 / 100 * exp (- d ^ 2).
Definition dent_curve (h : R) (u : list R) : Prop :=
  exists d, - (2 * h) <= d <= 2 * h /\ u = [dent_entry d; dent_entry (- d)].
(** the two arcs of DisConnected *)
Definition arcs (u : list R) : Prop :=
  exists t, (1/10 <= t <= 4/10 /\ u = [t; (5 * t / 2) ^ 2 - 5 * t + 1]) \/ (6/10 < t <= 8/10 /\ u = [t; - 4 - (5 * t / 2) ^ 2]).
(** the feasible points of DisConnected *)
Definition disconnected_feasible (x : list R) : Prop :=
  exists t s, x = [t; s] /\ 0 <= t <= 1 /\ -8 <= s <= 1 /\
    ((1/10 <= t <= 4/10 \/ t = 6/10) /\ s = (5 * t / 2) ^ 2 - 5 * t + 1 \/ 6/10 < t <= 8/10 /\ s = - 4 - (5 * t / 2) ^ 2).
(** rows of [n] numbers that are not negative and not all 0 *)
Definition draws (n : nat) (w : list (list R)) : Prop := Forall (fun r => length r = n /\ Forall (fun a => 0 <= a) r /\ fold_right Rplus 0 r <> 0) w.
(** no entry of a row is the only one that is not 0 *)
Definition mixed (w : list (list R)) : Prop := Forall (fun r => Forall (fun a => a <> fold_right Rplus 0 r) r) w.
