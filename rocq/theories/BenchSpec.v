(** Optimality of objective vectors, independently of the model. *)
From Coq Require Import List Arith Reals.
Import ListNotations.
Open Scope R_scope.

(** [n] numbers, the first [k] in [a, b] and the others in [c, d] *)
Definition in_box (n k : nat) (a b c d : R) (x : list R) : Prop :=
  length x = n /\ forall i, (i < n)%nat -> if (i <? k)%nat then a <= nth i x 0 <= b else c <= nth i x 0 <= d.
(** [a] is at least as good as [b] in every objective *)
Definition wdom (a b : list R) : Prop := Forall2 Rle a b.
Definition dominates (a b : list R) : Prop := wdom a b /\ a <> b.

Section Optimal.
  Variables (F : list R -> Prop) (f : list R -> option (list R)).
  (** the vector of a feasible point *)
  Definition attained (u : list R) : Prop := exists x, F x /\ f x = Some u.
  Definition undominated (u : list R) : Prop := forall x v, F x -> f x = Some v -> ~ dominates v u.
  Definition optimal (u : list R) : Prop := attained u /\ undominated u.
  (** the optimal vectors are those in [C], every feasible point has a vector, and every such
      vector is at most as good as one in [C] *)
  Definition front (C : list R -> Prop) : Prop :=
    (forall u, optimal u <-> C u) /\ (forall x, F x -> exists v, f x = Some v /\ exists u, C u /\ wdom u v).
End Optimal.

(** {0}, [1/4, 1/2], [3/4, 1] *)
Definition bands (t : R) : Prop := t = 0 \/ 1/4 <= t <= 1/2 \/ 3/4 <= t <= 1.
(** the multiples of 1/m from 0 to 1 *)
Definition grid (m : nat) (t : R) : Prop := exists i, (i <= m)%nat /\ t = INR i / INR m.
(** a curve over a set of values of the first objective *)
Definition graph (D : R -> Prop) (phi : R -> R) (u : list R) : Prop := exists t, D t /\ u = [t; phi t].
Definition unit_interval (t : R) : Prop := 0 <= t <= 1.
(** the points of the unit sphere without negative entries *)
Definition octant (u : list R) : Prop := exists a b c, u = [a; b; c] /\ 0 <= a /\ 0 <= b /\ 0 <= c /\ a * a + b * b + c * c = 1.
Definition simplex3 (a b c : R) : Prop := 0 <= a /\ 0 <= b /\ 0 <= c /\ a + b + c = 1.
