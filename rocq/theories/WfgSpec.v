(** The optimal vectors of the WFG problems, independently of the model. *)
From Coq Require Import List Arith Reals.
From Verif Require Import BenchSpec.
Import ListNotations.
Open Scope R_scope.

(** the numbers of [x] lie between 0 and the upper bounds [xu] *)
Definition below (xu x : list R) : Prop := Forall2 (fun b a => 0 <= a <= b) xu x.
(** the parameters accepted by the class *)
Definition wfg_valid (number n M k l : nat) : Prop :=
  (2 <= M)%nat /\ (4 <= k)%nat /\ Nat.divide (M - 1) k /\ n = (k + l)%nat /\ (1 <= l)%nat /\ (number = 2%nat \/ number = 3%nat -> Nat.Even l).
(** a surface over the cube: the one vector [1] over the empty list; a further coordinate [a]
    multiplies the vector by [up a] and adds the entry [dn a] *)
Fixpoint fan (up dn : R -> R) (x : list R) : list R :=
  match x with [] => [1] | a :: t => map (Rmult (up a)) (fan up dn t) ++ [dn a] end.
(** the m-th entry is multiplied by 2 m *)
Fixpoint scaled (m : nat) (u : list R) : list R := match u with [] => [] | a :: t => 2 * INR m * a :: scaled (S m) t end.
Fixpoint sum_squares (u : list R) : R := match u with [] => 0 | a :: t => a * a + sum_squares t end.
(** WFG4 to WFG9: an ellipsoid with semi-axes 2, 4, .., 2 M *)
Definition ellipsoid (M : nat) (u : list R) : Prop :=
  exists v, length v = M /\ Forall (Rle 0) v /\ sum_squares v = 1 /\ u = scaled 1 v.
(** WFG1, WFG2: the convex surface, with another last entry [last_entry a] *)
Definition convex_up (a : R) : R := 1 - cos (a * PI / 2).
Definition convex_dn (a : R) : R := 1 - sin (a * PI / 2).
Definition convex_surface (D : R -> Prop) (last_entry : R -> R) (M : nat) (u : list R) : Prop :=
  exists a x, unit_interval a /\ D a /\ length x = (M - 2)%nat /\ Forall unit_interval x /\
    u = scaled 1 (map (Rmult (convex_up a)) (fan convex_up convex_dn x) ++ [last_entry a]).
Definition wfg1_entry (a : R) : R := 1 - a - cos (10 * PI * a + PI / 2) / (10 * PI).
Definition wfg2_entry (a : R) : R := 1 - a * (cos (5 * PI * a) * cos (5 * PI * a)).
(** the value at [a] is smaller than all the values before it *)
Definition record (f : R -> R) (a : R) : Prop := forall b, 0 <= b < a -> f a < f b.
(** WFG3: the curve of the vectors with all but the first coordinate 1/2 *)
Definition wfg3_curve (M : nat) (u : list R) : Prop :=
  exists a, unit_interval a /\ u = scaled 1 (fan (fun a => a) (fun a => 1 - a) (a :: repeat (1/2) (M - 2))).
