(** Specifications for test problems: dominance, boxes, Pareto fronts. *)
From Coq Require Import List Arith Reals.
Import ListNotations.
Open Scope R_scope.

(** entrywise comparison of vectors of equal length *)
Definition leqv (a b : list R) : Prop := Forall2 Rle a b.
(** Pareto dominance for minimisation *)
Definition dominates (a b : list R) : Prop := leqv a b /\ a <> b.
(** [x] in the box *)
Definition in_box (lo hi x : list R) : Prop := leqv lo x /\ leqv x hi.
Definition cube (n : nat) (x : list R) : Prop := length x = n /\ Forall (fun a => 0 <= a <= 1) x.
(** a set of objective vectors reported as (part of) the Pareto front of [f] on [dom]: every vector is
    attained, and no attained vector dominates it *)
Definition attained (dom : list R -> Prop) (f : list R -> list R) (y : list R) : Prop := exists x, dom x /\ f x = y.
Definition optimal (dom : list R -> Prop) (f : list R -> list R) (y : list R) : Prop := forall x, dom x -> ~ dominates (f x) y.
Definition front_ok (dom : list R -> Prop) (f : list R -> list R) (F : list (list R)) : Prop :=
  forall y, In y F -> attained dom f y /\ optimal dom f y.
Definition total (l : list R) : R := fold_right Rplus 0 l.
Definition sqnorm (l : list R) : R := fold_right (fun a s => a * a + s) 0 l.
(** the simplex lattice: [m] multiples of [1/p], non-negative, with sum one *)
Definition lattice (m p : nat) (y : list R) : Prop :=
  exists k : list nat, length k = m /\ fold_right Nat.add 0%nat k = p /\ y = map (fun v => INR v / INR p) k.
