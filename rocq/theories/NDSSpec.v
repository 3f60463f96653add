(** Specification of non-dominated sorting, independent of the model:
    Pareto dominance, peeling of fronts, chains. *)
From Coq Require Import List Arith Reals.
Import ListNotations.
Open Scope R_scope.

(** [p] dominates [q] (minimisation). *)
Definition dominates (p q : list R) : Prop :=
  length p = length q /\
  (forall k, (k < length p)%nat -> nth k p 0 <= nth k q 0) /\
  (exists k, (k < length p)%nat /\ nth k p 0 < nth k q 0).

(** [p] is no worse than [q] in every objective. *)
Definition weakly_dominates (p q : list R) : Prop :=
  length p = length q /\ forall k, (k < length p)%nat -> nth k p 0 <= nth k q 0.

Definition row (P : list (list R)) (i : nat) : list R := nth i P [].

(** The indices that remain after peeling off the non-dominated ones [r] times. *)
Fixpoint remaining (P : list (list R)) (r : nat) (i : nat) : Prop :=
  match r with
  | O => (i < length P)%nat
  | S r' => remaining P r' i /\ exists j, remaining P r' j /\ dominates (row P j) (row P i)
  end.

(** Front [r]: the non-dominated ones among those remaining after [r] peelings. *)
Definition pareto_front (P : list (list R)) (r : nat) (i : nat) : Prop :=
  remaining P r i /\ ~ (exists j, remaining P r j /\ dominates (row P j) (row P i)).

(** [l] (last element first) is a chain of indices, each dominating the previous one. *)
Fixpoint chain_to (P : list (list R)) (i : nat) (l : list nat) : Prop :=
  match l with
  | [] => True
  | j :: l' => (j < length P)%nat /\ dominates (row P j) (row P i) /\ chain_to P j l'
  end.
