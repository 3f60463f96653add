(** Small specification vocabulary for the evolutionary algorithms. *)
From Coq Require Import List Arith Bool Reals.
Import ListNotations.
Open Scope R_scope.

(** exactly [c] of the numbers below [n] satisfy [P] *)
Definition counts (P : nat -> Prop) (n c : nat) : Prop :=
  exists l, NoDup l /\ length l = c /\ forall s, In s l <-> (s < n)%nat /\ P s.
(** coordinatewise at most *)
Definition weakly (f s : list R) : Prop := Forall2 Rle f s.
(** matrix with rows of length [m] *)
Definition rect (m : nat) (A : list (list R)) : Prop := Forall (fun r => length r = m) A.
(** [lo] is the coordinatewise minimum of the rows of [F] *)
Definition is_ideal (m : nat) (F : list (list R)) (lo : list R) : Prop :=
  length lo = m /\ forall j, (j < m)%nat ->
    (forall f, In f F -> nth j lo 0 <= nth j f 0) /\ (exists f, In f F /\ nth j lo 0 = nth j f 0).
(** volume of the box between two corners *)
Fixpoint volume (lo hi : list R) : R := match lo, hi with a :: lo', b :: hi' => (b - a) * volume lo' hi' | _, _ => 1 end.
(** the list without its element number [i] *)
Definition without {A} (i : nat) (l l' : list A) : Prop := exists a x b, l = a ++ x :: b /\ l' = a ++ b /\ length a = i.
(** an index as Python understands it *)
Definition index_of (n : nat) (k : Z) (i : nat) : Prop := (i < n)%nat /\ (k = Z.of_nat i \/ k = (Z.of_nat i - Z.of_nat n)%Z).
(** [a] Pareto-dominates [b] *)
Definition pdom (a b : list R) : Prop := Forall2 Rle a b /\ a <> b.
