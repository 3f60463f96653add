(** What it means for a circular doubly linked list to hold a sequence of nodes. *)
From Coq Require Import List Arith Bool.
Import ListNotations.

(** following [f] from [a] one meets exactly [l] and then [b] *)
Fixpoint path (f : nat -> nat) (a : nat) (l : list nat) (b : nat) : Prop :=
  match l with
  | [] => f a = b
  | x :: l' => f a = x /\ path f x l' b
  end.
(** forwards one meets [l], backwards its reversal; [s] is not a member and no node occurs twice *)
Definition holds (next prev : nat -> nat) (s : nat) (l : list nat) : Prop :=
  ~ In s l /\ NoDup l /\ path next s l s /\ path prev s (rev l) s.
