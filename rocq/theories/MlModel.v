(** Model of the public interface of [MultiList], /repo/hvd/hypervolume.py 197-267; [extend],
    [remove] and [reinsert] are in HVModel, on the same memory of nodes. *)
From Coq Require Import List Arith Bool.
From Verif Require Import Num Exn HVModel.
Import ListNotations.

Section ML.
Context {T : Type} `{Num T}.
Variable pts : list (list T).
Notation sn := (length pts).

(** [append], 225-232. *)
Definition append (node index : nat) (m : @mem T) : mem :=
  let last := pv m index sn in
  let m1 := set_nx m index node sn in
  let m2 := set_pv m1 index node last in
  let m3 := set_pv m2 index sn node in
  set_nx m3 index last node.

(** the loop of [getLength], 219-222: one unit of [fuel] for a node; the loop of the code does
    not end on a list that does not come back to the sentinel. *)
Fixpoint length_from (fuel : nat) (m : @mem T) (i node len : nat) : res nat :=
  if Nat.eqb node sn then Ok len
  else match fuel with 0 => Exn OutOfFuel | S fuel' => length_from fuel' m i (nx m i node) (S len) end.
(** [getLength], 215-223. *)
Definition get_length (fuel : nat) (m : @mem T) (i : nat) : res nat := length_from fuel m i (nx m i sn) 0.

(** the inner loop of [__str__], 201-204: the nodes instead of the strings of their cargo. *)
Fixpoint items_from (fuel : nat) (m : @mem T) (i node : nat) (cur : list nat) : res (list nat) :=
  if Nat.eqb node sn then Ok cur
  else match fuel with 0 => Exn OutOfFuel | S fuel' => items_from fuel' m i (nx m i node) (cur ++ [node]) end.
Definition items (fuel : nat) (m : @mem T) (i : nat) : res (list nat) := items_from fuel m i (nx m i sn) [].
(** [__str__], 197-209: one line per list. *)
Fixpoint items_all (fuel : nat) (m : @mem T) (is : list nat) : res (list (list nat)) :=
  match is with
  | [] => Ok []
  | i :: is' => do l <- items fuel m i; do r <- items_all fuel m is'; Ok (l :: r)
  end.
Definition show (fuel numberLists : nat) (m : @mem T) : res (list (list nat)) := items_all fuel m (seq 0 numberLists).

(** a sequence of calls of [remove] (245-254) and of [reinsert] (256-267), with the node and the
    index of each call; the callers are in hvRecursive (lines 107 and 118). *)
Fixpoint remove_all (calls : list (nat * nat)) (m : @mem T) : res mem :=
  match calls with
  | [] => Ok m
  | (x, d) :: c => do m1 <- remove pts x d m; remove_all c m1
  end.
Fixpoint reinsert_all (calls : list (nat * nat)) (m : @mem T) : res mem :=
  match calls with
  | [] => Ok m
  | (x, d) :: c => do m1 <- reinsert pts x d m; reinsert_all c m1
  end.
End ML.
