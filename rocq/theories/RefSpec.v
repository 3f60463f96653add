(** Specification of the reference set: partitions, assignments, consistency. *)
From Coq Require Import List Arith Reals Permutation Sorting.Sorted.
From Verif Require Import Exn NewtonModel RefModel.
Import ListNotations.
Open Scope R_scope.

(** the index sets contain every point exactly once *)
Definition covers (ix : list (list nat)) (N : nat) : Prop := Permutation (concat ix) (seq 0 N).

(** a one-to-one assignment of min(n, m) rows to columns of an n x m matrix *)
Definition assignment (n m : nat) (a : list nat * list nat) : Prop :=
  length (fst a) = Nat.min n m /\ length (snd a) = Nat.min n m /\
  StronglySorted lt (fst a) /\ (forall i, In i (fst a) -> (i < n)%nat) /\
  NoDup (snd a) /\ (forall j, In j (snd a) -> (j < m)%nat).
Definition total (C : list (list R)) (a : list nat * list nat) : R :=
  fold_right Rplus 0 (map (fun ij : nat * nat => nth (snd ij) (nth (fst ij) C []) 0) (combine (fst a) (snd a))).
Definition best_assignment (C : list (list R)) (m : nat) (a : list nat * list nat) : Prop :=
  assignment (length C) m a /\ forall a', assignment (length C) m a' -> total C a <= total C a'.
(** what is assumed of scipy's solver: its answers are right *)
Definition lsa_ok (lsa : list (list R) -> res (list nat * list nat)) : Prop :=
  forall C m a, (forall r, In r C -> length r = m) -> lsa C = Ok a -> best_assignment C m a.
(** what is assumed of k-medoids: its answers are k different row numbers *)
Definition kmedoids_ok (kmedoids : list (list R) -> nat -> res (list nat)) : Prop :=
  forall comp k r, kmedoids comp k = Ok r -> length r = k /\ NoDup r /\ forall i, In i r -> (i < length comp)%nat.

(** the matched row [k] is stored as medoid [i] of component [c], different rows in different places *)
Definition consistent (s : refset) : Prop :=
  exists M mi, rs_matched s = Some (M, mi) /\ length mi = length M /\
  (forall k, (k < length M)%nat -> exists c i L, nth_error mi k = Some (Some (c, i)) /\
     nth_error (rs_medoids s) c = Some (Some L) /\ (i < length L)%nat /\ nth_error L i = nth_error M k) /\
  (forall k k' p, nth_error mi k = Some (Some p) -> nth_error mi k' = Some (Some p) -> k = k').
(** as built by the constructor, and kept by all methods *)
Definition wf (s : refset) : Prop := length (rs_medoids s) = length (rs_ref s) /\ rs_ref s <> [].

(** sum of the distances between corresponding rows *)
Definition sum_dist (Y P : list (list R)) : R := fold_right Rplus 0 (zip_with dist2 Y P).
(** component of the matched row [k] *)
Definition component_of (s : refset) (k : nat) : option nat :=
  match rs_matched s with Some (_, mi) => match nth_error mi k with Some (Some (c, _)) => Some c | _ => None end | None => None end.
Definition occurrences (k : nat) (l : list nat) : nat := count_occ Nat.eq_dec l k.

(** total shift of row [k] of [N] after a sequence of calls shift(c, indices) *)
Definition shift_weight (N k : nat) (ops : list (R * option (list nat))) : R :=
  fold_right Rplus 0 (map (fun o : R * option (list nat) =>
    fst o * INR (occurrences k (match snd o with Some l => l | None => seq 0 N end))) ops).
(** every component has a shift direction with as many entries as the matched rows *)
Definition eta_ok (s : refset) : Prop :=
  forall M mi k c i, rs_matched s = Some (M, mi) -> nth_error mi k = Some (Some (c, i)) ->
  exists e, nth_error (rs_eta s) c = Some e /\ length (nth k M []) = length e.
