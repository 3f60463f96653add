(** What is assumed of the QR factorisation, and notions for the shift direction. *)
From Coq Require Import List Arith Reals.
From Verif Require Import Exn.
Import ListNotations.
Open Scope R_scope.

Definition entry (Q : list (list R)) (k i : nat) : R := nth i (nth k Q []) 0.
Definition bigsum (n : nat) (f : nat -> R) : R := fold_right Rplus 0 (map f (seq 0 n)).
(** the columns are orthogonal of length 1 *)
Definition orthonormal (m : nat) (Q : list (list R)) : Prop :=
  length Q = m /\ forall i j, (i < m)%nat -> (j < m)%nat -> bigsum m (fun k => entry Q k i * entry Q k j) = if (i =? j)%nat then 1 else 0.
(** the matrix with the columns [cols] is [Q] times a matrix that is 0 below the diagonal *)
Definition triangular (m : nat) (cols Q : list (list R)) : Prop :=
  exists T : nat -> nat -> R, (forall i j, (j < i)%nat -> T i j = 0) /\
  forall j k, (j < length cols)%nat -> (k < m)%nat -> nth k (nth j cols []) 0 = bigsum m (fun i => entry Q k i * T i j).
(** the answers of the routine are right *)
Definition qr_ok (qr : nat -> list (list R) -> res (list (list R))) : Prop :=
  forall m cols Q, qr m cols = Ok Q -> orthonormal m Q /\ triangular m cols Q.

Definition dot (m : nat) (u v : list R) : R := bigsum m (fun k => nth k u 0 * nth k v 0).
(** [z] is a row of [Y] with the smallest entry [j] *)
Definition least (j : nat) (Y : list (list R)) (z : list R) : Prop := In z Y /\ forall y, In y Y -> nth j z 0 <= nth j y 0.
(** orthogonal to the differences of the points [z 0], ..., [z (m - 1)] *)
Definition normal_to (m : nat) (z : nat -> list R) (v : list R) : Prop :=
  forall j, (j < m)%nat -> dot m v (z j) = dot m v (z 0%nat).
Definition one_sign (m : nat) (v : list R) : Prop := (forall k, (k < m)%nat -> 0 <= nth k v 0) \/ (forall k, (k < m)%nat -> nth k v 0 <= 0).
(** [r] moved by [c] along [e] *)
Definition shifted (c : R) (e r r' : list R) : Prop := length r' = length r /\ forall j, nth j r' 0 = nth j r 0 + c * nth j e 0.
(** at distance 0 up to 1e-8 (the tolerance of [np.isclose]) *)
Definition length_of (v : list R) : R := sqrt (fold_right (fun a r => a * a + r) 0 v).
Definition apart (u v : list R) : R := sqrt (fold_right (fun p r => (fst p - snd p) * (fst p - snd p) + r) 0 (combine u v)).
Definition tiny (x : R) : Prop := x <= / 10 ^ 8.
(** which targets DpN moves, and which MMDNewton moves *)
Definition dpn_moves (iter : nat) (Y M steps : list (list R)) (k : nat) : Prop :=
  iter = 0%nat \/ (tiny (apart (nth k Y []) (nth k M [])) /\ tiny (length_of (nth k steps []))).
Definition mmd_moves (iter : nat) (Y M steps : list (list R)) (k : nat) : Prop :=
  iter = 0%nat \/ ((exists r, In r M /\ tiny (apart (nth k Y []) r)) /\ tiny (length_of (nth k steps []))).
(** [lg] lists exactly the moved rows of [M'], in order *)
Definition logged (moves : nat -> Prop) (M' : list (list R)) (lg : list (nat * list R)) : Prop :=
  NoDup (map fst lg) /\ forall k r, In (k, r) lg <-> ((k < length M')%nat /\ moves k /\ r = nth k M' []).
