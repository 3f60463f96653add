(** Specification for the further examples and scripts. *)
From Coq Require Import Ascii String List Arith Bool Reals.
From Verif Require Import BenchSpec Ex2Model.
Import ListNotations.
Open Scope R_scope.

(** [x] is in the box with centre [c] and half radii [h] *)
Definition in_boxc (x c h : list R) : Prop := forall j, (j < length x)%nat -> Rabs (nth j x 0 - nth j c 0) <= nth j h 0.
Definition dist (x y : list R) : R := sqrt (fold_right Rplus 0 (map (fun p => (fst p - snd p) * (fst p - snd p)) (combine x y))).
(** number of multisets of [k] out of [n]: recursion over the first element *)
Fixpoint multisets (n k : nat) : nat :=
  match k with
  | O => 1
  | S k' => (fix go (n : nat) := match n with O => 0 | S n' => multisets n k' + go n' end) n
  end%nat.
(** number of subsets of size [k] of [n] elements *)
Fixpoint subsets (n k : nat) : nat :=
  match n, k with _, O => 1 | O, S _ => 0 | S n', S k' => subsets n' k' + subsets n' k end%nat.
Definition sum_nat (l : list nat) : nat := fold_right Nat.add 0%nat l.
(** feasible points of a front given as a problem in three variables *)
Definition feasible (P : fprob) (x : list R) : Prop :=
  length x = 3%nat /\ Forall (fun a => fp_lo P <= a <= fp_hi P) x /\ fp_eq P x = 0 /\ fp_ieq P x <= 0.
(** [random.sample(l, n)]: [n] elements at different positions *)
Definition picks (pick : list nat -> nat -> list nat) : Prop :=
  forall l n, (n <= length l)%nat -> exists ix, NoDup ix /\ length ix = n /\ (forall j, In j ix -> (j < length l)%nat) /\ pick l n = map (fun j => nth j l O) ix.
Definition count {A} (f : A -> bool) (l : list A) : nat := length (filter f l).
(** largest element *)
Definition is_max (l : list R) (m : R) : Prop := In m l /\ forall a, In a l -> a <= m.
(** fields joined by commas *)
Fixpoint join (l : list text) : text := match l with [] => [] | [a] => a | a :: t => a ++ ","%char :: join t end.
(** text of a number: not empty, no commas or blanks, not starting like a word of the format *)
Definition number_text (s : text) : Prop :=
  s <> [] /\ (forall c, In c s -> c <> ","%char /\ is_space c = false) /\ forall c t, s = c :: t -> ~ In (lower_char c) (tx "kdx").
(** the rows of a well-formed file *)
Definition spline_lines (header : bool) (points : list (list text)) (knots : list text) (degree : text) : list text :=
  (if header then [tx "x,y,z"] else []) ++ map join points ++ [tx "knots"; join knots; tx "degree"; degree].
