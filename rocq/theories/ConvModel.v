(** Model of /repo/hvd/problems/misc.py: objectives, constraints and reported fronts.  A result [None]
    stands for an array with an undefined entry (0/0), or for a point with a number of entries other
    than [n_var], which no code of the repository passes. *)
From Coq Require Import List Arith Bool Reals.
From Verif Require Import ProbModel NewtonModel BenchModel.
Import ListNotations.
Open Scope R_scope.

(** [jnp.sum((x - a) ** 2)] *)
Definition dist2 (x a : list R) : R := vsum (zip_with (fun u v => sq (u - v)) x a).
(** [np.linspace(a, b, N)] *)
Definition linspace (a b : R) (N : nat) : list R :=
  map (fun i => if (N =? 1)%nat then a else a + INR i * ((b - a) / INR (N - 1))) (seq 0 N).
(** [w / w.sum()] for one row *)
Definition normalised (w : list R) : option (list R) :=
  if reqb (vsum w) 0 then None else Some (map (fun a => a / vsum w) w).
(** [w @ A] for one row [w]; [n] is the number of columns of [A] *)
Definition row_mul (n : nat) (w : list R) (A : list (list R)) : list R :=
  map (fun j => vsum (zip_with (fun a r => a * nth j r 0) w A)) (seq 0 n).
(** [np.eye(n)] *)
Definition unit_row (n i : nat) : list R := map (fun j => if (j =? i)%nat then 1 else 0) (seq 0 n).
Definition eye (n : nat) : list (list R) := map (unit_row n) (seq 0 n).
Fixpoint all_some {A} (l : list (option A)) : option (list A) :=
  match l with [] => Some [] | o :: t => let? a := o in let? r := all_some t in Some (a :: r) end.

(** * DENT, lines 28-33; bounds 15-16: [-2, 2] *)
Definition dent (x : list R) : option (list R) :=
  match x with
  | [x0; x1] =>
      let term1 := sqrt (1 + sq (x0 + x1)) + sqrt (1 + sq (x0 - x1)) in
      let term2 := 0.85 * exp (- sq (x0 - x1)) in
      Some [0.5 * (term1 + x0 - x1) + term2; 0.5 * (term1 - x0 + x1) + term2]
  | _ => None
  end.
(** lines 35-37 *)
Definition dent_set (N : nat) : list (list R) := map (fun x => [x; - x]) (linspace (-2) 2 N).
(** lines 39-41 *)
Definition dent_front (N : nat) : option (list (list R)) := all_some (map dent (dent_set N)).

(** * CONV3, lines 62-64; bounds 49-50: [-3, 3] *)
Definition conv3_centers : list (list R) := [[-1; -1; -1]; [1; 1; 1]; [-1; -1; 1]].
(** lines 66-69 *)
Definition conv3 (x : list R) : option (list R) :=
  if (length x =? 3)%nat then Some (map (dist2 x) conv3_centers) else None.
(** lines 71-75; the rows of [w] are the numbers drawn on line 72 *)
Definition conv3_front (w : list (list R)) : option (list (list R)) :=
  all_some (map (fun r => let? c := normalised r in conv3 (row_mul 3 c conv3_centers)) w).

(** * CONV4, lines 98-102; bounds 85-86: [-10, 10] *)
Definition conv4 (x : list R) : option (list R) :=
  if (length x =? 4)%nat then Some (map (dist2 x) (eye 4)) else None.
(** lines 104-108 *)
Definition conv4_front (w : list (list R)) : option (list (list R)) :=
  all_some (map (fun r => let? c := normalised r in conv4 (row_mul 4 c (eye 4))) w).

(** * CONV4_2F, lines 131-145; bounds 118-119: [-10, 10] *)
Definition deltay : list R := zip_with Rminus [2; 2; 2; 0] [0; 2; 2; 2].
Definition conv4_2f (x : list R) : option (list R) :=
  if (length x =? 4)%nat then
    Some (if forallb (fun a => rltb a 0) x
          then zip_with (fun a d => dist2 (map (fun u => u + 1) x) a - 3.5 * d) (eye 4) deltay
          else map (dist2 x) (eye 4))
  else None.
(** lines 148-149, for [N >= 0]: the numbers of rows of [w1] and [w2] *)
Definition conv4_2f_sizes (N : nat) : nat * nat := let N1 := (N - N / 2)%nat in (N1, Nat.max 1 (N - N1)).
(** lines 150-156 *)
Definition eye_minus_one : list (list R) := map (map (fun a => a - 1)) (eye 4).
Definition conv4_2f_front (w1 w2 : list (list R)) : option (list (list R)) :=
  let? p := all_some (map normalised w1) in
  let? q := all_some (map normalised w2) in
  all_some (map conv4_2f (map (fun c => row_mul 4 c (eye 4)) p ++ map (fun c => row_mul 4 c eye_minus_one) q)).

(** * DisConnected, lines 180-182 *)
Definition disconnected (x : list R) : option (list R) := if (length x =? 2)%nat then Some x else None.
(** lines 184-187 *)
Definition disconnected_ieq (x : list R) : option (list R) :=
  match x with
  | [x0; _] => Some [if rleb x0 0.5 then 0.1 - x0 else 0.6 - x0; if rleb x0 0.5 then x0 - 0.4 else x0 - 0.8]
  | _ => None
  end.
(** lines 189-194: a number, not an array of one number *)
Definition disconnected_eq (x : list R) : option R :=
  match x with
  | [x0; x1] => Some (if rleb x0 0.6 then sq (2.5 * x0) - 5 * x0 + 1 - x1 else 1 - sq (2.5 * x0) - 5 - x1)
  | _ => None
  end.
(** lines 173-174 *)
Definition disconnected_xl : list R := [0; -8].
Definition disconnected_xu : list R := [1; 1].

(** * ModifiedObjective, lines 212, 222-227: one row of [out["F"]] *)
Definition alpha : R := 0.02.
Definition modified_row (n_obj : nat) (F : list R) : list R := map (fun a => (1 - alpha) * a + alpha * vsum F / INR n_obj) F.
Definition modified (n_obj : nat) (f : list R -> option (list R)) (x : list R) : option (list R) :=
  let? F := f x in Some (modified_row n_obj F).
