(** Model of small helpers of /repo/hvd/utils.py. *)
From Coq Require Import List Arith Bool.
From Verif Require Import Num Exn.
Import ListNotations.

Section GND.
Context {T : Type} `{Num T}.
(** [np.isclose] (utils.py 237-242) is a parameter: any boolean relation. *)
Variable isclose : T -> T -> bool.

Fixpoint zip_any (f : T -> T -> bool) (a b : list T) : bool :=
  match a, b with
  | x :: a', y :: b' => f x y || zip_any f a' b'
  | _, _ => false
  end.
Fixpoint zip_all (f : T -> T -> bool) (a b : list T) : bool :=
  match a, b with
  | x :: a', y :: b' => f x y && zip_all f a' b'
  | _, _ => true
  end.

(** [np.any(pareto_front[..] > p, axis=1)] for one row [q], utils.py 232-234. *)
Definition some_worse (q p : list T) : bool := zip_any (fun x y => nltb y x) q p.
(** [np.all(~np.isclose(q, p))], utils.py 237-241. *)
Definition nowhere_close (q p : list T) : bool := zip_all (fun x y => negb (isclose x y)) q p.

(** utils.py 231-242: the condition for row [idx]. *)
Definition gnd_cond (weakly : bool) (M : list (list T)) (idx : nat) : bool :=
  let p := nth idx M [] in
  let ok q := if weakly then some_worse q p else some_worse q p && nowhere_close q p in
  forallb ok (firstn idx M) && forallb ok (skipn (S idx) M).

(** utils.py 224-246 [get_non_dominated], returning the indices.  [np.array([])] has
    dtype float, so indexing with it (line 245) raises [IndexError] when no row
    qualifies, whatever [return_index] is. *)
Definition get_non_dominated_idx (weakly : bool) (M : list (list T)) : res (list nat) :=
  match filter (gnd_cond weakly M) (seq 0 (length M)) with
  | [] => Exn IndexError
  | ix => Ok ix
  end.
(** [return_index=False]: the selected rows. *)
Definition get_non_dominated (weakly : bool) (M : list (list T)) : res (list (list T)) :=
  do ix <- get_non_dominated_idx weakly M;
  Ok (map (fun i => nth i M []) ix).
End GND.
