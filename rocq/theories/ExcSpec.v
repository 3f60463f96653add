(** Small definitions for the statements about the example problems, independent of the model. *)
From Coq Require Import List Reals.
Import ListNotations.
Open Scope R_scope.

(** convex combinations of (-1, -1), (0, 0) and (-2, 4) *)
Definition tri2 (p : R * R) : Prop := exists w1 w2 w3, 0 <= w1 /\ 0 <= w2 /\ 0 <= w3 /\ w1 + w2 + w3 = 1 /\ fst p = w1 * -1 + w2 * 0 + w3 * -2 /\ snd p = w1 * -1 + w2 * 0 + w3 * 4.
(** inner product, and the quadratic form of a matrix *)
Definition dot (x y : list R) : R := fold_right Rplus 0 (map (fun p => fst p * snd p) (combine x y)).
Definition quad (H : list (list R)) (d : list R) : R := dot d (map (fun row => dot row d) H).
(** [J] and [H] are the gradient and the Hessian of a quadratic function: its values are exact Taylor polynomials *)
Definition taylor (f fd : R) (J d : list R) (H : list (list R)) : Prop := fd = f + dot J d + quad H d / 2.
Definition add3 (x d : list R) : list R := map (fun p => fst p + snd p) (combine x d).
