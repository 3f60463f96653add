(** Specification of the distance indicators GD and IGD and of their derivatives,
    independent of the model. *)
From Coq Require Import List Arith Reals.
From Coquelicot Require Import Coquelicot.
From Verif Require Import HVDSpec HVXSpec.
Import ListNotations.
Open Scope R_scope.

(** squared Euclidean distance *)
Fixpoint sqd (p q : list R) : R :=
  match p, q with a :: p', b :: q' => (a - b) ^ 2 + sqd p' q' | _, _ => 0 end.
Definition edist (p q : list R) : R := sqrt (sqd p q).
Fixpoint sumR (l : list R) : R := match l with [] => 0 | a :: t => a + sumR t end.
(** [x ^ q] for [x >= 0] and [q > 0] *)
Definition pw (x q : R) : R := if Req_EM_T x 0 then 0 else Rpower x q.

(** [d] is the distance of [y] to the set [S] *)
Definition set_dist (y : list R) (S : list (list R)) (d : R) : Prop :=
  (exists r, In r S /\ d = edist y r) /\ forall r, In r S -> d <= edist y r.
(** [v] is the mean of the [p]-th powers of the distances of the points of [A] to [B] *)
Definition mean_dist (p : R) (A B : list (list R)) (v : R) : Prop :=
  exists ds, length ds = length A /\
    (forall i, (i < length A)%nat -> set_dist (nth i A []) B (nth i ds 0)) /\
    v = sumR (map (fun d => pw d p) ds) / INR (length A).

(** an indicator [I] of sets of points in objective space ([I Y v]: its value at [Y] is [v]);
    [g] is its partial derivative with respect to variable [k] of point [i] *)
Definition is_partial_I (I : list (list R) -> R -> Prop) (f : list R -> list R) (X : list (list R)) (i k : nat) (g : R) : Prop :=
  forall h : R -> R, (forall t, I (map f (set_coord X i k t)) (h t)) -> is_derive h (coord X i k) g.
(** [c] is the derivative of that partial derivative with respect to variable [l] of point [j] *)
Definition is_second_I (I : list (list R) -> R -> Prop) (f : list R -> list R) (X : list (list R)) (i k j l : nat) (c : R) : Prop :=
  forall D : R -> R, locally (coord X j l) (fun t => is_partial_I I f (set_coord X j l t) i k (D t)) ->
    is_derive D (coord X j l) c.

(** the point [y] has the nearest point [r] of [S], and no other *)
Definition nearest (y : list R) (S : list (list R)) (r : list R) : Prop :=
  In r S /\ forall r', In r' S -> r' = r \/ edist y r < edist y r'.
(** the point [r] is nearest to point number [i] of [Y], and to no other *)
Definition nearest_ix (r : list R) (Y : list (list R)) (i : nat) : Prop :=
  (i < length Y)%nat /\ forall j, (j < length Y)%nat -> j <> i -> edist r (nth i Y []) < edist r (nth j Y []).
