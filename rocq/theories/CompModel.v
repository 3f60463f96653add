(** Model of the two analytical pieces of /repo/examples/HVSS/components.py. *)
From Coq Require Import List Reals ZArith.
From Verif Require Import Exn ExModel.
Import ListNotations.
Open Scope R_scope.

(** [FLatConvex._objective], lines 33-38; [jnp.power] is [Rpower], the base is positive for t in [0, 1]. *)
Definition flat_convex (t0 : R) : list R :=
  let t := t0 * (9 / 10) + 5 / 100 in
  let a := 1 + 10 * (t - t ^ 2) in
  [Rpower t a; Rpower (1 - t) a].
(** [Linear._objective], lines 45-49. *)
Definition linear (t0 : R) : list R :=
  let t := t0 * (3 / 10) in
  [92713359 / 100000000 + t; - (5 / 10) - t].
(** [problem], line 92; the derivatives come from JAX and are parameters. *)
Definition components (J1 H1 J2 H2 : R -> list R) : list piece :=
  [mkPiece flat_convex J1 H1; mkPiece linear J2 H2].
(** [ref], line 94. *)
Definition comp_ref : list R := [2; 1].
