(** Notions for the properties of the start of the Newton methods. *)
From Coq Require Import List Reals ZArith.
From Flocq Require Import Core IEEE754.BinarySingleNaN.
From Verif Require Import DblModel.
Import ListNotations.
Open Scope R_scope.

(** the draw has the requested shape and its numbers are in [0, 1) *)
Definition uniform (n d : nat) (U : list (list R)) : Prop :=
  length U = n /\ forall u, In u U -> length u = d /\ forall k, (k < d)%nat -> 0 <= nth k u 0 < 1.

(** a double that NumPy's generators return as a random number in [0, 1): a multiple of 2^-53 *)
Definition random_double (u : double) : Prop :=
  is_finite u = true /\ exists k : Z, (0 <= k < 2 ^ 53)%Z /\ B2R u = IZR k * bpow radix2 (-53).
