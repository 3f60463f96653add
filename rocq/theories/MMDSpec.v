(** Specification of the maximum mean discrepancy, of differentiable kernels, and of derivatives. *)
From Coq Require Import List Arith Reals.
From Coquelicot Require Import Coquelicot.
From Verif Require Import HVDSpec HVXSpec HVXModel IndSpec.
Import ListNotations.
Open Scope R_scope.

(** sum of the kernel over all pairs *)
Definition pairs (k : list R -> list R -> R) (A B : list (list R)) : R :=
  sumR (map (fun a => sumR (map (k a) B)) A).
Definition mean_k (k : list R -> list R -> R) (A B : list (list R)) : R :=
  pairs k A B / (INR (length A) * INR (length B)).
(** the (squared) maximum mean discrepancy *)
Definition MMD2 (k : list R -> list R -> R) (Ref : list (list R)) : list (list R) -> R -> Prop :=
  fun Y v => v = mean_k k Ref Ref + mean_k k Y Y - 2 * mean_k k Ref Y.
(** the variant with matched rows [M] *)
Definition MMDM (k : list R -> list R -> R) (beta : R) (M : list (list R)) : list (list R) -> R -> Prop :=
  fun Y v => v = beta * mean_k k Y Y + sumR (map (fun yr => 2 - 2 * k (fst yr) (snd yr)) (combine Y M)) / INR (length Y).

(** [phi] is a path of vectors of length [m] with derivative [phi'] at [t0] *)
Definition path (m : nat) (phi : R -> list R) (phi' : nat -> R) (t0 : R) : Prop :=
  (forall t, length (phi t) = m) /\ forall a, (a < m)%nat -> is_derive (fun t : R => nth a (phi t) 0) t0 (phi' a).

(** [u] depends differentiably on its argument along every path through [x] with gradient [g] *)
Definition grad_along (m : nat) (u : list R -> R) (x : list R) (g : nat -> R) : Prop :=
  forall phi phi' t0, path m phi phi' t0 -> phi t0 = x ->
    is_derive (fun t : R => u (phi t)) t0 (sumn m (fun a => g a * phi' a)).

(** a symmetric kernel with constant diagonal, and its derivatives on the pairs of vectors in [dom] *)
Record kernel_ok (m : nat) (dom : list R -> list R -> Prop) (k : list R -> list R -> R)
  (dx : list R -> list R -> nat -> R) (dx2 dxdy : list R -> list R -> nat -> nat -> R) : Prop := {
  ko_sym : forall x y, length x = m -> length y = m -> k x y = k y x;
  ko_diag : exists c, forall x, length x = m -> k x x = c;
  ko_dsym : forall x y, dom x y -> dom y x;
  ko_open : forall phi phi' t0 y, length y = m -> path m phi phi' t0 -> dom (phi t0) y -> locally t0 (fun t : R => dom (phi t) y);
  ko_dx : forall x y, length x = m -> length y = m -> dom x y -> grad_along m (fun x => k x y) x (dx x y);
  ko_dx2 : forall x y a, length x = m -> length y = m -> dom x y -> (a < m)%nat -> grad_along m (fun x => dx x y a) x (dx2 x y a);
  ko_dxdy : forall x y a, length x = m -> length y = m -> dom x y -> (a < m)%nat -> grad_along m (fun y => dx x y a) y (dxdy x y a)
}.
