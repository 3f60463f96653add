(** Boxes and directions for the gradient method, independently of the model. *)
From Coq Require Import List Arith Reals.
Import ListNotations.
Open Scope R_scope.

Definition box_ok (d : nat) (xl xu : list R) : Prop :=
  length xl = d /\ length xu = d /\ (forall k, (k < d)%nat -> nth k xl 0 <= nth k xu 0) /\ exists k, (k < d)%nat /\ nth k xl 0 < nth k xu 0.
Definition inside (xl xu x : list R) : Prop :=
  length x = length xl /\ forall k, (k < length xl)%nat -> nth k xl 0 <= nth k x 0 <= nth k xu 0.
Fixpoint inner (u v : list R) : R := match u, v with a :: u, b :: v => a * b + inner u v | _, _ => 0 end.
Definition len (v : list R) : R := sqrt (inner v v).
(** the sum over the objectives of entry [c] of the normalised gradients, with opposite sign *)
Definition direction (J : list (list R)) (c : nat) : R := - fold_right Rplus 0 (map (fun v => nth c v 0 / len v) J).
(** a Jacobian of [n] objectives in [d] variables without a gradient 0 *)
Definition regular (n d : nat) (J : list (list R)) : Prop :=
  length J = n /\ forall v, In v J -> length v = d /\ exists c, (c < d)%nat /\ nth c v 0 <> 0.
(** what the box makes of one entry of the step *)
Definition kept_or_blocked (l u x s b : R) : Prop := b = s \/ b = 0 /\ (s < 0 /\ x - l <= / 10 ^ 10 \/ 0 < s /\ u - x <= / 10 ^ 10).
Fixpoint separation (p q : list R) : R := match p, q with a :: p, b :: q => (a - b) * (a - b) + separation p q | _, _ => 0 end.
(** [K] numbers points of [X] at pairwise distance more than 1e-8, and every point of [X] is near
    one of them *)
Definition thinned (X : list (list R)) (K : list nat) : Prop :=
  NoDup K /\ (forall i, In i K -> (i < length X)%nat) /\
  (forall i j, In i K -> In j K -> i <> j -> / 10 ^ 8 < sqrt (separation (nth i X []) (nth j X []))) /\
  forall j, (j < length X)%nat -> exists i, In i K /\ sqrt (separation (nth i X []) (nth j X [])) <= / 10 ^ 8.
