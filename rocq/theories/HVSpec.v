(** Specification of the hypervolume, independent of the algorithm:
    the volume of the region dominated by a point set and bounded by the reference
    point, as an iterated Riemann integral of the indicator function. *)
From Coq Require Import List Arith Reals Bool Permutation Sorting.Sorted.
From Coquelicot Require Import Coquelicot.
From Verif Require Import NDSSpec.
Import ListNotations.
Open Scope R_scope.

(** [is_vol lo hi f v]: [v] is the iterated Riemann integral of [f] over the box
    [lo, hi] (every inner integral exists). *)
Fixpoint is_vol (lo hi : list R) (f : list R -> R) (v : R) : Prop :=
  match lo, hi with
  | l :: lo', h :: hi' =>
      exists g : R -> R,
        (forall t, l <= t <= h -> is_vol lo' hi' (fun y => f (t :: y)) (g t)) /\
        is_RInt g l h v
  | _, _ => v = f []
  end.

(** [f] is the indicator function of the region dominated by [P]. *)
Definition is_indicator (P : list (list R)) (f : list R -> R) : Prop :=
  forall y, ((exists p, In p P /\ weakly_dominates p y) -> f y = 1) /\
            (~ (exists p, In p P /\ weakly_dominates p y) -> f y = 0).

(** [v] is the hypervolume of [P] with respect to [ref]: the volume of the region
    dominated by [P] inside any box [lo, ref] that reaches below all of [P]. *)
Definition is_hypervolume (P : list (list R)) (ref : list R) (v : R) : Prop :=
  forall lo f, length lo = length ref ->
    (forall k, (k < length ref)%nat -> nth k lo 0 <= nth k ref 0) ->
    (forall p k, In p P -> (k < length ref)%nat -> nth k lo 0 <= nth k p 0) ->
    is_indicator P f -> is_vol lo ref f v.

(** ** Conditions under which the computation is covered by the theorems *)
Definition rows_ok (front : list (list R)) (ref : list R) : Prop :=
  forall p, In p front -> length p = length ref.

(** the shifted coordinates are above the sentinel [-1.0e308] of the code *)
Definition above_sentinel (minf : R) (front : list (list R)) (ref : list R) : Prop :=
  forall p k, In p front -> weakly_dominates p ref -> (k < length ref)%nat ->
    minf <= nth k p 0 - nth k ref 0.

(** Ties do no harm: if one relevant point is no worse than another one in the first
    [d + 1] objectives, they differ in the objectives 2 .. d-1 (counted from 0); and the
    relevant points are strictly better than the reference point, except perhaps in the
    last objective. *)
Definition harmless_ties (front : list (list R)) (ref : list R) : Prop :=
  (forall p k, In p front -> weakly_dominates p ref -> (S k < length ref)%nat -> nth k p 0 < nth k ref 0) /\
  (forall i j d k, (i < length front)%nat -> (j < length front)%nat -> j <> i ->
     weakly_dominates (nth i front []) ref -> weakly_dominates (nth j front []) ref ->
     (d < length ref)%nat ->
     (forall l, (l <= d)%nat -> nth l (nth j front []) 0 <= nth l (nth i front []) 0) ->
     (2 <= k)%nat -> (k < d)%nat -> nth k (nth j front []) 0 <> nth k (nth i front []) 0).

(** inputs on which the dimension sweep is exact *)
Definition hv_input (minf : R) (front : list (list R)) (ref : list R) : Prop :=
  (1 <= length ref)%nat /\ rows_ok front ref /\ above_sentinel minf front ref /\
  ((length ref <= 3)%nat \/ harmless_ties front ref).

(** the contract of [np.argsort] used by the model: some sorting permutation *)
Definition argsort_ok (argsort : list R -> list nat) : Prop :=
  forall l, Permutation (argsort l) (seq 0 (length l)) /\
            StronglySorted (fun a b => (nth a l 0 <= nth b l 0)%R) (argsort l).

(** a stable sort keeps equal elements in their order *)
Definition argsort_stable (argsort : list R -> list nat) : Prop :=
  argsort_ok argsort /\
  forall l, StronglySorted (fun a b => nth a l 0 = nth b l 0 -> (a < b)%nat) (argsort l).

(** With a stable sort fewer ties can do harm: if a later point (j) is no worse than an
    earlier one (i) in the first [d + 1 > 3] objectives, it is better in one of the first
    three, unless they agree in all [d + 1].  For all objectives ([d] is the last one) this is needed only if a third point is
    no better than i in the last objective. *)
Definition harmless_ties_stable (front : list (list R)) (ref : list R) : Prop :=
  (forall p k, In p front -> weakly_dominates p ref -> (S k < length ref)%nat -> nth k p 0 < nth k ref 0) /\
  (forall i j d, (i < j)%nat -> (j < length front)%nat ->
     weakly_dominates (nth i front []) ref -> weakly_dominates (nth j front []) ref ->
     (3 <= d)%nat -> (d < length ref)%nat ->
     (forall l, (l <= d)%nat -> nth l (nth j front []) 0 <= nth l (nth i front []) 0) ->
     (exists l, (l <= d)%nat /\ nth l (nth j front []) 0 < nth l (nth i front []) 0) ->
     (S d = length ref -> exists z, (z < length front)%nat /\ z <> i /\ z <> j /\
        weakly_dominates (nth z front []) ref /\ nth d (nth i front []) 0 <= nth d (nth z front []) 0) ->
     exists l, (l <= 2)%nat /\ nth l (nth j front []) 0 < nth l (nth i front []) 0).

(** the rows are sorted lexicographically *)
Definition lex_sorted (front : list (list R)) : Prop :=
  forall i j, (i < j)%nat -> (j < length front)%nat -> nth i front [] = nth j front [] \/
    exists l, (forall k, (k < l)%nat -> nth k (nth i front []) 0 = nth k (nth j front []) 0) /\
      nth l (nth i front []) 0 < nth l (nth j front []) 0.

Definition mutually_nondominated (front : list (list R)) : Prop :=
  forall i j, (i < length front)%nat -> (j < length front)%nat -> i <> j ->
    ~ weakly_dominates (nth i front []) (nth j front []).

(** [p'] is the image of [p] under [y_k -> s_k * y_k + t_k] *)
Definition affine_image (s t : nat -> R) (p p' : list R) : Prop :=
  length p' = length p /\ forall k, (k < length p)%nat -> nth k p' 0 = s k * nth k p 0 + t k.

(** [p'] is [p] with the objectives reordered *)
Definition coord_perm (sigma : nat -> nat) (p p' : list R) : Prop :=
  length p' = length p /\ forall k, (k < length p)%nat -> nth k p' 0 = nth (sigma k) p 0.

(** [q] is covered: every relevant point of [F] is matched by a point of [G] that is at
    least as good *)
Definition covered_by (F G : list (list R)) (ref : list R) : Prop :=
  forall p, In p F -> weakly_dominates p ref -> exists q, In q G /\ weakly_dominates q p.
