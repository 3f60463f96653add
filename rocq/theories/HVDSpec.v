(** Specification of the derivatives of the hypervolume, independent of the model. *)
From Coq Require Import List Arith Reals.
From Coquelicot Require Import Coquelicot.
From Verif Require Import NDSSpec HVSpec.
Import ListNotations.
Open Scope R_scope.

Fixpoint set_at {A} (i : nat) (x : A) (l : list A) : list A :=
  match l with
  | [] => []
  | a :: l' => match i with O => x :: l' | S i' => a :: set_at i' x l' end
  end.

(** objective [k] of point [i] replaced by [t] *)
Definition set_coord (F : list (list R)) (i k : nat) (t : R) : list (list R) :=
  set_at i (set_at k t (nth i F [])) F.
Definition coord (F : list (list R)) (i k : nat) : R := nth k (nth i F []) 0.

(** [g] is the partial derivative of the hypervolume with respect to objective [k] of
    point [i]. *)
Definition is_partial (F : list (list R)) (ref : list R) (i k : nat) (g : R) : Prop :=
  forall h : R -> R, (forall t, is_hypervolume (set_coord F i k t) ref (h t)) ->
    is_derive h (coord F i k) g.

(** near its current value the hypervolume is exactly affine in the coordinate with
    slope [g], to the left ... *)
Definition is_left_slope (F : list (list R)) (ref : list R) (i k : nat) (g : R) : Prop :=
  exists e, 0 < e /\ forall t v w, coord F i k - e <= t <= coord F i k ->
    is_hypervolume F ref v -> is_hypervolume (set_coord F i k t) ref w ->
    w = v + g * (t - coord F i k).
(** ... and on both sides *)
Definition is_slope (F : list (list R)) (ref : list R) (i k : nat) (g : R) : Prop :=
  exists e, 0 < e /\ forall t v w, coord F i k - e <= t <= coord F i k + e ->
    is_hypervolume F ref v -> is_hypervolume (set_coord F i k t) ref w ->
    w = v + g * (t - coord F i k).

(** no other point has the same value of objective [k] as point [i] *)
Definition no_tie (F : list (list R)) (i k : nat) : Prop :=
  forall j, (j < length F)%nat -> j <> i -> coord F j k <> coord F i k.

(** pairwise different coordinates, all different from those of the reference point *)
Definition general_position (F : list (list R)) (ref : list R) : Prop :=
  (forall i k, (i < length F)%nat -> (k < length ref)%nat -> no_tie F i k) /\
  (forall i k, (i < length F)%nat -> (k < length ref)%nat -> coord F i k <> nth k ref 0).

Definition inside (F : list (list R)) (ref : list R) : Prop :=
  forall i k, (i < length F)%nat -> (k < length ref)%nat -> coord F i k < nth k ref 0.

(** no coordinate is that of the reference point *)
Definition off_reference (F : list (list R)) (ref : list R) : Prop :=
  forall i k, (i < length F)%nat -> (k < length ref)%nat -> coord F i k <> nth k ref 0.

(** every shifted coordinate is above the sentinel of the hypervolume code *)
Definition above_all (minf : R) (F : list (list R)) (ref : list R) : Prop :=
  forall i k, (i < length F)%nat -> (k < length ref)%nat -> minf <= coord F i k - nth k ref 0.

(** near its current value, the partial derivative with respect to objective [k] of
    point [i] is exactly affine in objective [l] of point [j], with slope [h] *)
Definition is_hess (F : list (list R)) (ref : list R) (i k j l : nat) (h : R) : Prop :=
  exists e, 0 < e /\ forall t g g', coord F j l - e <= t <= coord F j l + e ->
    is_partial F ref i k g -> is_partial (set_coord F j l t) ref i k g' ->
    g' = g + h * (t - coord F j l).
