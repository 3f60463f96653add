(** Dominance and fronts of vectors of doubles, stated with the IEEE comparisons only. *)
From Coq Require Import List Arith ZArith Reals.
From Flocq Require Import Core IEEE754.BinarySingleNaN.
From Verif Require Import DblModel.
Import ListNotations.
Open Scope nat_scope.

Definition d0 : double := B754_zero false.

(** no coordinate is NaN *)
Definition nan_free (P : list (list double)) : Prop :=
  forall p x, In p P -> In x p -> isnan x = false.

Definition ddominates (p q : list double) : Prop :=
  length p = length q /\
  (forall k, k < length p -> Bleb (nth k p d0) (nth k q d0) = true) /\
  (exists k, k < length p /\ Bltb (nth k p d0) (nth k q d0) = true).

Definition dweakly_dominates (p q : list double) : Prop :=
  length p = length q /\ (forall k, k < length p -> Bleb (nth k p d0) (nth k q d0) = true).

Definition drow (P : list (list double)) (i : nat) : list double := nth i P [].

Fixpoint dremaining (P : list (list double)) (r i : nat) : Prop :=
  match r with
  | O => i < length P
  | S r' => dremaining P r' i /\ exists j, dremaining P r' j /\ ddominates (drow P j) (drow P i)
  end.

Definition dpareto_front (P : list (list double)) (r i : nat) : Prop :=
  dremaining P r i /\ ~ (exists j, dremaining P r j /\ ddominates (drow P j) (drow P i)).

(** ** What is assumed of [np.argsort] on doubles without NaN: a sorting permutation that
    depends on the comparisons only (so not on the sign of a zero). *)
From Coq Require Import Permutation Sorting.Sorted.
Definition no_nan (l : list double) : Prop := forall x, In x l -> isnan x = false.
Definition dargsort_ok (argsort : list double -> list nat) : Prop :=
  (forall l, no_nan l -> Permutation (argsort l) (seq 0 (length l)) /\
     StronglySorted (fun a b => Bleb (nth a l d0) (nth b l d0) = true) (argsort l)) /\
  (forall l l', no_nan l -> no_nan l' -> length l = length l' ->
     (forall i j, i < length l -> j < length l ->
        Bleb (nth i l d0) (nth j l d0) = Bleb (nth i l' d0) (nth j l' d0)) ->
     argsort l = argsort l').

(** ** The reals the doubles stand for *)
Definition dvec (p : list double) : list R := map (fun x : double => B2R x) p.
Definition dmat (P : list (list double)) : list (list R) := map dvec P.

(** a finite double that is an integer multiple of [2^e] *)
Definition on_grid (e : Z) (x : double) : Prop :=
  is_finite x = true /\ exists z : Z, B2R x = (IZR z * bpow radix2 e)%R.

(** zero, or of a magnitude between [2^-250] and [2^250] *)
Definition moderate (x : double) : Prop :=
  is_finite x = true /\
  (B2R x = 0 \/ bpow radix2 (-250) <= Rabs (B2R x) <= bpow radix2 250)%R.

(** the double nearest to a real number, ties to the even one *)
Definition nearest (r : R) : R := round radix2 (FLT_exp (-1074) 53) ZnearestE r.

(** a matrix of [n] rows of length [m] *)
Definition has_shape {A} (n m : nat) (g : list (list A)) : Prop := length g = n /\ forall i, i < n -> length (nth i g []) = m.
