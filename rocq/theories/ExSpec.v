(** Specification of the parametrised fronts of the examples. *)
From Coq Require Import List Arith Bool Reals ZArith.
From Coquelicot Require Import Coquelicot.
Import ListNotations.
Open Scope R_scope.

(** [D] is the derivative at [t], coordinate by coordinate, of a curve in the plane *)
Definition curve_derive (f : R -> list R) (t : R) (D : list R) : Prop :=
  length D = 2%nat /\ forall i, (i < 2)%nat -> is_derive (fun u => nth i (f u) 0) t (nth i D 0).
Definition scale (c : R) (v : list R) : list R := map (Rmult c) v.
(** the curve made of the pieces [fs], each run through in time [1 / length fs] *)
Definition joined (fs : list (R -> list R)) (t : R) : list R :=
  let N := length fs in
  match nth_error fs (Nat.min (N - 1) (Z.to_nat (Int_part (INR N * t)))) with
  | Some f => f (INR N * t - INR (Nat.min (N - 1) (Z.to_nat (Int_part (INR N * t)))))
  | None => []
  end.
(** [M d = v] *)
Definition dot (a b : list R) : R := fold_right Rplus 0 (map (fun p => fst p * snd p) (combine a b)).
Definition solves (M : list (list R)) (d v : list R) : Prop := map (fun r => dot r d) M = v.
(** cubic polynomial, highest coefficient first *)
Definition poly (c : list R) (u : R) : R := fold_left (fun a b => a * u + b) c 0.
(** partial derivatives of a function of two variables *)
Definition gradient2 (h : R -> R -> R) (x y : R) (g : list R) : Prop :=
  exists a b, g = [a; b] /\ is_derive (fun u => h u y) x a /\ is_derive (fun v => h x v) y b.
(** [y] with first and second derivatives [dy], [d2y] around [x] *)
Definition smooth2 (y dy d2y : R -> R) (x : R) : Prop := locally x (fun u => is_derive y u (dy u)) /\ is_derive dy x (d2y x).
(** [H] is the matrix of second derivatives of [h] at (x, y) *)
Definition hessian2 (h : R -> R -> R) (x y : R) (H : list (list R)) : Prop :=
  exists g1 g2 r1 r2, H = [r1; r2] /\
  locally x (fun u => is_derive (fun a => h a y) u (g1 u y)) /\ locally x (fun u => locally y (fun v => is_derive (fun a => h a v) u (g1 u v) /\ is_derive (fun b => h u b) v (g2 u v))) /\
  gradient2 g1 x y r1 /\ gradient2 g2 x y r2.
