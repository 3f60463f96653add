(** Model of the parametrised fronts in /repo/examples (HVSS, subset_selection). *)
From Coq Require Import List Arith Bool Reals ZArith.
From Verif Require Import Exn NewtonModel.
Import ListNotations.
Open Scope R_scope.

(** Python indexing [l[k]] with negative indices *)
Definition py_nth {A} (l : list A) (k : Z) : res A :=
  let n := Z.of_nat (length l) in
  let j := if (k <? 0)%Z then (k + n)%Z else k in
  if (j <? 0)%Z then Exn IndexError
  else match nth_error l (Z.to_nat j) with Some a => Ok a | None => Exn IndexError end.
(** [np.floor] *)
Definition floor (x : R) : Z := Int_part x.
Definition reqb (a b : R) : bool := if Req_EM_T a b then true else false.
Definition rleb (a b : R) : bool := if Rle_dec a b then true else false.

(** a piece: objective, Jacobian and Hessian as functions of one parameter (lists of 2 numbers;
    the code has arrays of shape (2,), (2,1) and (2,1,1)) *)
Record piece : Type := mkPiece { p_obj : R -> list R; p_jac : R -> list R; p_hess : R -> list R }.
(** [np.linspace(0, 1, N + 1)]: HVSS/utils.py line 60, HVSS/components.py line 56 *)
Definition intervals (N : nat) : list R := map (fun i => INR i / INR N) (seq 0 (S N)).
(** [get_index]: HVSS/utils.py lines 67-79, HVSS/components.py lines 59-73 *)
Definition get_index (N : nat) (t : R) : Z :=
  if reqb t 1 then (Z.of_nat N - 1)%Z else floor (t / (1 / INR N)).
(** [np.isclose(a, b)] *)
Definition isclose (a b : R) : bool := rleb (Rabs (a - b)) (/ 100000000 + / 100000 * Rabs b).
(** [get_index] of subset_selection/utils.py lines 69-73 *)
Definition get_index2 (N : nat) (t : R) : Z :=
  let k := floor (t / (1 / INR N)) in
  if isclose t (IZR k * (1 / INR N)) && negb (reqb t 0) then (k - 1)%Z else k.
(** [__func__]: HVSS/utils.py lines 81-83, HVSS/components.py lines 75-79,
    subset_selection/utils.py lines 75-77; a call without pieces fails in the constructor (1 / 0) *)
Definition call (index : nat -> R -> Z) (ps : list piece) (sel : piece -> R -> list R) (t : R) : res (list R) :=
  match ps with
  | [] => Exn ZeroDivisionError
  | _ =>
    let N := length ps in
    let k := index N t in
    do p <- py_nth ps k;
    do a <- py_nth (intervals N) k;
    Ok (sel p (INR N * (t - a)))
  end.
Definition pw_objective index ps t := call index ps p_obj t.
Definition pw_jacobian index ps t := call index ps p_jac t.
Definition pw_hessian index ps t := call index ps p_hess t.

(** class BS: HVSS/utils.py lines 95-116; the spline and its derivatives are given *)
Definition BS (f df d2f : R -> list R) : piece :=
  mkPiece f (fun t => if reqb t 0 || reqb t 1 then [0; 0] else df t)
            (fun t => if reqb t 0 || reqb t 1 then [0; 0] else d2f t).

(** * Cubic splines: HVSS/ZDT1/spline.py lines 10-28 (also ZDT2, subset_selection) *)
(** [np.where(breaks <= x)[0][-1]] *)
Fixpoint last_le (x : R) (breaks : list R) (i : nat) (acc : option nat) : option nat :=
  match breaks with [] => acc | b :: t => last_le x t (S i) (if rleb b x then Some i else acc) end.
Definition cubic (c : list R) (u : R) : R * R * R :=
  let a := fun i => nth i c 0 in
  (a 0%nat * u ^ 3 + a 1%nat * u ^ 2 + a 2%nat * u + a 3%nat,
   3 * a 0%nat * u ^ 2 + 2 * a 1%nat * u + a 2%nat,
   6 * a 0%nat * u + 2 * a 1%nat).
(** rows of [coefs] have four entries; the row is [min(n - 1, interval)] *)
Definition front_approx (coefs : list (list R)) (breaks : list R) (x : R) : res (R * R * R) :=
  match last_le x breaks 0 None with
  | None => Exn IndexError
  | Some i =>
      match nth_error breaks i, nth_error coefs (Nat.min (length coefs - 1) i) with
      | Some b, Some c => Ok (cubic c (x - b))
      | _, _ => Exn IndexError
      end
  end.
(** HVSS/Dent/spline.py lines 10-25: the row is [interval] *)
Definition front_approx_dent (coefs : list (list R)) (breaks : list R) (x : R) : res (R * R * R) :=
  match last_le x breaks 0 None with
  | None => Exn IndexError
  | Some i =>
      match nth_error breaks i, nth_error coefs i with
      | Some b, Some c => Ok (cubic c (x - b))
      | _, _ => Exn IndexError
      end
  end.

(** constraint "the point is on the curve": HVSS/ZDT1/example.py lines 54-63 (ZDT2, Dent and
    example_individual.py are the same); [f] gives value and derivatives, points have two entries *)
Definition curve_h (f : R -> res (R * R * R)) (x1 x2 : R) : res R := do v <- f x1; Ok (fst (fst v) - x2).
Definition curve_h_jac (f : R -> res (R * R * R)) (x1 x2 : R) : res (list R) := do v <- f x1; Ok [snd (fst v); -1].
Definition curve_h_hess (f : R -> res (R * R * R)) (x1 x2 : R) : res (list (list R)) := do v <- f x1; Ok [[snd v; 0]; [0; 0]].
(** HVSS/TwoOnOne/example.py lines 62-75: the same in coordinates scaled to the unit square *)
Definition scaled (xl xu x : R) : R := x * (xu - xl) + xl.
Definition scaled_h f (l1 u1 l2 u2 x1 x2 : R) := curve_h f (scaled l1 u1 x1) (scaled l2 u2 x2).
Definition scaled_h_jac f (l1 u1 l2 u2 x1 x2 : R) := curve_h_jac f (scaled l1 u1 x1) (scaled l2 u2 x2).
Definition scaled_h_hess f (l1 u1 l2 u2 x1 x2 : R) := curve_h_hess f (scaled l1 u1 x1) (scaled l2 u2 x2).

(** HVSS/ZDT1/example.py lines 39-47: unit matrix, rows of coordinates at 0 or 1 are cleared *)
Definition id_jac (x : list R) : list (list R) :=
  map (fun i => map (fun j => if (i =? j)%nat && negb (reqb (nth i x 0) 0) && negb (reqb (nth i x 0) 1) then 1 else 0)
                    (seq 0 (length x))) (seq 0 (length x)).
