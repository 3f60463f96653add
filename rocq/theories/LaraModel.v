(** Model of the class Lara of /repo/hvd/gradient_based.py. *)
From Coq Require Import List Arith Bool Reals ZArith.
From Verif Require Import Num Exn NewtonModel.
Import ListNotations.
Open Scope R_scope.

(** A point is [None] if its entries are NaN.  This comes about only for all entries at once.
    The Jacobian at such a point is taken to be NaN as well. *)
Definition point : Type := option (list R).
Fixpoint traverse {A B} (f : A -> res B) (l : list A) : res (list B) :=
  match l with [] => Ok [] | a :: t => do b <- f a; do r <- traverse f t; Ok (b :: r) end.

(** * lines 129-135 [_compute_step], one point; [J] is the Jacobian, one row per objective *)
Definition norm (v : list R) : R := sqrt (fold_right Rplus 0 (map (fun a => a * a) v)).
(** [v[k] / np.linalg.norm(v[k])]: 0/0 for a row of zeros *)
Definition unit_row (v : list R) : point := if reqb (norm v) 0 then None else Some (map (fun a => a / norm v) v).
Fixpoint all_points (l : list point) : option (list (list R)) :=
  match l with
  | [] => Some []
  | Some r :: t => match all_points t with Some rs => Some (r :: rs) | None => None end
  | None :: _ => None
  end.
(** [-1 * np.sum(rows, axis=0)] *)
Definition minus_sum (dim : nat) (rows : list (list R)) : list R :=
  map (fun c => - fold_right Rplus 0 (map (fun r => nth c r 0) rows)) (seq 0 dim).
Definition compute_step (n_obj dim : nat) (J : list (list R)) : res point :=
  if (length J <? n_obj)%nat then Exn IndexError
  else Ok (match all_points (map unit_row (firstn n_obj J)) with Some rows => Some (minus_sum dim rows) | None => None end).

(** * lines 137-151 [_handle_box_constraint], one point *)
(** lines 142-146; [np.isclose(d, 0, atol=1e-10, rtol=1e-10)] *)
Definition on_bound (d : R) : bool := rleb (Rabs d) (/ 10 ^ 10).
Definition blocked (l u x s : R) : R :=
  let s1 := if on_bound (Rabs (x - l)) && rltb s 0 then 0 else s in
  if on_bound (Rabs (u - x)) && rltb 0 s1 then 0 else s1.
Fixpoint blocked_row (xl xu x step : list R) : list R :=
  match xl, xu, x, step with
  | l :: xl, u :: xu, a :: x, s :: step => blocked l u a s :: blocked_row xl xu x step
  | _, _, _, _ => []
  end.
(** lines 147-148 and the absolute value: an entry of [s] *)
Definition entry (q : fl) : fl :=
  match q with
  | Fin r => if rleb 0 r then PInf else Fin (- r)
  | PInf | NInf => PInf
  | NaN => NaN
  end.
Definition ratios (xl xu x step : list R) : list fl :=
  zip_with (fun d s => entry (fdiv (Fin d) (Fin s))) (zip_with (fun a l => Rabs (a - l)) x xl) step
  ++ zip_with (fun d s => entry (fdiv (Fin (- d)) (Fin s))) (zip_with (fun u a => Rabs (u - a)) xu x) step.
(** line 149 [np.minimum(1, m)] *)
Definition minimum1 (m : fl) : fl :=
  match m with Fin r => Fin (Rmin 1 r) | PInf => Fin 1 | NInf => NInf | NaN => NaN end.
Definition box_row (xl xu x step : list R) : list R * fl :=
  let step' := blocked_row xl xu x step in (step', minimum1 (nanmin (ratios xl xu x step'))).
(** a step of NaNs is not changed, and its ratios are NaN *)
Definition box_point (xl xu : list R) (x step : point) : point * fl :=
  match x, step with
  | Some x, Some step => let (s, m) := box_row xl xu x step in (Some s, m)
  | _, _ => (None, NaN)
  end.
(** line 151 [min(s)]: Python's minimum keeps the first of the values of which none is smaller *)
Definition flt (a b : fl) : bool :=
  match a, b with
  | Fin x, Fin y => rltb x y
  | NaN, _ | _, NaN => false
  | NInf, NInf | PInf, _ => false
  | NInf, _ => true
  | _, PInf => true
  | _, NInf => false
  end.
Definition pymin (l : list fl) : res fl :=
  match l with [] => Exn ValueError | a :: t => Ok (fold_left (fun m s => if flt s m then s else m) t a) end.

(** * lines 153-171 [_check_points_uniqueness]; NaN is not close to 0, as is 1 *)
Definition distance (p q : point) : R := match p, q with Some p, Some q => dist2 p q | _, _ => 1 end.
Definition survivors (order : list nat -> list nat) (eps : R) (X : list point) : list nat :=
  kept order (fun i j => distance (nth i X None) (nth j X None)) eps (length X).

(** * lines 97-107 [iteration]; [jac] is the Jacobian, [order] the iteration order of a set *)
(** line 105 [np.clip(1, 0, m)] *)
Definition clip_step (m : fl) : fl := match m with Fin r => Fin (Rmin (Rmax 1 0) r) | PInf => Fin 1 | NInf => NInf | NaN => NaN end.
Definition move (m : fl) (x step : point) : point :=
  match m, x, step with Fin m, Some x, Some step => Some (zip_with (fun a s => a + s * m) x step) | _, _, _ => None end.
Definition point_step (jac : list R -> list (list R)) (n_obj dim : nat) (x : point) : res point :=
  match x with Some x => compute_step n_obj dim (jac x) | None => Ok None end.
Definition iteration (order : list nat -> list nat) (eps : R) (jac : list R -> list (list R)) (n_obj dim : nat) (xl xu : list R) (X : list point) : res (list point) :=
  let X1 := map (fun i => nth i X None) (survivors order eps X) in
  do steps <- traverse (point_step jac n_obj dim) X1;
  let boxed := zip_with (box_point xl xu) X1 steps in
  do m <- pymin (map snd boxed);
  Ok (zip_with (move (clip_step m)) X1 (map fst boxed)).

(** * lines 44-61 [_initialize]: the given points are clipped; otherwise the rows [u] of random
    numbers in [0, 1) are scaled *)
Definition initial (xl xu : list R) (X0 : list (list R) + list (list R)) : list point :=
  match X0 with
  | inl X0 => map (fun x => Some (clip_row xl xu x)) X0
  | inr U => map (fun u => Some (zip_with Rplus (zip_with Rmult u (zip_with Rminus xu xl)) xl)) U
  end.
(** * lines 91-95, 109-127 [run], [log], [terminate]: the loop of [NewtonModel]; the default
    number of iterations (line 38) is [default_budget] *)
Definition lara_run (order : list nat -> list nat) (eps : R) (jac : list R -> list (list R)) (n_obj dim : nat) (xl xu : list R) (fuel : nat) (X : list point) (b : budget) :=
  run (iteration order eps jac n_obj dim xl xu) fuel (fresh X b).
