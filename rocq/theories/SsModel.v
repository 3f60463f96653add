(** Model of the sorting of splines, of [get_preimage] and of the reference point of the subset
    selection: /repo/examples/HVSS/utils.py 49-66 and /repo/examples/HVSS/run.py 46-48. *)
From Coq Require Import List Arith Reals ZArith.
From Verif Require Import Exn HVModel ExModel.
Import ListNotations.
Open Scope R_scope.

(** utils.py 64-66 [sort_splines]; [argsort] is the answer of [np.argsort], an index outside is an error of indexing *)
Definition first_at_0 (p : piece) : R := nth 0 (p_obj p 0) 0.
Definition sort_splines (argsort : list R -> list nat) (ps : list piece) : res (list piece) :=
  map_res (fun i => match nth_error ps i with Some p => Ok p | None => Exn IndexError end) (argsort (map first_at_0 ps)).
(** utils.py 50-53 [get_preimage]; [minimise f] is [minimize_scalar(f, bounds=(0, 1), ...).x].
    The objective of the curve fails only for parameters outside [0, 1], which the minimiser does
    not visit; the distance is 0 there in the model *)
Fixpoint dist2 (u v : list R) : R := match u, v with a :: u', b :: v' => (a - b) * (a - b) + dist2 u' v' | _, _ => 0 end.
Definition get_preimage (minimise : (R -> R) -> R) (y : list R) (objective : R -> res (list R)) : R :=
  minimise (fun t => match objective t with Ok v => dist2 v y | Exn _ => 0 end).
(** run.py 46: [1.5 * np.max(data, axis=0)] for rows of length [m]; no rows: ValueError *)
Definition colmax (m : nat) (data : list (list R)) : res (list R) :=
  match data with
  | [] => Exn ValueError
  | r :: rs => Ok (map (fun k => fold_left (fun s row => Rmax s (nth k row 0)) rs (nth k r 0)) (seq 0 m))
  end.
Definition data_ref (m : nat) (data : list (list R)) : res (list R) := do c <- colmax m data; Ok (map (fun a => 1.5 * a) c).
