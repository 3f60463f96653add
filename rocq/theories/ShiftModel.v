(** Model of the shift of the reference set: [compute_chim] of /repo/hvd/utils.py and
    [_shift_reference_set] of /repo/hvd/newton.py (DpN) and /repo/hvd/mmd_newton.py; the choice of
    the indicator in DpN, and the update of MMDNewton. *)
From Coq Require Import List Arith Bool Reals.
From Verif Require Import Num Exn StateModel NewtonModel RefModel.
Import ListNotations.
Open Scope R_scope.

(** * utils.py 88-96 [compute_chim] *)
Section Chim.
(** [scipy.linalg.qr(A)[0]], the square factor, as a list of rows; [A] has [m] rows and is given by
    its columns *)
Variable qr : nat -> list (list R) -> res (list (list R)).
Definition column (j : nat) (Y : list (list R)) : list R := map (fun r => nth j r 0) Y.
(** lines 90-91, [m] is the number of columns *)
Definition minimisers (m : nat) (Y : list (list R)) : list (list R) :=
  map (fun j => nth (argminR (column j Y)) Y []) (seq 0 m).
(** line 92 *)
Definition differences (Z : list (list R)) : list (list R) :=
  match Z with [] => [] | z0 :: Zs => map (fun z => zip_with Rminus z z0) Zs end.
(** lines 94-95; [None] stands for a vector of NaNs (0/0) *)
Definition normalise_neg (m : nat) (Q : list (list R)) : option (list R) :=
  let n := map (fun r => - Rabs (nth (m - 1) r 0)) Q in
  let l := sqrt (fold_right Rplus 0 (map (fun a => a * a) n)) in
  if reqb l 0 then None else Some (map (fun a => a / l) n).
(** [argmin] of no rows or no columns raises *)
Definition compute_chim (m : nat) (Y : list (list R)) : res (option (list R)) :=
  match Y, m with
  | [], _ | _, O => Exn ValueError
  | _, _ => do Q <- qr m (differences (minimisers m Y)); Ok (normalise_neg m Q)
  end.
End Chim.

(** * newton.py 593-609 DpN._shift_reference_set *)
Definition indices_of (mask : list bool) : list nat := positions_of true mask.
(** lines 601-603; a matched reference set has as many rows as [Y] (broadcasting of a single row is
    not modelled); [steps] are the primal parts of [self.step] *)
Definition dpn_masks (iter N : nat) (Y ref steps : list (list R)) : res (list bool) :=
  match iter with
  | O => Ok (repeat true N)
  | S _ =>
      if negb (length Y =? length ref)%nat || negb (length steps =? length Y)%nat then Exn ValueError
      else Ok (zip_with andb (zip_with (fun y r => close_to_0 (dist2 y r)) Y ref)
                             (map (fun s => close_to_0 (sqrt (fold_right Rplus 0 (map (fun a => a * a) s)))) steps))
  end.
(** lines 607-608: the entries added to [history_medoids] *)
Definition log_medoids (s : refset) (ix : list nat) : res (list (nat * list R)) :=
  mapM (fun k => do r <- nth_res IndexError (reference_set s) k; Ok (k, r)) ix.
Definition dpn_shift (iter N : nat) (Y steps : list (list R)) (s : refset) : res (refset * list (nat * list R)) :=
  do mask <- dpn_masks iter N Y (reference_set s) steps;
  let ix := indices_of mask in
  do s' <- shift_ref s (match iter with O => 0.08 | S _ => 0.05 end) (Some ix);
  do lg <- log_medoids s' ix;
  Ok (s', lg).

(** * mmd_newton.py 275-291 MMDNewton._shift_reference_set *)
(** line 283: the distance to the nearest reference point; an empty reference set raises *)
Definition mmd_masks (iter N : nat) (Y ref steps : list (list R)) : res (list bool) :=
  match iter with
  | O => Ok (repeat true N)
  | S _ =>
      if negb (length steps =? length Y)%nat then Exn ValueError
      else do d <- mapM (fun y => list_minR (map (dist2 y) ref)) Y;
           Ok (zip_with andb (map close_to_0 d)
                             (map (fun s => close_to_0 (sqrt (fold_right Rplus 0 (map (fun a => a * a) s)))) steps))
  end.
Definition mmd_shift (iter N : nat) (Y steps : list (list R)) (s : refset) : res (refset * list (nat * list R)) :=
  do mask <- mmd_masks iter N Y (reference_set s) steps;
  let ix := indices_of mask in
  do s' <- shift_ref s 0.08 (Some ix);
  do lg <- log_medoids s' ix;
  Ok (s', lg).

(** * newton.py 473-486: the incumbent indicator of DpN and the logged value *)
Inductive kind : Type := GD | IGD | Deltap.
Inductive indicator : Type := TheGD | TheIGD.
Definition active_indicator (t : kind) (gd igd : R) : indicator :=
  match t with Deltap => if rltb igd gd then TheGD else TheIGD | GD => TheGD | IGD => TheIGD end.
Definition curr_indicator_value (gd igd : R) : R := if rltb gd igd then igd else gd.

(** * mmd_newton.py 293-326, 375-377 and line 193: step size and update of MMDNewton *)
(** [np.median] *)
Fixpoint insertR (x : R) (l : list R) : list R :=
  match l with [] => [x] | y :: t => if rleb x y then x :: l else y :: insertR x t end.
Definition sortR (l : list R) : list R := fold_right insertR [] l.
Definition median (l : list R) : fl :=
  let n := length l in
  match n with
  | O => NaN
  | _ => let s := sortR l in Fin ((nth ((n - 1) / 2) s 0 + nth (n / 2) s 0) / 2)
  end.
(** [np.isclose(., np.finfo(np.double).resolution)], resolution = 1e-15 *)
Definition near_resolution (x : fl) : bool :=
  match x with Fin x => rleb (Rabs (x - / 10 ^ 15)) (/ 10 ^ 8 + / 10 ^ 5 * / 10 ^ 15) | _ => false end.
(** lines 375-377: the rest of the method is never reached *)
Definition mmd_box (step : list (list R)) : list (list R) * list R := (step, map (fun _ => 1) step).
(** [d] is [dim_p]; [phi] is the norm of R after a step, [phi0] the norm of R *)
Definition mmd_step_size (d : nat) (step : list (list R)) (phi0 : fl) (phi : R -> fl) : res R :=
  if near_resolution (median (concat (map (firstn d) step))) then Ok 1
  else do m <- list_minR (snd (mmd_box step)); Ok (fst (mmd_line_search phi0 phi m)).
Definition mmd_update (s : R) (X step : list (list R)) : list (list R) :=
  zip_with (zip_with (fun x t => x + s * t)) X step.

(** * The flag [re_match] in the line searches: newton.py 618-628 [phi_func], mmd_newton.py 300-307 *)
(** an indicator object: its own attribute [re_match] and its reference set, which has an attribute
    of the same name; delta_p.py 136-143, mmd.py 289 *)
Record ind_obj : Type := mkInd { io_rematch : bool; io_ref : refset }.
Definition set_rematch (b : bool) (o : ind_obj) : ind_obj := mkInd b (io_ref o).
Section Trial.
Variable match_ : refset -> list (list R) -> res refset.
(** delta_p.py 203-205: [self.ref.match(Y)] and [Y - self.ref.reference_set]; the gradient is a function of this *)
Definition ind_diff (o : ind_obj) (Y : list (list R)) : res (list (list R) * ind_obj) :=
  do s' <- match_ (io_ref o) Y;
  Ok (zip_with (zip_with Rminus) Y (reference_set s'), mkInd (io_rematch o) s').
(** one evaluation of [phi_func] *)
Definition trial (o : ind_obj) (Y : list (list R)) : res (list (list R) * ind_obj) :=
  do r <- ind_diff (set_rematch false o) Y; Ok (fst r, set_rematch true (snd r)).
(** the trials of a line search *)
Fixpoint trials (o : ind_obj) (Ys : list (list (list R))) : res (list (list (list R)) * ind_obj) :=
  match Ys with
  | [] => Ok ([], o)
  | Y :: t => do r <- trial o Y; do r' <- trials (snd r) t; Ok (fst r :: fst r', snd r')
  end.
End Trial.
