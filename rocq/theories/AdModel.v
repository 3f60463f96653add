(** Model of the automatic differentiation of /repo/hvd/hypervolume_derivatives.py: [HVY],
    [HVX] (lines 13-24), [compute_automatic_differentiation] (lines 299-335) with its two
    caches and the setter of [ref] (lines 88-92), and the whole dictionary returned by
    [_compute_hessian] (lines 267-274).  The functions [jacobian] and [hessian] of the
    library autograd are parameters. *)
From Coq Require Import List Arith Bool Reals.
From Verif Require Import Num Exn HVModel HVDModel HVXModel.
Import ListNotations.
Open Scope R_scope.

(** [v.reshape(-1, m)]: rows of [m] numbers; a ValueError if [m] does not divide the length *)
Fixpoint chunks (k m : nat) (v : vec) : list vec :=
  match k with O => [] | S k => firstn m v :: chunks k m (skipn m v) end.
Definition reshape (m : nat) (v : vec) : res (list vec) :=
  if (m =? 0)%nat then Exn ValueError
  else if (length v mod m =? 0)%nat then Ok (chunks (length v / m) m v) else Exn ValueError.

(** the dictionaries; vectors and matrices are functions of the flat indices *)
Record deriv : Type := mkDeriv { d_X : nat -> R; d_Y : nat -> R; d_X2 : mat; d_Y2 : mat }.

(** the object with its caches: the reference point that the cached function has captured
    (lines 77-79; [None] before the first call) *)
Record adobj : Type := mkAd { a_obj : hvobj; a_jac : option vec; a_hes : option vec }.
(** lines 66-79: a new object *)
Definition fresh (o : hvobj) : adobj := mkAd o None None.
(** lines 88-92: the setter of [ref] leaves the caches as they are *)
Definition set_ref (r : vec) (s : adobj) : adobj :=
  let o := a_obj s in
  mkAd (mkObj (n_var o) (n_obj o) r (o_func o) (o_jac o) (o_hess o) (minimization o)) (a_jac s) (a_hes s).

Section Ad.
Variable minf : R.
Variable argsort : list R -> list nat.
(** [autograd.jacobian] of a function with values in the numbers, at a vector; [autograd.hessian] *)
Variable AJ : (vec -> res R) -> vec -> res (nat -> R).
Variable AH : (vec -> res R) -> vec -> res mat.

(** lines 13-17 and 20-24 *)
Definition HVY (m : nat) (ref : vec) (v : vec) : res R :=
  do Y <- reshape m v; hypervolume minf argsort Y ref.
Definition HVX (n : nat) (f : vec -> vec) (ref : vec) (v : vec) : res R :=
  do X <- reshape n v; hypervolume minf argsort (map f X) ref.

(** lines 329-334 for given derivatives in objective space; lines 195-197 and 263-265 are the same *)
Definition dictionary (o : hvobj) (X : list vec) (g : nat -> R) (H : mat) : deriv :=
  let D := block_diag o (fun i => jac o (nth i X [])) in
  let D2 := block_tensor o (fun i => hessian o (nth i X [])) in
  let N := (length X * n_obj o)%nat in
  let raw a b := sumn N (fun r => sumn N (fun s => D r a * H r s * D s b)) + sumn N (fun r => g r * D2 r a b) in
  mkDeriv (fun c => sumn N (fun r => g r * D r c))
    (fun r => if minimization o then g r else -1 * g r)
    (fun a b => (raw a b + raw b a) / 2) H.

(** lines 299-335.  [X] has [n_var] columns.  The object after an exception is not represented *)
Definition automatic (s : adobj) (X : list vec) : res (deriv * adobj) :=
  let o := a_obj s in
  let rj := match a_jac s with Some r => r | None => oref o end in
  let rh := match a_hes s with Some r => r | None => oref o end in
  let Y := concat (map (func o) X) in
  do g <- AJ (HVY (n_obj o) rj) Y;
  do H <- AH (HVY (n_obj o) rh) Y;
  Ok (dictionary o X g H, mkAd o (Some rj) (Some rh)).

(** lines 189-198 and 201-274: the dictionary of [_compute_hessian]: "Y" and the derivatives *)
Definition analytic (o : hvobj) (X : list vec) : res (list vec * deriv) :=
  let Y := map (func o) X in
  do g <- compute_HVdY minf argsort (n_obj o) Y (oref o);
  do H <- compute_HVdY2 minf argsort (n_obj o) Y (oref o);
  Ok (if minimization o then Y else map vneg Y, dictionary o X (flat o g) (flat2 o H)).
End Ad.
