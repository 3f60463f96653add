(** Model of the class HypervolumeDerivatives of /repo/hvd/hypervolume_derivatives.py:
    constructor, [compute], [_compute_gradient], [_compute_hessian] in decision space.
    Matrices are functions of their indices (shapes are explicit parameters); numbers
    are reals. *)
From Coq Require Import List Arith Bool Reals.
From Verif Require Import Num Exn HVModel HVDModel.
Import ListNotations.
Open Scope R_scope.

Fixpoint sumn (n : nat) (f : nat -> R) : R :=
  match n with O => 0 | S n' => sumn n' f + f n' end.

Definition vec := list R.
Definition mat := nat -> nat -> R.

(** the attributes set by the constructor, hypervolume_derivatives.py 66-79.
    [func], [jac] and [hessian] are the callables given by the user. *)
Record hvobj : Type := mkObj {
  n_var : nat; n_obj : nat;
  o_ref : vec;
  o_func : vec -> vec;
  o_jac : vec -> mat;                 (* objective, variable *)
  o_hess : vec -> nat -> mat;         (* objective, variable, variable *)
  minimization : bool
}.

Definition vneg (v : vec) : vec := map (fun x => -1 * x) v.
(** lines 74-76: the callables are wrapped when maximising *)
Definition func (o : hvobj) (x : vec) : vec := if minimization o then o_func o x else vneg (o_func o x).
Definition jac (o : hvobj) (x : vec) : mat :=
  if minimization o then o_jac o x else fun k v => -1 * o_jac o x k v.
Definition hessian (o : hvobj) (x : vec) : nat -> mat :=
  if minimization o then o_hess o x else fun k v w => -1 * o_hess o x k v w.
(** lines 88-92: setter of [ref] *)
Definition oref (o : hvobj) : vec := if minimization o then o_ref o else vneg (o_ref o).

Section Obj.
Variable minf : R.
Variable argsort : list R -> list nat.
Variable o : hvobj.
Let m := n_obj o.
Let n := n_var o.

(** lines 125-131 [compute]; [X] is taken to have [n_var] columns. *)
Definition compute (X Y : option (list vec)) : res R :=
  match Y with
  | Some Y => hypervolume minf argsort Y (oref o)
  | None => match X with
            | None => Exn AssertionError
            | Some X => hypervolume minf argsort (map (func o) X) (oref o)
            end
  end.

(** [scipy.linalg.block_diag] of N blocks of shape (m, n), line 390 *)
Definition block_diag (J : nat -> mat) : mat :=
  fun r c => if Nat.eqb (r / m) (c / n) then J (r / m)%nat (r mod m)%nat (c mod n)%nat else 0.
(** lines 395-399: the block tensor of second derivatives *)
Definition block_tensor (H : nat -> nat -> mat) : nat -> mat :=
  fun r a b => if Nat.eqb (r / m) (a / n) && Nat.eqb (r / m) (b / n)
               then H (r / m)%nat (r mod m)%nat (a mod n)%nat (b mod n)%nat else 0.

(** lines 386-390: objective values and Jacobians, taken from the caller if given
    (a given [Y] or [YdX] is used as it is) *)
Definition obj_points (X : list vec) (Y : option (list vec)) : list vec :=
  match Y with Some Y => Y | None => map (func o) X end.
Definition obj_jac (X : list vec) (YdX : option (nat -> mat)) : nat -> mat :=
  match YdX with Some J => J | None => fun i => jac o (nth i X []) end.

(** an N x m matrix, flattened row by row (line 196) *)
Definition flat (g : list vec) (r : nat) : R := nth (r mod m) (nth (r / m) g []) 0.

(** lines 189-198 [_compute_gradient]: HVdX (a function of the flat index) and HVdY *)
Definition compute_gradient (X : list vec) (Y : option (list vec)) (YdX : option (nat -> mat))
  : res ((nat -> R) * list vec) :=
  do g <- compute_HVdY minf argsort m (obj_points X Y) (oref o);
  let D := block_diag (obj_jac X YdX) in
  Ok (fun c => sumn (length X * m) (fun r => flat g r * D r c), g).

(** the matrix HVdY2: entry (row, column) from the blocks of [compute_HVdY2] *)
Definition flat2 (H : list (list (list (list R)))) (r c : nat) : R :=
  nth (r mod m) (nth (r / m) (nth (c mod m) (nth (c / m) H []) []) []) 0.

(** lines 201-262 [_compute_hessian]: (HVdX, HVdX2) *)
Definition compute_hessian (X : list vec) (Y : option (list vec)) (YdX : option (nat -> mat))
  : res ((nat -> R) * mat) :=
  do G <- compute_gradient X Y YdX;
  let '(dX, g) := G in
  do H <- compute_HVdY2 minf argsort m (obj_points X Y) (oref o);
  let D := block_diag (obj_jac X YdX) in
  let D2 := block_tensor (fun i => hessian o (nth i X [])) in
  let N := (length X * m)%nat in
  let raw a b := sumn N (fun r => sumn N (fun s => D r a * flat2 H r s * D s b))
                 + sumn N (fun r => flat g r * D2 r a b) in
  Ok (dX, fun a b => (raw a b + raw b a) / 2).
End Obj.
