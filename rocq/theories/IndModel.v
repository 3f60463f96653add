(** Model of /repo/hvd/delta_p.py: GenerationalDistance and InvertedGenerationalDistance.
    Numbers are reals; results that numpy lets become infinite or NaN are [fl].
    Arrays with two axes are lists of rows (ragged and empty-but-two-dimensional arrays are
    not represented: an empty list stands for [np.array([])]); Jacobians and Hessians are
    functions of their indices. *)
From Coq Require Import List Arith Bool Reals.
From Verif Require Import Num Exn NewtonModel HVXModel RefModel.
Import ListNotations.
Open Scope R_scope.

(** numpy power of a non-negative number *)
Definition npow (x q : R) : fl :=
  if reqb x 0 then (if reqb q 0 then Fin 1 else if rltb 0 q then Fin 0 else PInf)
  else Fin (Rpower x q).
Definition fpow (a : fl) (q : R) : fl :=
  match a with
  | Fin x => npow x q
  | PInf => if reqb q 0 then Fin 1 else if rltb 0 q then PInf else Fin 0
  | _ => if reqb q 0 then Fin 1 else NaN
  end.
(** [np.mean] of a non-empty vector *)
Definition fmean (l : list fl) : fl := fdiv (fold_left fadd l (Fin 0)) (Fin (INR (length l))).

(** [cdist(A, B, metric="minkowski")] (p = 2 by default) followed by [np.argmin(.., axis=1)]:
    lines 38-41 and 150-154.  Empty [A] or [B], or different numbers of columns, are ValueErrors. *)
Definition same_cols (A B : list (list R)) : bool :=
  forallb (fun r => (length r =? length (hd [] A))%nat) (A ++ B).
Definition nearest_rows (A B : list (list R)) : res (list (list R) * list nat) :=
  match A, B with
  | [], _ | _, [] => Exn ValueError
  | _, _ => if same_cols A B then let D := cdist A B in Ok (D, map argminR D) else Exn ValueError
  end.
(** [D[np.arange(n), idx] ** p] averaged, to the power [1 / p]: lines 59 and 188 *)
Definition pick (D : list (list R)) (idx : list nat) : list R := zip_with (fun row j => nth j row 0) D idx.
Definition root_mean (p : R) (ds : list R) : res fl :=
  if reqb p 0 then Exn ZeroDivisionError
  else Ok (fpow (fmean (map (fun d => npow d p) ds)) (1 / p)).

(** the attributes set by the constructors (lines 27-33, 129-139); [i_ref] is the value of
    [self.ref.reference_set]; [i_M] is the size of the reference set when the indicator was built *)
Record ind : Type := mkInd {
  i_ref : list (list R); i_p : R; i_M : nat;
  i_func : list R -> list R;
  i_jac : list R -> nat -> nat -> R;            (* objective, variable *)
  i_hess : list R -> nat -> nat -> nat -> R     (* objective, variable, variable *)
}.
Definition mk_ind ref func jac hess p : ind := mkInd ref p (length ref) func jac hess.

(** lines 55-57, 181-184 *)
Definition get_Y (o : ind) (X Y : option (list (list R))) : res (list (list R)) :=
  match Y with
  | Some Y => Ok Y
  | None => match X with Some X => Ok (map (i_func o) X) | None => Exn AssertionError end
  end.

(** lines 43-59 *)
Definition gd_compute (o : ind) (X Y : option (list (list R))) : res fl :=
  do Y <- get_Y o X Y;
  do di <- nearest_rows Y (i_ref o);
  root_mean (i_p o) (pick (fst di) (snd di)).

Definition mk2 {A} (n m : nat) (f : nat -> nat -> A) : list (list A) := map (fun i => map (f i) (seq 0 m)) (seq 0 n).
Definition mk3 {A} (n m q : nat) (f : nat -> nat -> nat -> A) : list (list (list A)) := map (fun i => mk2 m q (f i)) (seq 0 n).
Definition n_cols {A} (X : list (list A)) : nat := length (hd [] X).
Definition entry (A : list (list R)) (i a : nat) : R := nth a (nth i A []) 0.

(** lines 82-86, 224-230: [Y] from the objective function and the Jacobians unless given.
    Arrays of inconsistent length make [einsum] raise a ValueError. *)
Definition get_YJ (o : ind) (X : list (list R)) (Y : option (list (list R))) (J : option (nat -> nat -> nat -> R)) :=
  (match Y with Some Y => Y | None => map (i_func o) X end,
   match J with Some J => J | None => fun i => i_jac o (nth i X []) end).

(** lines 61-111: gradient (N x dim) and Hessian blocks (N x dim x dim) *)
Definition gd_derivatives (o : ind) (X : list (list R)) (Y : option (list (list R)))
  (J : option (nat -> nat -> nat -> R)) (hessian : bool) : res (list (list fl) * option (list (list (list fl)))) :=
  let N := length X in
  let dim := n_cols X in
  if (N =? 0)%nat then Exn ZeroDivisionError else
  let c1 := i_p o / INR N in
  let (Y, J) := get_YJ o X Y J in
  do di <- nearest_rows Y (i_ref o);
  if negb (length Y =? N)%nat then Exn ValueError else
  let m := n_cols Y in
  let diff i a := entry Y i a - entry (i_ref o) (nth i (snd di) 0%nat) a in
  let norm i := sqrt (sumn m (fun a => diff i a * diff i a)) in
  let grad_ i k := sumn m (fun a => J i a k * diff i a) in
  let grad := mk2 N dim (fun i k => fmul (fmul (Fin c1) (npow (norm i) (i_p o - 2))) (Fin (grad_ i k))) in
  let c2 := i_p o * (i_p o - 2) / INR N in
  let norm_ i := if reqb (norm i) 0 then Fin 0 else npow (norm i) (i_p o - 4) in
  let term i k l := if reqb (i_p o) 2 then Fin 0
                    else fmul (fmul (Fin c2) (norm_ i)) (Fin (grad_ i k * grad_ i l)) in
  let H i := i_hess o (nth i X []) in
  let hess := mk3 N dim dim (fun i k l =>
    fadd (term i k l) (Fin (c1 * (sumn m (fun a => J i a k * J i a l) + sumn m (fun a => H i a k l * diff i a))))) in
  Ok (grad, if hessian then Some hess else None).

(** lines 144-163: indices of the nearest points of [Y], the cells, and the counts [m].
    [np.unique(.., return_counts=True)] assigned into zeros gives the number of occurrences. *)
Definition igd_indices (o : ind) (Y : list (list R)) : res (list (list R) * list nat * list (list nat) * list nat) :=
  do di <- nearest_rows (i_ref o) Y;
  let idx := snd di in
  let N := length Y in
  let cells := map (fun i => filter (fun j => (nth j idx N =? i)%nat) (seq 0 (length idx))) (seq 0 N) in
  let m := map (fun i => count_occ Nat.eq_dec idx i) (seq 0 N) in
  Ok (fst di, idx, cells, m).

(** lines 165-188 with [matching = False]; [D[np.arange(M), idx]] needs [M] equal to the number of
    rows (IndexError otherwise, raised by the broadcasting of the two index vectors) *)
Definition igd_compute (o : ind) (X Y : option (list (list R))) : res fl :=
  do Y <- get_Y o X Y;
  do q <- igd_indices o Y;
  let '(D, idx, _, _) := q in
  if (i_M o =? length idx)%nat then root_mean (i_p o) (pick D idx) else Exn IndexError.

(** lines 165-188 with [matching = True]; [match_] is [self.ref.match(Y)] followed by reading
    [self.ref.reference_set] (modelled in RefModel).  Broadcasting of a single row is not
    modelled: different numbers of rows are a ValueError *)
Definition vsub (p q : list R) : list R := zip_with Rminus p q.
Definition igdm_compute (o : ind) (match_ : list (list R) -> res (list (list R))) (X Y : option (list (list R))) : res R :=
  do Y <- get_Y o X Y;
  do M <- match_ Y;
  if (length Y =? length M)%nat && same_cols Y M then
    Ok (fold_right Rplus 0 (zip_with (fun y r => fold_right Rplus 0 (map (fun d => d * d) (vsub y r))) Y M) / INR (length Y))
  else Exn ValueError.

(** lines 190-238.  [match_ = None]: without matching.  The exponent [p] is not used. *)
Definition igd_derivatives (o : ind) (match_ : option (list (list R) -> res (list (list R))))
  (X : list (list R)) (Y : option (list (list R))) (J : option (nat -> nat -> nat -> R)) (hessian : bool)
  : res (list (list R) * option (list (list (list R)))) :=
  match match_, i_M o with None, O => Exn ZeroDivisionError | _, _ =>
  let c := match match_ with Some _ => 2 | None => 2 / INR (i_M o) end in
  let N := length X in
  let dim := n_cols X in
  let (Y, J) := get_YJ o X Y J in
  let mY := n_cols Y in
  do dm <- match match_ with
           | Some mt =>
               do M <- mt Y;
               if (length Y =? length M)%nat && same_cols Y M
               then Ok (fun i a => entry Y i a - entry M i a, fun _ => 1) else Exn ValueError
           | None =>
               do q <- igd_indices o Y;
               let '(_, _, cells, m) := q in
               let mi i := INR (nth i m 0%nat) in
               let Z i a := fold_right Rplus 0 (map (fun j => entry (i_ref o) j a) (nth i cells [])) in
               Ok (fun i a => mi i * entry Y i a - Z i a, mi)
           end;
  let (diff, mi) := (fst dm : nat -> nat -> R, snd dm : nat -> R) in
  if negb (length Y =? N)%nat then Exn ValueError else
  let grad := mk2 N dim (fun i k => c * sumn mY (fun a => J i a k * diff i a)) in
  let H i := i_hess o (nth i X []) in
  let hess := mk3 N dim dim (fun i k l =>
    c * (mi i * sumn mY (fun a => J i a k * J i a l) + sumn mY (fun a => H i a k l * diff i a))) in
  Ok (grad, if hessian then Some hess else None)
  end.
