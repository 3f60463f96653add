(** Model of /repo/hvd/hypervolume_derivatives.py: gradient and Hessian of the
    hypervolume in the objective space. *)
From Coq Require Import List Arith Bool.
From Verif Require Import Num Exn NDSModel HVModel.
Import ListNotations.

Section HVD.
Context {T : Type} `{Num T}.

(** the sentinel and sort oracle of the hypervolume routine, see HVModel.v *)
Variable minf : T.
Variable argsort : list T -> list nat.

(** [np.delete(v, obj=k)] for k in range *)
Fixpoint delete_at {A} (k : nat) (l : list A) : list A :=
  match l with
  | [] => []
  | x :: l' => match k with 0 => l' | S k' => x :: delete_at k' l' end
  end.

(** [np.insert(v, k, x)]: [IndexError] for k out of range *)
Fixpoint insert_at {A} (k : nat) (x : A) (l : list A) : res (list A) :=
  match k with
  | 0 => Ok (x :: l)
  | S k' => match l with [] => Exn IndexError | a :: l' => do r <- insert_at k' x l'; Ok (a :: r) end
  end.

(** fancy indexing [a[ix]] *)
Definition gather {A} (d : A) (l : list A) (ix : list nat) : list A := map (fun i => nth i l d) ix.

(** fancy assignment [a[ix] = vals] into zeros, read at position i *)
Fixpoint scatter {A} (d : A) (ix : list nat) (vals : list A) (i : nat) : A :=
  match ix, vals with
  | j :: ix', v :: vals' => if Nat.eqb j i then v else scatter d ix' vals' i
  | _, _ => d
  end.

(** [np.argmin]: position of the first smallest entry *)
Fixpoint argmin_aux (l : list T) (pos best : nat) (b : T) : nat :=
  match l with
  | [] => best
  | x :: l' => if nltb x b then argmin_aux l' (S pos) pos x else argmin_aux l' (S pos) best b
  end.
Definition argmin (l : list T) : res nat :=
  match l with [] => Exn ValueError | x :: l' => Ok (argmin_aux l' 1 0 x) end.

(** [non_domin_sort(P, only_front_indices=True)[0]] *)
Definition first_front (P : list (list T)) : res (list nat) :=
  do d <- non_domin_sort_idx P;
  match find (fun e => Nat.eqb (fst e) 0) d with Some e => Ok (snd e) | None => Exn KeyError end.

(** hypervolume_derivatives.py 106-109, 223-227, 289-292: indices of the non-dominated
    rows of a matrix with [m] columns; with one column only the first minimum. *)
Definition nondominated_indices (m : nat) (P : list (list T)) : res (list nat) :=
  if Nat.eqb m 1 then do i <- argmin (concat P); Ok [i] else first_front P.

(** hypervolume_derivatives.py 276-297 [_project]; returns (y_, pareto_front_, ref_, idx). *)
Definition project (axis i : nat) (front : list (list T)) (ref : list T)
  : res (list T * list (list T) * list T * list nat) :=
  match nth_error front i with
  | None => Exn IndexError
  | Some y =>
      let y_ := delete_at axis y in
      let ref_ := delete_at axis ref in
      let idx := filter (fun j => nltb (nth axis (nth j front []) nzero) (nth axis y nzero))
                        (seq 0 (length front)) in
      let front_ := map (delete_at axis) (gather [] front idx) in
      if Nat.eqb (length front_) 0 then Ok (y_, front_, ref_, idx)
      else
        do ind <- nondominated_indices (length ref_) front_;
        Ok (y_, gather [] front_ ind, ref_, gather 0 idx ind)
  end.

(** [np.argsort(-tags, kind="stable")] with [tags] the ranks of the values
    (np.unique inverse): positions by decreasing value, ties in order of position.
    Simplification: values are compared directly instead of their ranks. *)
Fixpoint insert_desc (l : list T) (i : nat) (acc : list nat) : list nat :=
  match acc with
  | [] => [i]
  | j :: acc' => if nltb (nth i l nzero) (nth j l nzero) then j :: insert_desc l i acc' else i :: acc
  end.
Definition argsort_desc (l : list T) : list nat :=
  fold_right (insert_desc l) [] (seq 0 (length l)).

Fixpoint map2 {A B C} (f : A -> B -> C) (a : list A) (b : list B) : list C :=
  match a, b with x :: a', y :: b' => f x y :: map2 f a' b' | _, _ => [] end.

(** hypervolume_derivatives.py 351-364: the two-dimensional case. *)
Definition dY2_order (front : list (list T)) : list nat :=
  let col k := map (fun p => nth k p nzero) front in
  let idx1 := rev (argsort_desc (col 0)) in
  let idx2 := argsort_desc (gather nzero (col 1) idx1) in
  gather 0 idx1 idx2.
Definition dY2 (front : list (list T)) (ref : list T) : list (list T) :=
  let idx := dY2_order front in
  let y1 := gather nzero (map (fun p => nth 0 p nzero) front) idx in
  let y2 := gather nzero (map (fun p => nth 1 p nzero) front) idx in
  let v0 := map2 nsub y2 (nth 1 ref nzero :: removelast y2) in
  let v1 := map2 nsub y1 (tl y1 ++ [nth 0 ref nzero]) in
  map (fun i => [scatter nzero idx v0 i; scatter nzero idx v1 i]) (seq 0 (length front)).

(** hypervolume_derivatives.py 337-373 [hypervolume_dY]; [len(ref)] is the number of
    columns of [pareto_front]. *)
Definition hypervolume_dY (front : list (list T)) (ref : list T) : res (list (list T)) :=
  match length ref with
  | 1 => Ok [[nopp none_]]
  | 2 => Ok (dY2 front ref)
  | m =>
      map_res (fun i =>
        map_res (fun k =>
          do pr <- project k i front ref;
          let '(y_, front_, ref_, _) := pr in
          do v <- hypervolume_improvement minf argsort y_ front_ ref_;
          Ok (nmul (nopp none_) v)) (seq 0 m)) (seq 0 (length front))
  end.

(** hypervolume_derivatives.py 99-111 and 189-198: [_compute_gradient] up to HVdY
    (as an N x n_obj matrix); [m] is n_obj. *)
Definition compute_HVdY (m : nat) (Y : list (list T)) (ref : list T) : res (list (list T)) :=
  if negb (forallb (fun p => Nat.eqb (length p) m) Y) then Exn AssertionError
  else
    do nd <- nondominated_indices m Y;
    do g <- hypervolume_dY (gather [] Y nd) ref;
    Ok (map (fun i => scatter (repeat nzero m) nd g i) (seq 0 (length Y))).

(** [np.clip(v, lo, hi)] *)
Definition clip (lo hi v : list T) : list T := map2 nmin (map2 nmax v lo) hi.

(** assignment of a vector to a slice of length m (broadcast of a single element) *)
Definition assign_block (m : nat) (v : list T) : res (list T) :=
  if Nat.eqb (length v) m then Ok v
  else match v with [x] => Ok (repeat x m) | _ => Exn ValueError end.

(** hypervolume_derivatives.py 218-247: the column of HVdY2 for point i, objective k, as
    N blocks of length m.  With one-column projections and an empty front,
    [hypervolume_dY] has one row more than [pareto_front_]; that row is not used
    (and the empty mask of line 239 selects nothing). *)
Definition hess_column (m : nat) (Y : list (list T)) (ref : list T) (i k : nat) : res (list (list T)) :=
  do pr <- project k i Y ref;
  let '(y_, front_, ref_, proj_idx) := pr in
  let Y_ := y_ :: front_ in
  do nd <- nondominated_indices (length ref_) Y_;
  do g <- hypervolume_dY (gather [] Y_ nd) ref_;
  let out := map snd (filter (fun e => Nat.eqb (fst e) 0) (combine nd g)) in
  do own <- insert_at k nzero (map (nmul (nopp none_)) (concat out));
  do own <- assign_block m own;
  do g2 <- hypervolume_dY (map (clip y_ ref_) front_) ref_;
  let g3 := map2 (fun p row => map2 (fun px ye => if nltb px (fst ye) then nzero else snd ye) p (combine y_ row)) front_ g2 in
  do g4 <- map_res (insert_at k nzero) g3;
  Ok (map (fun j => scatter (if Nat.eqb j i then own else repeat nzero m) proj_idx g4 j) (seq 0 (length Y))).

(** hypervolume_derivatives.py 201-247 [_compute_hessian] up to HVdY2: the list of its
    columns (i, k), each a list of N blocks of length m; columns of dominated points
    are zero. *)
Definition compute_HVdY2 (m : nat) (Y : list (list T)) (ref : list T) : res (list (list (list (list T)))) :=
  if negb (forallb (fun p => Nat.eqb (length p) m) Y) then Exn AssertionError
  else
    do nd <- nondominated_indices m Y;
    map_res (fun i =>
      if existsb (Nat.eqb i) nd then map_res (hess_column m Y ref i) (seq 0 m)
      else Ok (repeat (repeat (repeat nzero m) (length Y)) m)) (seq 0 (length Y)).
End HVD.
