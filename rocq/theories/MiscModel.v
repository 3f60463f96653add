(** Model of helpers of /repo/hvd/utils.py: box reflection, bounds, packing of
    primal/dual variables, Hessian preconditioning, reference set preprocessing. *)
From Coq Require Import List Arith Bool Reals ZArith.
From Verif Require Import Num Exn.
Import ListNotations.
Open Scope R_scope.

(** * [handle_box_constraint], utils.py 262-300 *)

(** lines 285-294 for one entry [x] of a row with finite bounds.  [None] is NaN: if the
    bounds are equal the division by zero makes every later value NaN. *)
Definition reflect1 (lb ub x : R) : option R :=
  if Req_EM_T lb ub then None
  else
    let y := (x - lb) / (ub - lb) in
    let fl := Int_part y in                       (* np.floor *)
    let fr := Rabs (y - IZR fl) in
    Some (lb + (ub - lb) * (if Z.even fl then fr else 1 - fr)).

(** a bound is [None] if it is not finite, lines 278-281; only rows with two finite
    bounds are changed *)
Definition reflect_entry (lb ub : option R) (x : R) : option R :=
  match lb, ub with
  | Some l, Some u => reflect1 l u x
  | _, _ => Some x
  end.

Definition transpose {A} (d : A) (cols : nat) (M : list (list A)) : list (list A) :=
  map (fun c => map (fun r => nth c r d) M) (seq 0 cols).

Definition reflect_rows (lb ub : list (option R)) (M : list (list R)) : list (list (option R)) :=
  map (fun i => map (reflect_entry (nth i lb None) (nth i ub None)) (nth i M [])) (seq 0 (length M)).

(** lines 262-300 for a matrix [M] with [cols] columns.  [lb] and [ub] are vectors.  If
    their lengths differ, [np.bitwise_and] or the indexing with the mask raises. *)
Definition handle_box_matrix (cols : nat) (M : list (list R)) (lb ub : list (option R)) : res (list (list (option R))) :=
  let d := length lb in
  let tr := negb (length M =? d)%nat in
  let M' := if tr then transpose 0 cols M else M in
  if negb (length ub =? d)%nat
  then Exn (if (length ub =? 1)%nat || (d =? 1)%nat then IndexError else ValueError)
  else if negb (length M' =? d)%nat then Exn IndexError
  else
    let R' := reflect_rows lb ub M' in
    Ok (if tr then transpose None (length M) R' else R').

(** a vector is treated as a matrix with one row (line 273) and reshaped at the end *)
Definition handle_box_vector (x : list R) (lb ub : list (option R)) : res (list (option R)) :=
  do M <- handle_box_matrix (length x) [x] lb ub;
  Ok (concat M).

(** * [set_bounds], utils.py 249-259 *)
(** what the argument can be: a number, an iterable, another object without length;
    a string stands for the object [eval] makes of it *)
Inductive bound_obj : Type :=
| BScalar (b : R)
| BIter (l : list R)
| BOther
| BStr (value : bound_obj).

Definition bound_len_check (l : list R) (dim : nat) : res (list R) :=
  if (length l =? dim)%nat then Ok l else Exn AssertionError.

Definition set_bounds (b : bound_obj) (dim : nat) : res (list R) :=
  match b with
  | BScalar x => bound_len_check (repeat x dim) dim
  | BIter l => bound_len_check (match l with [x] => repeat x dim | _ => l end) dim
  | BOther => Exn TypeError
  | BStr (BIter l) => bound_len_check l dim      (* the result of [eval] is used as it is *)
  | BStr _ => Exn TypeError
  end.

(** * packing, utils.py 30-47 (mmd_newton.py 17-31 is a copy that expects the mask with the primal columns) *)
Section Pack.
Context {T : Type} (zero : T).

(** [v[mask]] *)
Fixpoint mask_row (mask : list bool) (v : list T) : list T :=
  match mask, v with
  | b :: mask', x :: v' => if b then x :: mask_row mask' v' else mask_row mask' v'
  | _, _ => []
  end.

(** lines 30-31; [X] has as many rows as [act] *)
Definition matrix_to_Nd_vector (X : list (list T)) (p : nat) (act : list (list bool)) : list T :=
  concat (map (firstn p) X) ++ concat (map (fun am => mask_row (fst am) (snd am)) (combine act (map (skipn p) X))).

(** [X[i, idx] = vals] on a row of zeros: the selected positions are filled in order.
    Raises if the number of values does not fit (a single value is broadcast). *)
Fixpoint fill (mask : list bool) (vals : list T) : list T :=
  match mask with
  | [] => []
  | true :: m => match vals with v :: vs => v :: fill m vs | [] => zero :: fill m [] end
  | false :: m => zero :: fill m vals
  end.
Definition count_true (mask : list bool) : nat := length (filter (fun b => b) mask).
Definition fill_row (mask : list bool) (vals : list T) : res (list T) :=
  if (length vals =? count_true mask)%nat then Ok (fill mask vals)
  else match vals with
       | [v] => Ok (map (fun b : bool => if b then v else zero) mask)
       | _ => Exn ValueError
       end.

(** [x.reshape(N, -1)], N > 0 *)
Fixpoint chunks (N w : nat) (x : list T) : list (list T) :=
  match N with O => [] | S N' => firstn w x :: chunks N' w (skipn w x) end.
Definition reshape_rows (N : nat) (x : list T) : res (list (list T)) :=
  if (N =? 0)%nat then Exn ValueError
  else if (length x mod N =? 0)%nat then Ok (chunks N (length x / N) x) else Exn ValueError.

(** lines 42-46: the loop over the rows; [b] is what is left of the dual part *)
Fixpoint unpack_rows (p : nat) (a : list (list T)) (b : list T) (act : list (list bool)) : res (list (list T)) :=
  match a, act with
  | ra :: a', m :: act' =>
      let k := count_true m in
      do r <- fill_row (repeat true p ++ m) (ra ++ firstn k b);
      do rs <- unpack_rows p a' (skipn k b) act';
      Ok (r :: rs)
  | _, _ => Ok []
  end.

(** lines 34-47; [act] has N rows of [dim - p] entries *)
Definition Nd_vector_to_matrix (x : list T) (N dim p : nat) (act : list (list bool)) : res (list (list T)) :=
  if (dim =? p)%nat then reshape_rows N x
  else
    do a <- reshape_rows N (firstn (N * p) x);
    unpack_rows p a (skipn (N * p) x) act.
End Pack.

(** * [precondition_hessian], utils.py 99-127.  Matrices of size [n] are functions.
    [cholesky] is [scipy.linalg.cholesky(., lower=True)]: the factor, or [None] if it
    raises (the bare [except] catches everything). *)
Section Precond.
Variable n : nat.
Variable cholesky : (nat -> nat -> R) -> option (nat -> nat -> R).

Fixpoint sum_to (k : nat) (f : nat -> R) : R := match k with O => 0 | S k' => sum_to k' f + f k' end.
(** [L @ L.T] *)
Definition gram (L : nat -> nat -> R) : nat -> nat -> R := fun i j => sum_to n (fun k => L i k * L j k).
(** [H + tau * I] *)
Definition shift (H : nat -> nat -> R) (tau : R) : nat -> nat -> R :=
  fun i j => H i j + tau * (if (i =? j)%nat then 1 else 0).

(** [np.min(np.diag(H))] *)
Fixpoint min_diag (H : nat -> nat -> R) (k : nat) : R :=
  match k with O => H 0%nat 0%nat | S k' => Rmin (min_diag H k') (H k k) end.

Definition beta : R := / 1000000.

(** lines 115-125: [fuel] tries; [inl] is the factor found with its shift, [inr] the last shift *)
Fixpoint precond_loop (H : nat -> nat -> R) (tries : nat) (tau : R) : (nat -> nat -> R) + R :=
  match tries with
  | O => inr tau
  | S t => match cholesky (shift H tau) with
           | Some L => inl L
           | None => precond_loop H t (Rmax (2 * tau) beta)
           end
  end.

(** [n = 0] makes [np.min] raise; not modelled (hypothesis 0 < n) *)
Definition precondition_hessian (H : nat -> nat -> R) : nat -> nat -> R :=
  match cholesky H with
  | Some L => gram L
  | None =>
      let v := min_diag H (n - 1) in
      let tau := if Rlt_dec 0 v then 0 else - v + beta in
      match precond_loop H 45 tau with
      | inl L => gram L
      | inr tau' => shift H tau'
      end
  end.
End Precond.

(** * [preprocess_reference_set], utils.py 130-147 *)
Section Pre.
(** [LocalOutlierFactor(n_neighbors).fit_predict]: one label per row, [true] for an
    outlier (score -1); the numerics are not modelled *)
Variable lof : nat -> list (list R) -> list bool.

(** [np.isclose(a, b, rtol=1e-3, atol=1e-4)] *)
Definition isclose (a b : R) : bool :=
  if Rle_dec (Rabs (a - b)) (/ 10000 + / 1000 * Rabs b) then true else false.
(** [np.all(np.isclose(row, x))] *)
Fixpoint row_close (r x : list R) : bool :=
  match r, x with
  | a :: r', b :: x' => isclose a b && row_close r' x'
  | _, _ => true
  end.
(** lines 134-142 *)
Definition isolated (X : list (list R)) (i : nat) : bool :=
  forallb (fun j => (j =? i)%nat || negb (row_close (nth j X []) (nth i X []))) (seq 0 (length X)).
Definition isolated_idx (X : list (list R)) : list nat := filter (isolated X) (seq 0 (length X)).
(** lines 143-144 *)
Definition dedup_ref (X : list (list R)) : list (list R) :=
  let idx := isolated_idx X in
  if (50 <? length idx)%nat then map (fun i => nth i X []) idx else X.
(** lines 145-147 *)
Definition preprocess_reference_set (X : list (list R)) : list (list R) :=
  let X' := dedup_ref X in
  let out := lof (Nat.max 5 (length X' / 10)) X' in
  map snd (filter (fun sx => negb (fst sx)) (combine out X')).
End Pre.
