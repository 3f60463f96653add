(** Model of /repo/hvd/problems: utils.py, base.py and dtlz.py, over the real numbers. *)
From Coq Require Import List Arith Bool Reals ZArith.
From Verif Require Import Num Exn NewtonModel.
Import ListNotations.
Open Scope R_scope.

(** * utils.py *)
(** [math.comb] (line 12) for non-negative arguments *)
Fixpoint comb (n k : nat) : nat :=
  match k with
  | O => 1
  | S k' => match n with O => 0 | S n' => comb n' k' + comb n' k end
  end%nat.
(** lines 12-13, at most [fuel] evaluations of the condition; line 12 with [n_obj = 0] raises
    ValueError in [math.comb] *)
Fixpoint partitions (fuel n_obj target p : nat) : res nat :=
  match fuel with
  | O => Exn OutOfFuel
  | S fuel' => match n_obj with
      | O => Exn ValueError
      | S m => if (comb (p + m) m <? target)%nat then partitions fuel' n_obj target (p + 1) else Ok p
      end
  end.
(** lines 14-21.  [parts] counts from one: the generator for [parts = d + 1] *)
Fixpoint compositions (d total : nat) (prefix : list nat) : list (list nat) :=
  match d with
  | O => [prefix ++ [total]]
  | S d' => flat_map (fun value => compositions d' (total - value) (prefix ++ [value])) (seq 0 (total + 1))
  end.
(** lines 6-23 for non-negative arguments.  [n_obj = 0] with a given number of partitions recurses
    without end, in Python until RecursionError (a RuntimeError); zero partitions divide 0 by 0,
    which here is an error as the rows would be NaN *)
Definition get_ref_dirs (fuel n_obj : nat) (n_points n_partitions : option nat) : res (list (list R)) :=
  do p <- match n_partitions with
          | Some p => Ok p
          | None => let default := if (n_obj =? 2)%nat then 100%nat else 496%nat in
                    let target := match n_points with Some (S n) => S n | _ => default end in
                    partitions fuel n_obj target 1
          end;
  match n_obj with
  | O => Exn RuntimeError
  | S d => if (p =? 0)%nat then Exn ZeroDivisionError
           else Ok (map (map (fun v => INR v / INR p)) (compositions d p []))
  end.
(** lines 25-26; the caller never passes a zero row (NaN in Python) *)
Definition norm2 (x : list R) : R := sqrt (fold_right (fun a s => a * a + s) 0 x).
Definition generic_sphere (dirs : list (list R)) : list (list R) := map (fun r => map (fun a => a / norm2 r) r) dirs.

(** * base.py *)
(** ** arguments *)
(** values for [n_var], [n_obj]: Python or NumPy booleans, integers, anything else *)
Inductive pyval : Type := PyBool (b : bool) | PyInt (z : Z) | PyOther.
(** what [np.asarray(value, dtype=float)] gives: a number, a vector, an array of two or more
    dimensions, or ValueError / TypeError *)
Inductive arr : Type := AScalar (x : fl) | AVec (l : list fl) | ADeep | ANoFloat | ANoType.
(** lines 79-82 *)
Definition validate_dimension (v : pyval) : res nat :=
  match v with
  | PyBool _ => Exn ValueError
  | PyInt z => if (z <? 1)%Z then Exn ValueError else Ok (Z.to_nat z)
  | PyOther => Exn ValueError
  end.
(** lines 88-92 *)
Definition broadcast_bound (n : nat) (a : arr) : res (list fl) :=
  match a with
  | AScalar x => Ok (repeat x n)
  | AVec l => if (length l =? n)%nat then Ok l
              else match l with [x] => Ok (repeat x n) | _ => Exn ValueError end
  | ADeep => Exn ValueError
  | ANoFloat => Exn ValueError
  | ANoType => Exn TypeError
  end.
(** [a > b] of floats: false as soon as one is NaN *)
Definition fgt (a b : fl) : bool :=
  match a, b with
  | NaN, _ | _, NaN => false
  | _, _ => negb (fle a b)
  end.
(** lines 84-86; both have [n_var] entries *)
Definition validate_bound (xl xu : list fl) : bool := existsb (fun ab => fgt (fst ab) (snd ab)) (combine xl xu).
(** lines 64-77, without the compiled functions *)
Record mop := mkMOP { p_nvar : nat; p_nobj : nat; p_xl : list fl; p_xu : list fl }.
Definition new_mop (n_var n_obj : pyval) (xl xu : arr) : res mop :=
  do n <- validate_dimension n_var;
  do m <- validate_dimension n_obj;
  do l <- broadcast_bound n xl;
  do u <- broadcast_bound n xu;
  if validate_bound l u then Exn ValueError else Ok (mkMOP n m l u).

(** ** constraints *)
(** [a - b] of vectors in JAX: equal lengths, or one of them has length one *)
Definition vsub (a b : list R) : res (list R) :=
  if (length a =? length b)%nat then Ok (map (fun p => fst p - snd p) (combine a b))
  else match a, b with
       | [x], _ => Ok (map (fun y => x - y) b)
       | _, [y] => Ok (map (fun x => x - y) a)
       | _, _ => Exn TypeError
       end.
(** lines 43-56 *)
Definition add_boundary_constraints (ieq : option (list R -> res (list R))) (xl xu : list R) : list R -> res (list R) :=
  fun x => match ieq with
           | Some g => do c <- g x; do lo <- vsub xl x; do hi <- vsub x xu; Ok (c ++ lo ++ hi)
           | None => do lo <- vsub xl x; do hi <- vsub x xu; Ok (lo ++ hi)
           end.
(** lines 151-175: the constraint functions and counts of a problem.  [eqf], [ieqf] are the methods
    [_eq_constraint] and [_ieq_constraint] of the subclass *)
Record cmop := mkCMOP { c_neq : Z; c_nieq : Z; c_eq : option (list R -> res (list R)); c_ieq : option (list R -> res (list R)) }.
Definition new_cmop (n_var : nat) (xl xu : list R) (n_eq n_ieq : Z) (boundary : bool) (eqf ieqf : list R -> res (list R)) : res cmop :=
  if (n_eq <? 0)%Z || (n_ieq <? 0)%Z then Exn ValueError
  else let eq := if (0 <? n_eq)%Z then Some eqf else None in
       let ieq := if (0 <? n_ieq)%Z then Some ieqf else None in
       Ok (if boundary then mkCMOP n_eq (n_ieq + 2 * Z.of_nat n_var) eq (Some (add_boundary_constraints ieq xl xu))
           else mkCMOP n_eq n_ieq eq ieq).
(** lines 191-195: calling [None] raises TypeError *)
Definition call (f : option (list R -> res (list R))) (x : list R) : res (list R) :=
  match f with Some g => g x | None => Exn TypeError end.
Definition eq_constraint (c : cmop) (x : list R) : res (list R) := call (c_eq c) x.
Definition ieq_constraint (c : cmop) (x : list R) : res (list R) := call (c_ieq c) x.

(** * dtlz.py *)
(** lines 48-49: [jnp.cumprod(jnp.r_[[1], x1])[::-1] * jnp.r_[[1], x2[::-1]]] *)
Fixpoint cumprod (c : R) (l : list R) : list R := match l with [] => [] | a :: t => (c * a) :: cumprod (c * a) t end.
Fixpoint vmul (a b : list R) : list R := match a, b with x :: a', y :: b' => (x * y) :: vmul a' b' | _, _ => [] end.
Definition position (x1 x2 : list R) : list R := vmul (rev (cumprod 1 (1 :: x1))) (1 :: rev x2).
Definition dtlz_obj (scale : R) (n_obj : nat) (g : list R -> R) (tr : list R -> R -> list R * list R) (x : list R) : list R :=
  let xp := firstn (n_obj - 1) x in let xm := skipn (n_obj - 1) x in
  let gv := g xm in
  let t := tr xp gv in
  map (fun p => scale * (1 + gv) * p) (position (fst t) (snd t)).
(** lines 51-52, 83-84 and 98-99.  [k] is line 28, [n_var - n_obj + 1] *)
Definition sumf (f : R -> R) (l : list R) : R := fold_right (fun a s => f a + s) 0 l.
Definition g_sphere (xm : list R) : R := sumf (fun a => (a - / 2) ^ 2) xm.
Definition g_rastrigin (k : Z) (xm : list R) : R := 100 * (IZR k + sumf (fun a => (a - / 2) ^ 2 - cos (20 * PI * (a - / 2))) xm).
(** lines 41-42; [alpha] is a positive integer in all problems *)
Definition tr_angle (alpha : nat) (xp : list R) (g : R) : list R * list R :=
  (map (fun a => cos (a ^ alpha * PI / 2)) xp, map (fun a => sin (a ^ alpha * PI / 2)) xp).
(** lines 80-81 *)
Definition tr_simplex (xp : list R) (g : R) : list R * list R := (xp, map (fun a => 1 - a) xp).
(** lines 122-125; line 124 needs a first entry *)
Definition tr_degenerate (xp : list R) (g : R) : list R * list R :=
  let theta := match xp with [] => [] | a :: t => a :: map (fun b => (1 + 2 * g * b) / (2 * (1 + g))) t end in
  (map (fun a => cos (a * PI / 2)) theta, map (fun a => sin (a * PI / 2)) theta).
(** lines 136-138: [x ** 0.1] for [x >= 1e-30] *)
Definition g_root (xm : list R) : R := sumf (fun a => Rpower (Rmax (Rabs a) (/ 10 ^ 30)) (/ 10)) xm.
(** the problems, for [n_var] variables: lines 62-148 *)
Definition k_of (n_var n_obj : nat) : Z := (Z.of_nat n_var - Z.of_nat n_obj + 1)%Z.
Definition dtlz1 (n_var n_obj : nat) : list R -> list R := dtlz_obj (/ 2) n_obj (g_rastrigin (k_of n_var n_obj)) tr_simplex.
Definition dtlz2 (n_var n_obj : nat) : list R -> list R := dtlz_obj 1 n_obj g_sphere (tr_angle 1).
Definition dtlz3 (n_var n_obj : nat) : list R -> list R := dtlz_obj 1 n_obj (g_rastrigin (k_of n_var n_obj)) (tr_angle 1).
Definition dtlz4 (n_var n_obj : nat) : list R -> list R := dtlz_obj 1 n_obj g_sphere (tr_angle 100).
Definition dtlz5 (n_var n_obj : nat) : list R -> list R := dtlz_obj 1 n_obj g_sphere tr_degenerate.
Definition dtlz6 (n_var n_obj : nat) : list R -> list R := dtlz_obj 1 n_obj g_root tr_degenerate.
(** lines 151-153, 165-170 *)
Definition g_linear (k : Z) (xm : list R) : R := 1 + 9 / IZR k * sumf (fun a => a) xm.
Definition dtlz7 (n_var n_obj : nat) (x : list R) : list R :=
  let f := firstn (n_obj - 1) x in let xm := skipn (n_obj - 1) x in
  let g := g_linear (k_of n_var n_obj) xm in
  let h := INR n_obj - sumf (fun a => a / (1 + g) * (1 + sin (3 * PI * a))) f in
  f ++ [(1 + g) * h].
(** lines 54-56, 140-142, 155-157: one row, [u] the random position variables *)
Definition pareto_row (k : nat) (opt : R) (u : list R) : list R := u ++ repeat opt k.
(** lines 86-88, 92-94 *)
Definition simplex_front (fuel n_obj : nat) : res (list (list R)) :=
  do d <- get_ref_dirs fuel n_obj None None; Ok (map (map (fun a => / 2 * a)) d).
Definition sphere_front (fuel n_obj : nat) : res (list (list R)) :=
  do d <- get_ref_dirs fuel n_obj None None; Ok (generic_sphere d).
(** * eqdtlz.py 8-14, 22-27 *)
Definition idtlz_obj (scale : R) (n_obj : nat) (g : list R -> R) (tr : list R -> R -> list R * list R) (x : list R) : list R :=
  let xp := firstn (n_obj - 1) x in let xm := skipn (n_obj - 1) x in
  let gv := g xm in
  let t := tr xp gv in
  map (fun p => (1 + gv) / 2 - scale * (1 + gv) * p) (position (fst t) (snd t)).
Definition idtlz1 (n_var n_obj : nat) : list R -> list R := idtlz_obj (/ 2) n_obj (g_rastrigin (k_of n_var n_obj)) tr_simplex.
Definition idtlz2 (n_var n_obj : nat) : list R -> list R := idtlz_obj 1 n_obj g_sphere (tr_angle 1).
Definition idtlz3 (n_var n_obj : nat) : list R -> list R := idtlz_obj 1 n_obj (g_rastrigin (k_of n_var n_obj)) (tr_angle 1).
Definition idtlz4 (n_var n_obj : nat) : list R -> list R := idtlz_obj 1 n_obj g_sphere (tr_angle 100).
Definition inverted_front (front : res (list (list R))) : res (list (list R)) :=
  do F <- front; Ok (map (map (fun a => / 2 - a)) F).
(** * eqdtlz.py 30-38 *)
Definition eq1 (n_obj : nat) (x : list R) : R := Rabs (sumf (fun a => (a - / 2) ^ 2) (firstn (n_obj - 1) x) - (0.4) ^ 2) - / 10 ^ 4.
