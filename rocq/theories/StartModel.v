(** Model of how HVN, DpN and MMDNewton start without an initial population (/repo/hvd/newton.py 83-113,
    409-439 and /repo/hvd/mmd_newton.py 116-146): the numbers of constraints are found by evaluating the
    constraints at a random point, and the points are drawn at random in the box.  The random numbers are
    parameters.  A bound that is NaN is not modelled. *)
From Coq Require Import List Arith Bool Reals.
From Verif Require Import Num Exn StateModel NewtonModel RefModel MMDModel IterModel HvnModel MnModel.
Import ListNotations.
Open Scope R_scope.

(** newton.py 87, 111, 413, 437; mmd_newton.py 120, 144: [rand * (xu - xl) + xl], for one row of random
    numbers; generic, so that it is also a model of the computation with doubles *)
Definition sample_row {T} {NT : Num T} (xl xu u : list T) : list T :=
  zip_with nadd (zip_with nmul u (zip_with nsub xu xl)) xl.

(** one bound, [np.inf] and [-np.inf] included *)
Inductive ext : Type := Real (x : R) | Infinite (negative : bool).
(** newton.py 110, 436; mmd_newton.py 143: [all(~np.isinf(b))]; the bounds as numbers *)
Fixpoint real_bounds (b : list ext) : option (list R) :=
  match b with
  | [] => Some []
  | Real x :: t => match real_bounds t with Some l => Some (x :: l) | None => None end
  | Infinite _ :: _ => None
  end.

(** newton.py 107-111, 433-437; mmd_newton.py 140-144.  [N] is the argument of the constructor and
    [rand n d] the answer of [np.random.rand(n, d)] *)
Definition sampled (rand : nat -> nat -> list (list R)) (N : option nat) (dim_p : nat) (xl xu : list ext) : res (list (list R)) :=
  match N with
  | None => Exn AssertionError
  | Some n =>
      match real_bounds xl, real_bounds xu with
      | Some l, Some u => Ok (map (sample_row l u) (rand n dim_p))
      | _, _ => Exn AssertionError
      end
  end.

(** newton.py 83-95, 409-421; mmd_newton.py 116-128 [_check_constraints]: the value of a constraint
    function is an [int] or a [float] (NumPy's float64 is one), something with a length, or an array
    without dimensions (as the functions of JAX return numbers), which has no [len].  [u] are the random
    numbers of the trial point.  The result is [n_eq], [n_ieq], [_constrained]. *)
Inductive answer : Type := Number | Vector (n : nat) | ZeroDim.
Definition count_of (v : answer) : res nat :=
  match v with Number => Ok 1%nat | Vector n => Ok n | ZeroDim => Exn TypeError end.
Definition count_opt (f : option (list R -> answer)) (x : list R) : res nat :=
  match f with None => Ok 0%nat | Some f => count_of (f x) end.
Definition check_constraints (h g : option (list R -> answer)) (xl xu u : list R) : res (nat * nat * bool) :=
  let x := sample_row xl xu u in
  do ne <- count_opt h x;
  do ni <- count_opt g x;
  Ok (ne, ni, match h, g with None, None => false | _, _ => true end).

(** newton.py 113-114: the dual variables are 1/N *)
Definition hvn_start (V : hvn_cfg) (rand : nat -> nat -> list (list R)) (N : option nat) : res hvn :=
  do X <- sampled rand N (vdim_p V) (map Real (v_xl V)) (map Real (v_xu V));
  do s <- vupd V init (map (fun x => x ++ repeat (/ INR (match N with Some n => n | None => 0%nat end)) (vdim_d V)) X);
  Ok (mkHvn s 0 None [] [] [] [] [] [] []).
(** newton.py 439-440: they are 0 *)
Definition dpn_start (K : dpn_cfg) (rs : refset) (rand : nat -> nat -> list (list R)) (N : option nat) : res dpn :=
  do X <- sampled rand N (dim_p K) (map Real (k_xl K)) (map Real (k_xu K));
  do s <- upd K init (map (fun x => x ++ repeat 0 (dim_d K)) X);
  Ok (mkDpn s rs 0 0 0 [] [] [] [] [] [] [] []).
(** mmd_newton.py 146-147: they are 0 *)
Definition mn_start (M : mn_cfg) (rs : refset) (rand : nat -> nat -> list (list R)) (N : option nat) : res mn :=
  let K := n_base M in
  do X <- sampled rand N (dim_p K) (map Real (k_xl K)) (map Real (k_xu K));
  do s <- upd K init (map (fun x => x ++ repeat 0 (dim_d K)) X);
  Ok (mkMn s rs (new_mmdm 0.25) 0 None [] [] None [] [] [] [] []).
