(** Model of /repo/hvd/problems/_pymoo_wrapper.py and of [as_pymoo_problem], [from_pymoo] of
    /repo/hvd/problems/base.py. *)
From Coq Require Import String List Arith Bool Reals ZArith.
From Verif Require Import Num Exn NewtonModel ProbModel RefModel.
Import ListNotations.
Open Scope R_scope.

(** what [_evaluate] gets: pymoo passes one vector to elementwise problems and a matrix of points to the others *)
Inductive tensor : Type := Vec (x : list R) | Mat (X : list (list R)).
(** the dictionary [out]: every value is an array, given by its rows *)
Definition dict := list (string * list (list R)).
(** a problem of pymoo.  [py_eval]: the value returned by [_evaluate] and the dictionary it fills.
    [py_trace]: the same on a JAX tracer of shape (1, n_var), where only exceptions, whether something
    is returned, and the keys matter.  An absent attribute [n_eq_constr] or [n_ieq_constr] is 0. *)
Record pymoo : Type := mkPy {
  py_nvar : nat; py_nobj : nat; py_xl : list R; py_xu : list R; py_neq : Z; py_nieq : Z;
  py_elementwise : bool;
  py_eval : tensor -> res (option (list (list R)) * dict);
  py_trace : res (bool * list string)
}.
(** a problem of this package: the constraint part is absent for a plain MOP *)
Record native : Type := mkNative {
  nat_nvar : nat; nat_nobj : nat; nat_xl : list R; nat_xu : list R;
  nat_objective : list R -> res (list R);
  nat_cstr : option cmop
}.

Fixpoint lookup {A} (key : string) (d : list (string * A)) : res A :=
  match d with [] => Exn KeyError | (k, v) :: t => if String.eqb k key then Ok v else lookup key t end.
(** _pymoo_wrapper.py 61-66 and [reshape(-1)] of 68-75 *)
Definition evaluate_key (p : pymoo) (key : string) (x : list R) : res (list R) :=
  do ro <- py_eval p (Mat [x]);
  match ro with
  | (Some m, []) => if String.eqb key "F" then Ok (concat m) else Exn KeyError
  | (_, out) => do m <- lookup key out; Ok (concat m)
  end.
(** [jax.eval_shape] of the same *)
Definition trace_key (p : pymoo) (key : string) : res unit :=
  do t <- py_trace p;
  match t with
  | (true, []) => if String.eqb key "F" then Ok tt else Exn KeyError
  | (_, keys) => if existsb (String.eqb key) keys then Ok tt else Exn KeyError
  end.
Definition traced (p : pymoo) (key : string) : res unit := match trace_key p key with Ok _ => Ok tt | Exn _ => Exn TypeError end.
(** lines 22-59.  The bounds are vectors of [n_var] numbers, so that only the counts of constraints
    can be rejected before the tracing *)
Definition backed (p : pymoo) (boundary : bool) : res native :=
  do c <- new_cmop (py_nvar p) (py_xl p) (py_xu p) (py_neq p) (py_nieq p) boundary (evaluate_key p "H") (evaluate_key p "G");
  do _ <- traced p "F";
  do _ <- (if (0 <? py_nieq p)%Z then traced p "G" else Ok tt);
  do _ <- (if (0 <? py_neq p)%Z then traced p "H" else Ok tt);
  Ok (mkNative (py_nvar p) (py_nobj p) (py_xl p) (py_xu p) (evaluate_key p "F") (Some c)).

(** base.py 124-136 with [cls = MOP] *)
Inductive object : Type := OMop (m : native) | OPymoo (p : pymoo) | OOther.
Definition from_pymoo (o : object) (boundary : bool) : res native :=
  match o with OMop m => Ok m | OPymoo p => backed p boundary | OOther => Exn TypeError end.

(** lines 86-113 and base.py 118-122 [as_pymoo_problem]: [np.atleast_2d] of a tracer raises
    TracerArrayConversionError, a TypeError; the adapter is not an elementwise problem *)
Definition n_eq (m : native) : Z := match nat_cstr m with Some c => c_neq c | None => 0%Z end.
Definition n_ieq (m : native) : Z := match nat_cstr m with Some c => c_nieq c | None => 0%Z end.
Definition eq_values (m : native) (x : list R) : res (list R) := match nat_cstr m with Some c => eq_constraint c x | None => Exn AttributeError end.
Definition ieq_values (m : native) (x : list R) : res (list R) := match nat_cstr m with Some c => ieq_constraint c x | None => Exn AttributeError end.
Definition adapter_eval (m : native) (t : tensor) : res (option (list (list R)) * dict) :=
  let X := match t with Vec x => [x] | Mat X => X end in
  do F <- mapM (nat_objective m) X;
  do H <- (if (0 <? n_eq m)%Z then do h <- mapM (eq_values m) X; Ok [("H"%string, h)] else Ok []);
  do G <- (if (0 <? n_ieq m)%Z then do g <- mapM (ieq_values m) X; Ok [("G"%string, g)] else Ok []);
  Ok (None, ("F"%string, F) :: H ++ G).
Definition adapter (o : object) : res pymoo :=
  match o with
  | OMop m => Ok (mkPy (nat_nvar m) (nat_nobj m) (nat_xl m) (nat_xu m) (n_eq m) (n_ieq m) false (adapter_eval m) (Exn TypeError))
  | _ => Exn TypeError
  end.
