(** Exceptions as values.  [Exn] carries the Python exception class raised. *)
From Coq Require Import List.

Inductive exn : Type :=
| AssertionError | ValueError | IndexError | TypeError | KeyError
| AttributeError | RuntimeError | UnboundLocalError | FileNotFoundError | EOFError | ZeroDivisionError
| OutOfFuel.   (* not a Python exception: the model's recursion bound was hit *)

Inductive res (A : Type) : Type :=
| Ok (a : A)
| Exn (e : exn).
Arguments Ok {A} a.
Arguments Exn {A} e.

Definition bind {A B} (r : res A) (f : A -> res B) : res B :=
  match r with Ok a => f a | Exn e => Exn e end.

Notation "'do' x <- r ; k" := (bind r (fun x => k))
  (at level 200, x pattern, r at level 100, k at level 200).

Definition is_ok {A} (r : res A) : bool :=
  match r with Ok _ => true | Exn _ => false end.
