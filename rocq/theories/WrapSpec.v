(** Feasible sets, and evaluation of a pymoo problem by pymoo itself. *)
From Coq Require Import String List Arith Reals ZArith.
From Verif Require Import Exn WrapModel.
Import ListNotations.
Open Scope R_scope.

Definition in_box (xl xu x : list R) : Prop := Forall2 Rle xl x /\ Forall2 Rle x xu.
(** the value stored under [key] for one point, when pymoo evaluates its problem *)
Definition pymoo_value (p : pymoo) (key : string) (x : list R) (v : list R) : Prop :=
  exists r out m, py_eval p (if py_elementwise p then Vec x else Mat [x]) = Ok (r, out) /\ lookup key out = Ok m /\ v = concat m.
Definition nonpositive (v : list R) : Prop := Forall (fun c => c <= 0) v.
Definition zero (v : list R) : Prop := Forall (fun c => c = 0) v.
(** [x] satisfies the constraints of the problem of pymoo, without the box *)
Definition py_feasible (p : pymoo) (x : list R) : Prop :=
  ((0 < py_nieq p)%Z -> exists g, pymoo_value p "G" x g /\ nonpositive g) /\
  ((0 < py_neq p)%Z -> exists h, pymoo_value p "H" x h /\ zero h).
(** [x] satisfies the constraints of the problem of this package *)
Definition nat_feasible (m : native) (x : list R) : Prop :=
  ((0 < n_ieq m)%Z -> exists g, ieq_values m x = Ok g /\ nonpositive g) /\
  ((0 < n_eq m)%Z -> exists h, eq_values m x = Ok h /\ zero h).
