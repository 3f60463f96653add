(** Specification of the bootstrapping. *)
From Coq Require Import List Arith Bool ZArith Reals.
From Verif Require Import Exn NewtonModel RefModel BootModel.
Import ListNotations.
Open Scope R_scope.

(** y is at least as good as z everywhere, or better everywhere *)
Definition weakly_better (y z : list R) : Prop := Forall2 Rle y z.
Definition better (y z : list R) : Prop := Forall2 Rlt y z.
(** i is a bootstrapping iteration *)
Definition boot_time (interval : Z) (i : nat) : Prop := (0 < i)%nat /\ (interval | Z.of_nat i)%Z.
(** row j of the population is not weakly dominated by another row *)
Definition efficient (Y : list (list R)) (j : nat) : Prop :=
  (j < length Y)%nat /\ forall k, (k < length Y)%nat -> k <> j -> ~ weakly_better (nth k Y []) (nth j Y []).
(** the weight of the spread term after k discounts *)
Definition discounted (b : R) (k : nat) : R := b * 0.8 ^ k.

(** one bootstrapping: [ref] is the new set before the shift, [o'] the optimizer with the shifted set
    after its matching and with the discounted weight *)
Definition rebooted (rsg : list (list R) -> nat -> Exn.res (list (list R))) (chim : list (list R) -> Exn.res (list R))
    (compute : refset -> list (list R) -> Exn.res refset) (N : nat) (with_rsg : bool) (o : opt) (ref : list (list R)) (o' : opt) : Prop :=
  (if with_rsg then rsg (map relax (o_Y o)) N = Exn.Ok ref else ref = map relax (o_Y o)) /\
  o_X o' = o_X o /\ o_Y o' = o_Y o /\
  (exists b, o_ind o = WithBeta b /\ o_ind o' = WithBeta (b * 0.8)) /\
  exists eta rs, chim ref = Exn.Ok eta /\
    rs_ref rs = [map (fun r => zip_with Rplus r (map (Rmult 0.05) eta)) ref] /\ rs_eta rs = [eta] /\ rs_Yidx rs = None /\ rs_matched rs = None /\
    compute rs (o_Y o) = Exn.Ok (o_ref o').
(** [t i] is the optimizer before iteration [i] and [r i] the set made in it *)
Definition trajectory (newton : opt -> Exn.res opt) (boot : opt -> list (list R) -> opt -> Prop) (interval : Z) (n : nat)
    (t : nat -> opt) (r : nat -> list (list R)) : Prop :=
  forall i, (i < n)%nat -> exists o, newton o = Exn.Ok (t (S i)) /\
    ((boot_time interval i /\ boot (t i) (r i) o) \/ (~ boot_time interval i /\ o = t i)).
(** as many points as values, all values of the same dimension *)
Definition wf_pop (m : nat) (o : opt) : Prop := length (o_X o) = length (o_Y o) /\ forall y, In y (o_Y o) -> length y = m.
(** iteration i is in the window of the last [last_n] of n iterations (all for 0; without the first
    -last_n for a negative number) *)
Definition in_window (last_n : Z) (n i : nat) : Prop :=
  (i < n)%nat /\ ((0 < last_n)%Z -> (Z.of_nat n - last_n <= Z.of_nat i)%Z) /\ ((last_n <= 0)%Z -> (- last_n <= Z.of_nat i)%Z).
