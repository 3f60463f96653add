(** Model of [ZDT3.get_pareto_front] with [flatten=False], /repo/hvd/problems/zdt.py 70-75. *)
From Coq Require Import List Arith Reals.
From Verif Require Import BenchModel.
Import ListNotations.
Open Scope R_scope.

(** lines 71-75: the blocks, one for each region; [np.stack] keeps them apart, and they all have
    the same number of rows ([n_points] not negative). *)
Definition zdt3_blocks (N : nat) : list (list (list R)) :=
  map (fun lh => map (fun t => let f := fst lh + t * (snd lh - fst lh) in [f; 1 - sqrt f - f * sin (10 * PI * f)])
                     (linspace01 (Nat.max 1 (N / length zdt3_regions)))) zdt3_regions.
