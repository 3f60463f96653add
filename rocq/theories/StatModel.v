(** Model of the tables of /repo/scripts/compute_statistics_ICML.py and of the rows the benchmark scripts
    write for runs that raise an exception. *)
From Coq Require Import List Arith Bool Reals.
From Verif Require Import ExModel Ex2Model.
Import ListNotations.
Open Scope R_scope.

(** benchmark_DpN2.py 81-110, benchmark_Lara.py 79-103: the values (IGD, GD) of a run, 0 for a run that raises
    an exception ([None]); the number of Jacobian calls is left out *)
Definition run_row (r : option (R * R)) : R * R := match r with Some v => v | None => (0, 0) end.
(** compute_statistics_ICML.py 46-51: [np.maximum(GD, IGD)] *)
Definition deltap (r : R * R) : R := Rmax (snd r) (fst r).
Definition results (runs : list (option (R * R))) : list R := map (fun r => deltap (run_row r)) runs.

(** the values of the four methods on a problem: MMD, DpN, Lara, MOEA alone *)
Record entry : Type := mkEntry { e_x : list R; e_y : list R; e_z : list R; e_c : list R }.
(** lines 64-98: a comparison; [x > y] is a win *)
Definition tally_gt (rej : list bool) (rows : list (R * R)) : nat * nat * nat :=
  fold_left (fun c p => let '(win, tie, loose) := c in let '(r, (x, y)) := p in
    if r : bool then (if rleb x y then (win, tie, S loose) else (S win, tie, loose)) else (win, S tie, loose)) (combine rej rows) (O, O, O).
(** lines 37-98; [mw]: p-value of [mannwhitneyu], [bh]: decisions of [multipletests]; line 63 uses [pvalues13] again,
    [pvalues14] (line 57) is not used; the median of no values is not a number in numpy *)
Definition icml (mw : list R -> list R -> R) (bh : list R -> list bool) (data : list entry) : (nat * nat * nat) * (nat * nat * nat) * (nat * nat * nat) :=
  let pvalues12 := map (fun e => mw (e_x e) (e_y e)) data in
  let pvalues13 := map (fun e => mw (e_x e) (e_z e)) data in
  let reject1 := bh pvalues12 in
  let reject2 := bh pvalues13 in
  let reject3 := bh pvalues13 in
  (tally_gt reject1 (map (fun e => (median (e_x e), median (e_y e))) data),
   tally_gt reject2 (map (fun e => (median (e_x e), median (e_z e))) data),
   tally_gt reject3 (map (fun e => (median (e_x e), median (e_c e))) data)).
