(** Model of the set-up of ConstraintAwareMOEAD and of the replacement in the population
    (/repo/hvd/moea/moead.py 28-36, 50-65), around the comparison [replaced] of MoeaModel. *)
From Coq Require Import List Arith Bool Reals.
From Verif Require Import Exn NewtonModel RefModel MoeaModel.
Import ListNotations.
Open Scope R_scope.

(** lines 32-34: the distances of the reference directions, one [np.argsort] per row (its order of equal
    distances is open, [kind="quicksort"]), and the first [n_neighbors] columns *)
Definition neighbors (argsort : list R -> list nat) (n_neighbors : nat) (W : list (list R)) : list (list nat) :=
  map (fun row => firstn n_neighbors (argsort row)) (cdist W W).

(** lines 28-36 [_setup]; [default_dirs] and [default_decomp] are the answers of pymoo's functions for
    the problem; [D] is the type of the decompositions *)
Record moead {D : Type} : Type := mkMoead { md_dirs : list (list R); md_size : nat; md_nb : list (list nat); md_dec : D }.
Arguments moead : clear implicits.
Definition setup {D} (argsort : list R -> list nat) (n_neighbors : nat) (default_dirs : list (list R)) (default_decomp : D)
    (ref_dirs : option (list (list R))) (decomposition : option D) : moead D :=
  let W := match ref_dirs with Some W => W | None => default_dirs end in
  mkMoead D W (length W) (neighbors argsort n_neighbors W) (match decomposition with Some d => d | None => default_decomp end).

(** line 65: [pop[I] = off] *)
Definition put {A} (x : A) (l : list A) (i : nat) : list A :=
  map (fun q => if (fst q =? i)%nat then x else snd q) (combine (seq 0 (length l)) l).
Definition put_all {A} (x : A) (I : list nat) (l : list A) : list A := fold_left (put x) I l.
(** reading [pop[N]] and [ref_dirs[N]] *)
Fixpoint take_rows {A} (l : list A) (N : list nat) : res (list A) :=
  match N with
  | [] => Ok []
  | i :: t => match nth_error l i with None => Exn IndexError | Some a => do r <- take_rows l t; Ok (a :: r) end
  end.
(** lines 50-65 [_replace]; the decomposition maps objective values and a weight vector to a number
    ([dec], for the current ideal point); [eps] is [_cv_eps()] *)
Definition replace_ (dec : list R -> list R -> R) (constrained : bool) (eps : R) (W : list (list R)) (nb : list (list nat))
    (pop : list indiv) (k : nat) (off : indiv) : res (list indiv) :=
  match nth_error nb k with
  | None => Exn IndexError
  | Some N =>
      do P <- take_rows pop N;
      do w <- take_rows W N;
      do Ix <- replaced constrained eps N (zip_with (fun p w => dec (i_f p) w) P w) (map (dec (i_f off)) w) (map i_cv P) (i_cv off);
      Ok (put_all off Ix pop)
  end.
(** a sequence of offspring, for one tolerance and one ideal point *)
Fixpoint replaces (dec : list R -> list R -> R) (constrained : bool) (eps : R) (W : list (list R)) (nb : list (list nat))
    (pop : list indiv) (steps : list (nat * indiv)) : res (list indiv) :=
  match steps with
  | [] => Ok pop
  | (k, off) :: t => do pop' <- replace_ dec constrained eps W nb pop k off; replaces dec constrained eps W nb pop' t
  end.
