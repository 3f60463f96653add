(** Specification of the data read for a benchmark run: inliers, groups, components. *)
From Coq Require Import List Arith Bool Reals ZArith Sorting.Sorted.
From Verif Require Import Exn RdModel.
Import ListNotations.

(** positions of the points with a label other than 0 and -1 *)
Definition inliers (L : list Z) : list nat :=
  filter (fun p => negb (nth p L 0 =? 0)%Z && negb (nth p L 0 =? -1)%Z) (seq 0 (length L)).
Definition at_rows (ps : list nat) (X : list (list R)) : list (list R) := map (fun p => nth p X []) ps.
(** what is assumed of [random.sample]: rows at 3000 different positions *)
Definition sample_ok (sample : nat -> list (list R) -> list (list R)) : Prop :=
  forall i r, 3000 <= length r -> exists ix, NoDup ix /\ length ix = 3000 /\ (forall j, In j ix -> j < length r) /\ sample i r = at_rows ix r.
(** the file with the reference points of cluster [i] of [n] *)
Definition ref_table (fs : files) (n i : nat) : option (list (list R)) := f_ref fs (if n =? 1 then None else Some (S i)).
(** readable tables have at least one row *)
Definition has_rows (fs : files) : Prop := forall k t, f_ref fs k = Some t -> t <> [].
(** at most 3000 rows of the table, all of them if there are fewer than 3000 *)
Definition thinned (t r : list (list R)) : Prop :=
  if 3000 <=? length t then length r = 3000 /\ exists ix, NoDup ix /\ length ix = 3000 /\ (forall j, In j ix -> j < length t) /\ r = at_rows ix t
  else r = t.
Definition keys {V} (d : list (nat * V)) : list nat := map fst d.
(** number of different component ids, if there is such a file *)
Definition ids (fs : files) (n : nat) : Prop := exists row t, f_comp fs = Some (row :: t) /\ n = length (unique row).
(** the population and its labels as they are in the files *)
Definition population (fs : files) (X Y : list (list R)) (L : list Z) : Prop :=
  f_x fs = Some X /\ f_y fs = Some Y /\ exists lb, f_lab fs = Some lb /\ L = concat lb.
Definition same_width (ls : list (list (list R))) : Prop := forall a b, In a (concat ls) -> In b (concat ls) -> length a = length b.
Definition size (ls : list (list (list R))) : nat := length (concat ls).
(** the clusters of [Y] fit into the components: not more clusters than components, none larger than a component *)
Definition fits (clusters : list (list nat)) (comps : list (list (list R))) : Prop :=
  length clusters <= length comps /\ forall g c, In g clusters -> In c comps -> length g <= length c.
(** shift direction of cluster [i]: its own file, else the one of the cluster before, and so on *)
Fixpoint direction (fs : files) (i : nat) : option (list (option R)) :=
  match f_eta fs (S i) with
  | Some e => Some (concat e)
  | None => match i with 0 => None | S j => direction fs j end
  end.
Definition readable (fs : files) (n i : nat) : bool := match ref_table fs n i with Some _ => true | None => false end.
Definition no_eta (fs : files) (i : nat) : Prop := f_eta fs (S i) = None.
(** the missing directions can be filled in *)
Definition fillable (fs : files) (n : nat) : Prop :=
  (forall j, readable fs n 0 = true -> no_eta fs 0 -> 0 < j < n -> readable fs n j = false) /\
  (forall i, S i < n -> readable fs n (S i) = true -> no_eta fs (S i) -> readable fs n i = true).
(** number of rows of the table of cluster [i], 0 if it cannot be read *)
Definition table_rows (fs : files) (n i : nat) : nat := match ref_table fs n i with Some t => length t | None => 0 end.
(** well-formed files: all tables there that are read outside of [try], labels for all points,
    some inlier, some readable component, tables with rows of one width *)
Definition well_formed (fs : files) (n : nat) : Prop :=
  ids fs n /\ (exists X Y L, population fs X Y L /\ length X = length L /\ length Y = length L /\ inliers L <> []) /\
  (exists i, i < n /\ readable fs n i = true) /\ has_rows fs /\
  (forall i j t u a b, ref_table fs n i = Some t -> ref_table fs n j = Some u -> In a t -> In b u -> length a = length b).
