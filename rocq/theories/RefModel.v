(** Model of /repo/hvd/reference_set.py, class ReferenceSet. *)
From Coq Require Import List Arith Bool Reals.
From Verif Require Import Num Exn StateModel NewtonModel.
Import ListNotations.
Open Scope R_scope.

(** The object.  [_ref], [eta] and [_medoids] are dictionaries with the keys 0, 1, ...;
    [rs_medoids] has [None] for components without medoids (line 38); [rs_matched] is
    [None] as long as the attribute [_matched_medoids] does not exist, else it holds
    [_matched_medoids] and [_medoids_idx].  Plotting (line 78) is left out. *)
Record refset : Type := mkRS {
  rs_ref : list (list (list R));
  rs_eta : list (list R);
  rs_Yidx : option (list (list nat));
  rs_rematch : bool;
  rs_medoids : list (option (list (list R)));
  rs_matched : option (list (list R) * list (option (nat * nat)))
}.
(** lines 28-39; the shift directions are given (computed by [compute_chim] otherwise) *)
Definition new_refset (ref : list (list (list R))) (eta : list (list R)) (Yidx : option (list (list nat))) : res refset :=
  match ref with
  | [] => Exn KeyError
  | _ => Ok (mkRS ref eta Yidx true (map (fun _ => None) ref) None)
  end.
(** lines 42-51 *)
Definition reference_set (s : refset) : list (list R) :=
  match rs_matched s with Some (M, _) => M | None => concat (rs_ref s) end.

Section External.
(** [scipy.optimize.linear_sum_assignment]: (row_ind, col_ind) *)
Variable lsa : list (list R) -> res (list nat * list nat).
(** [scipy.spatial.distance.directed_hausdorff(u, v)[0]] *)
Variable hausdorff : list (list R) -> list (list R) -> res R.
(** [KMedoids(n_clusters=k, ...).fit(component).medoid_indices_] *)
Variable kmedoids : list (list R) -> nat -> res (list nat).

Fixpoint mapM {A B} (f : A -> res B) (l : list A) : res (list B) :=
  match l with [] => Ok [] | a :: t => do b <- f a; do bs <- mapM f t; Ok (b :: bs) end.
Definition nth_res {A} (e : exn) (l : list A) (i : nat) : res A :=
  match nth_error l i with Some a => Ok a | None => Exn e end.

(** lines 103-134 [_partition_Y]: the index sets and the parts *)
Fixpoint argmin_from (best : R) (k i : nat) (l : list R) : nat :=
  match l with [] => k | a :: t => if rltb a best then argmin_from a i (S i) t else argmin_from best k (S i) t end.
Definition argminR (l : list R) : nat := match l with [] => 0%nat | a :: t => argmin_from a 0 1 t end.
Definition label (ref : list (list (list R))) (y : list R) : res nat :=
  do d <- mapM (fun comp => list_minR (map (fun r => dist2 r y) comp)) ref;
  Ok (argminR d).
Definition partition_Y (s : refset) (Y : list (list R)) : res (list (list nat) * list (list (list R))) :=
  let n := length (rs_ref s) in
  if (n =? 1)%nat then Ok ([seq 0 (length Y)], [Y])
  else
    do ix <- match rs_Yidx s with
             | Some ix => Ok ix
             | None =>
                 do labels <- mapM (label (rs_ref s)) Y;
                 Ok (map (fun i => filter (fun j => (nth j labels n =? i)%nat) (seq 0 (length Y))) (seq 0 n))
             end;
    do parts <- mapM (take_rows Y) ix;
    Ok (ix, parts).

(** lines 136-147 [_match_components] *)
Definition match_components (ref : list (list (list R))) (parts : list (list (list R))) : res (list nat) :=
  let n := length ref in
  let m := length parts in
  if (n <? m)%nat then Exn AssertionError
  else if (n =? 1)%nat && (m =? 1)%nat then Ok [0%nat]
  else
    do cost <- mapM (fun r => mapM (hausdorff r) parts) ref;
    do rc <- lsa cost;
    Ok (snd rc).

(** lines 149-161 [_cluster] *)
Definition cluster (comp : list (list R)) (k : nat) : res (list (list R)) :=
  if (length comp =? k)%nat then Ok comp
  else do ix <- kmedoids comp k; take_rows comp ix.

(** lines 163-166 [_match] *)
Definition cdist (A B : list (list R)) : list (list R) := map (fun a => map (dist2 a) B) A.
Definition match_rows (X Y : list (list R)) : res (list (list R)) :=
  do rc <- lsa (cdist Y X);
  take_rows X (snd rc).

(** [out[ix] = rows] *)
Fixpoint set_rows {A} (l : list A) (ix : list nat) (rows : list A) : res (list A) :=
  match ix, rows with
  | i :: ix', x :: rows' => do l' <- put_row i x l; set_rows l' ix' rows'
  | _, _ => Ok l
  end.

(** lines 67-70: the medoids to match *)
Definition medoids_for (old : option (list (list R))) (comp : list (list R)) (k : nat) : res (list (list R)) :=
  match old with
  | Some M => if (length M =? k)%nat then Ok M else cluster comp k
  | None => cluster comp k
  end.
(** lines 63-76 *)
Fixpoint match_loop (ref : list (list (list R))) (ix : list (list nat)) (parts : list (list (list R)))
    (k : nat) (vs : list nat) (out : list (list R)) (mi : list (option (nat * nat))) (med : list (option (list (list R))))
    : res (list (list R) * list (option (nat * nat)) * list (option (list (list R)))) :=
  match vs with
  | [] => Ok (out, mi, med)
  | v :: vs' =>
      do Yv <- nth_res IndexError parts v;
      do comp <- nth_res KeyError ref k;
      if (length comp <? length Yv)%nat then Exn AssertionError else
      do X <- medoids_for (nth k med None) comp (length Yv);
      do M <- match_rows X Yv;
      do iv <- nth_res IndexError ix v;
      do out' <- set_rows out iv M;
      do mi' <- set_rows mi iv (map (fun i => Some (k, i)) (seq 0 (length iv)));
      match_loop ref ix parts (S k) vs' out' mi' (set_row k (Some M) med)
  end.
(** lines 53-79 [match]; [n_obj] is the number of columns of the first component *)
Definition match_Y (n_obj : nat) (s : refset) (Y : list (list R)) : res refset :=
  match rs_rematch s, rs_matched s with
  | false, Some _ => Ok s
  | _, _ =>
    do ixp <- partition_Y s Y;
    let (ix, parts) := ixp in
    let N := fold_right Nat.add 0%nat (map (@length _) parts) in
    do vs <- match_components (rs_ref s) parts;
    do r <- match_loop (rs_ref s) ix parts 0 vs (repeat (repeat 0 n_obj) N) (repeat None N) (rs_medoids s);
    let '(out, mi, med) := r in
    Ok (mkRS (rs_ref s) (rs_eta s) (Some ix) (rs_rematch s) med (Some (out, mi)))
  end.
End External.

(** lines 81-101 [shift] and [set_medoids]; indices are not negative *)
Definition add_vec (a b : list R) : list R := zip_with Rplus a b.
Definition scale (c : R) (v : list R) : list R := map (Rmult c) v.
Definition shift_one (c : R) (eta : list (list R)) (mi : list (option (nat * nat)))
    (Mm : list (list R) * list (option (list (list R)))) (k : nat) : res (list (list R) * list (option (list (list R)))) :=
  let (M, med) := Mm in
  do e <- nth_res IndexError mi k;
  match e with
  | None => Exn TypeError
  | Some (comp, i) =>
      do et <- nth_res KeyError eta comp;
      do row <- nth_res IndexError M k;
      let row' := add_vec row (scale c et) in
      do mc <- nth_res KeyError med comp;
      match mc with
      | None => Exn TypeError
      | Some L => do L' <- put_row i row' L; Ok (set_row k row' M, set_row comp (Some L') med)
      end
  end.
Fixpoint foldM {A B} (f : A -> B -> res A) (l : list B) (a : A) : res A :=
  match l with [] => Ok a | b :: t => do a' <- f a b; foldM f t a' end.
Definition shift_ref (s : refset) (c : R) (indices : option (list nat)) : res refset :=
  match rs_matched s with
  | Some (M, mi) =>
      let ks := match indices with Some l => l | None => seq 0 (length M) end in
      do Mm <- foldM (shift_one c (rs_eta s) mi) ks (M, rs_medoids s);
      Ok (mkRS (rs_ref s) (rs_eta s) (rs_Yidx s) (rs_rematch s) (snd Mm) (Some (fst Mm, mi)))
  | None =>
      do ref' <- mapM (fun ke => do et <- nth_res KeyError (rs_eta s) (fst ke); Ok (map (fun r => add_vec r (scale c et)) (snd ke)))
                      (combine (seq 0 (length (rs_ref s))) (rs_ref s));
      Ok (mkRS ref' (rs_eta s) (rs_Yidx s) (rs_rematch s) (rs_medoids s) None)
  end.
