(** Model of [filter_outliers] and [bootstrap_reference_set] of /repo/hvd/bootstrap.py.  Plotting and
    the csv files are left out ([plot], [save_reference_set] and [save_population] are false), and so is
    [problem], whose front is computed but used by the plots only.  The optimizer has a reference set object (DpN and MMDNewton;
    HVN has an array, whose [reference_set] raises at line 115). *)
From Coq Require Import List Arith Bool ZArith Reals.
From Verif Require Import Num Exn StateModel NewtonModel RefModel UtilsModel.
Import ListNotations.
Open Scope R_scope.

(** the attribute [indicator]: DpN has none, MMD has no [beta], MMDMatching has one *)
Inductive indicator : Type := NoIndicator | Plain | WithBeta (b : R).
(** what the function uses of the optimizer: [state.X], [state.Y], the object [ref], which is also
    [indicator.ref], and [indicator] *)
Record opt : Type := mkOpt { o_X : list (list R); o_Y : list (list R); o_ref : refset; o_ind : indicator }.

Section Bootstrap.
(** [newton_iteration] followed by [log]; the object [ref] is changed in place *)
Variable newton : opt -> res opt.
(** [RSG(Py=Y, Nf=N)], [compute_chim(ref)], the effect of [indicator.compute(Y)] on [ref] *)
Variable rsg : list (list R) -> nat -> res (list (list R)).
Variable chim : list (list R) -> res (list R).
Variable compute : refset -> list (list R) -> res refset.
(** [LocalOutlierFactor(n_neighbors=3).fit_predict(Y) == 1] *)
Variable lof : list (list R) -> res (list bool).
(** [KMedoids(n_clusters=N, ...).fit(Y).medoid_indices_] *)
Variable kmedoids : list (list R) -> nat -> res (list nat).

(** [X[idx == 1]] *)
Fixpoint pick {A} (mask : list bool) (l : list A) : list A :=
  match mask, l with b :: mask', a :: l' => if b then a :: pick mask' l' else pick mask' l' | _, _ => [] end.
Definition select {A} (mask : list bool) (l : list A) : res (list A) :=
  if (length mask =? length l)%nat then Ok (pick mask l) else Exn IndexError.
(** lines 74-83; the branch [11 < 2] is dead *)
Definition filter_outliers (X Y : list (list R)) : res (list (list R) * list (list R)) :=
  do idx <- get_non_dominated_idx (fun _ _ => false) true Y;
  do X1 <- take_rows X idx;
  do Y1 <- take_rows Y idx;
  do mask <- lof Y1;
  do X2 <- select mask X1;
  do Y2 <- select mask Y1;
  Ok (X2, Y2).

Variables (dim N : nat) (interval : Z) (with_rsg : bool).
(** lines 138-139, one row, with [alpha = 0.05] *)
Definition mean (y : list R) : R := fold_right Rplus 0 y / INR (length y).
Definition relax (y : list R) : list R := map (fun a => (1 - 0.05) * a + 0.05 * mean y) y.
(** lines 138-182: the new entry of [ref_list] and the optimizer *)
Definition reboot (o : opt) : res (list (list R) * opt) :=
  let Y := map relax (o_Y o) in
  do ref <- (if with_rsg then rsg Y N else Ok Y);
  do eta <- chim ref;
  do rs <- new_refset [map (fun r => add_vec r (scale 0.05 eta)) ref] [eta] None;
  match o_ind o with
  | NoIndicator => Exn AttributeError
  | i =>
      do rs' <- compute rs (o_Y o);
      match i with
      | WithBeta b => Ok (ref, mkOpt (o_X o) (o_Y o) rs' (WithBeta (b * 0.8)))
      | _ => Exn AttributeError
      end
  end.
(** line 136, evaluated from left to right *)
Definition due (i : nat) : bool := (Z.of_nat i mod interval =? 0)%Z && (0 <? i)%nat.
Record logs : Type := mkLogs { l_X : list (list (list R)); l_Y : list (list (list R)); l_ref : list (list (list R)) }.
(** lines 126-186, [k] iterations from the number [i] on *)
Fixpoint loop (k i : nat) (o : opt) (l : logs) : res (opt * logs) :=
  match k with
  | O => Ok (o, l)
  | S k' =>
      let X := l_X l ++ [map (firstn dim) (o_X o)] in
      let Y := l_Y l ++ [o_Y o] in
      if (interval =? 0)%Z then Exn ZeroDivisionError
      else if due i then
        do ro <- reboot o;
        do o' <- newton (snd ro);
        loop k' (S i) o' (mkLogs X Y (l_ref l ++ [fst ro]))
      else
        do o' <- newton o;
        loop k' (S i) o' (mkLogs X Y (l_ref l))
  end.
(** [l[-n:]] *)
Definition last_slice {A} (n : Z) (l : list A) : list A :=
  if (n <=? 0)%Z then skipn (Z.to_nat (- n)) l else skipn (length l - Z.to_nat n) l.
(** lines 189-190; unpacking an empty list raises *)
Definition filtered (last_n : Z) (l : logs) : res (list (list (list R) * list (list R))) :=
  do f <- mapM (fun xy => filter_outliers (fst xy) (snd xy)) (combine (last_slice last_n (l_X l)) (last_slice last_n (l_Y l)));
  match f with [] => Exn ValueError | _ => Ok f end.
Record result : Type := mkResult { r_X : list (list R); r_Y : list (list R); r_ref : refset; r_list : list (list (list R)) }.
(** lines 86-196.  [max_iters = None] is the default [inf] of the optimizers.  The local name [ref] is
    bound to the object [optimizer.ref] by the first bootstrapping, and not bound before.  The
    optimizer, which is changed in place, is returned as well *)
Definition bootstrap (max_iters : option nat) (last_n : Z) (o : opt) : res (result * opt) :=
  match max_iters with
  | None => Exn TypeError
  | Some n =>
      do ol <- loop n 0 o (mkLogs [] [] []);
      let (o', l) := ol in
      do f <- filtered last_n l;
      let X := concat (map fst f) in
      let Y := concat (map snd f) in
      do ix <- kmedoids Y N;
      do X0 <- take_rows X ix;
      do Y0 <- take_rows Y ix;
      match l_ref l with
      | [] => Exn UnboundLocalError
      | _ => Ok (mkResult X0 Y0 (o_ref o') (l_ref l), o')
      end
  end.
End Bootstrap.
