(** Model of /repo/scripts/utils.py, [read_reference_set_data] (lines 24-110). *)
From Coq Require Import List Arith Bool Reals ZArith.
From Verif Require Import Exn.
Import ListNotations.

(** The files of one run, [None] where [pd.read_csv] raises (missing, unreadable or empty file).
    [f_comp]: component ids (lines 39-41); [f_ref (Some (i+1))] / [f_ref None]: reference points of
    cluster i / of the only cluster (lines 53-58); [f_eta (i+1)]: shift direction, a NaN entry is
    [None] (lines 64-66); [f_x], [f_y], [f_lab]: final population and its labels (lines 79-83).
    Labels and ids are integers.  File names, [path], [run], [gen] are not modelled. *)
Record files : Type := mkFiles {
  f_comp : option (list (list Z));
  f_ref : option nat -> option (list (list R));
  f_eta : nat -> option (list (list (option R)));
  f_x : option (list (list R));
  f_y : option (list (list R));
  f_lab : option (list (list Z))
}.
(** the returned tuple: dictionaries are lists of (key, value) in the order of insertion *)
Record rdata : Type := mkRD {
  d_ref : list (nat * list (list R));
  d_x : list (list R);
  d_y : list (list R);
  d_idx : list (list nat);
  d_eta : option (list (nat * list (option R)))
}.

(** [np.unique]: the different values in increasing order *)
Fixpoint ins (z : Z) (l : list Z) : list Z :=
  match l with
  | [] => [z]
  | a :: t => if (z <? a)%Z then z :: l else if (z =? a)%Z then l else a :: ins z t
  end.
Definition unique (l : list Z) : list Z := fold_right ins [] l.
Definition lookup {V} (k : nat) (d : list (nat * V)) : option V :=
  match find (fun e => (fst e =? k)%nat) d with Some e => Some (snd e) | None => None end.
(** [df = pd.read_csv(...)] outside of [try] *)
Definition need {A} (o : option A) : res A := match o with Some a => Ok a | None => Exn FileNotFoundError end.

Section Sampling.
(** [np.array(random.sample(r.tolist(), 3000))] for cluster i *)
Variable sample : nat -> list (list R) -> list (list R).
Variable fs : files.

(** lines 46-71, body of the loop; line 47 tests [11 < 2], so lines 48-51 are never executed *)
Definition load_one (n i : nat) (ref : list (nat * list (list R))) (eta : option (list (nat * list (option R))))
    : res (list (nat * list (list R)) * option (list (nat * list (option R)))) :=
  match f_ref fs (if (n =? 1)%nat then None else Some (S i)) with
  | None => Ok (ref, eta)
  | Some r =>
      let ref' := ref ++ [(i, if (3000 <=? length r)%nat then sample i r else r)] in
      match f_eta fs (S i), eta with
      | Some e, Some d => Ok (ref', Some (d ++ [(i, concat e)]))
      | _, _ =>
          if (0 <? i)%nat then
            match eta with
            | None => Exn TypeError
            | Some d => match lookup (i - 1) d with
                        | None => Exn KeyError
                        | Some e => Ok (ref', Some (d ++ [(i, e)]))
                        end
            end
          else Ok (ref', None)
      end
  end.
Fixpoint load (n : nat) (l : list nat) (ref : list (nat * list (list R))) (eta : option (list (nat * list (option R))))
    : res (list (nat * list (list R)) * option (list (nat * list (option R)))) :=
  match l with
  | [] => Ok (ref, eta)
  | i :: t => do re <- load_one n i ref eta; load n t (fst re) (snd re)
  end.
(** lines 74-76 *)
Definition isnan (o : option R) : bool := match o with None => true | _ => false end.
Definition drop_nan (eta : option (list (nat * list (option R)))) : option (list (nat * list (option R))) :=
  match eta with
  | Some d => if existsb (fun e => existsb isnan (snd e)) d then None else Some d
  | None => None
  end.

(** boolean mask on rows (lines 86-89) *)
Fixpoint mask {A} (m : list bool) (l : list A) : res (list A) :=
  match m, l with
  | [], [] => Ok []
  | b :: m', a :: l' => do t <- mask m' l'; Ok (if b then a :: t else t)
  | _, _ => Exn IndexError
  end.
(** [np.vstack]: the arrays must have the same number of columns *)
Definition vstack (ls : list (list (list R))) : res (list (list R)) :=
  match concat ls with
  | [] => Exn ValueError
  | r :: t => if forallb (fun q => (length q =? length r)%nat) t then Ok (r :: t) else Exn ValueError
  end.
(** [np.min]/[np.max] of a list of counts *)
Definition min_count (l : list nat) : res nat := match l with [] => Exn ValueError | a :: t => Ok (fold_right Nat.min a t) end.
Definition max_count (l : list nat) : res nat := match l with [] => Exn ValueError | a :: t => Ok (fold_right Nat.max a t) end.

(** lines 39-42 *)
Definition n_cluster : res nat :=
  do t <- need (f_comp fs);
  match t with [] => Exn IndexError | row :: _ => Ok (length (unique row)) end.
(** line 109 *)
Definition groups (lab : list Z) : list (list nat) :=
  map (fun z => filter (fun j => (nth j lab 0 =? z)%Z) (seq 0 (length lab))) (unique lab).
(** lines 39-110 *)
Definition read_data : res rdata :=
  do n <- n_cluster;
  do re <- load n (seq 0 n) [] (Some []);
  let (ref, eta0) := re in
  let eta := drop_nan eta0 in
  do x0 <- need (f_x fs);
  do y0 <- need (f_y fs);
  do lb <- need (f_lab fs);
  let lab := map (fun z => (z - 1)%Z) (concat lb) in
  let m := map (fun z => negb (z =? -2)%Z && negb (z =? -1)%Z) lab in
  do x <- mask m x0;
  do y <- mask m y0;
  do lab' <- mask m lab;
  do mn <- min_count (map (fun e => length (snd e)) ref);
  do mx <- max_count (map (fun z => count_occ Z.eq_dec lab' z) (unique lab'));
  if (length ref <? length (unique lab'))%nat || (mn <? mx)%nat then
    do all <- vstack (map snd ref);
    let ref' := [(0%nat, all)] in
    let lab0 := repeat 0%Z (length y) in
    if (length all <? length y)%nat then
      let k := length ref' in
      Ok (mkRD ref' (firstn k x) (firstn k y) (groups (firstn k lab0)) None)
    else Ok (mkRD ref' x y (groups lab0) None)
  else Ok (mkRD ref x y (groups lab') eta).
End Sampling.
