(** Model of hvd/rsg.py.  Real arithmetic instead of floating point. *)
From Coq Require Import List Arith Bool Reals ZArith.
From Verif Require Import Num Exn NewtonModel RefModel ProbModel.
Import ListNotations.
Open Scope R_scope.

(** lines 6-7 followed by [int]; [Int_part] is the floor *)
Definition matlab_round (x : R) : Z :=
  if rltb 0 x then Int_part (Rabs x + / 2) else if rltb x 0 then (- Int_part (Rabs x + / 2))%Z else 0%Z.

(** lines 10-32: [labels] is the answer of DBSCAN, one per point, -1 for noise *)
Fixpoint insert_lab (a : Z) (l : list Z) : list Z :=
  match l with [] => [a] | b :: t => if (a <? b)%Z then a :: l else if (a =? b)%Z then l else b :: insert_lab a t end.
(** [np.unique]: sorted without repetitions *)
Definition unique (l : list Z) : list Z := fold_right insert_lab [] l.
Definition pick_label (k : Z) (labels : list Z) (Py : list (list R)) : list (list R) :=
  map snd (filter (fun p => (fst p =? k)%Z) (combine labels Py)).
Definition components (labels : list Z) (Py : list (list R)) : list (list (list R)) :=
  map (fun k => pick_label k labels Py) (filter (fun k => negb (k =? -1)%Z) (unique labels)).

(** lines 84-85: stable sort by the first coordinate; rows have two coordinates (line 74) *)
Definition x0 (r : list R) : R := nth 0 r 0.
Fixpoint insert_row (r : list R) (l : list (list R)) : list (list R) :=
  match l with [] => [r] | q :: t => if rleb (x0 r) (x0 q) then r :: l else q :: insert_row r t end.
Definition ssort (l : list (list R)) : list (list R) := fold_right insert_row [] l.
(** lines 50-51 and 88-89 *)
Definition dist (p q : list R) : R := norm2 (map (fun ab => fst ab - snd ab) (combine q p)).
(** line 91: sum of the distances of consecutive points *)
Fixpoint path_length (P : list (list R)) : R :=
  match P with p :: ((q :: _) as t) => dist p q + path_length t | _ => 0 end.
Definition comp_length (X : list (list R)) : R := path_length (ssort X).

(** lines 43-45: drops a row equal to the one before it *)
Fixpoint row_eqb (p q : list R) : bool :=
  match p, q with [], [] => true | a :: p', b :: q' => reqb a b && row_eqb p' q' | _, _ => false end.
Fixpoint dedupe_from (p : list R) (l : list (list R)) : list (list R) :=
  match l with [] => [] | q :: t => if row_eqb p q then dedupe_from q t else q :: dedupe_from q t end.
Definition dedupe (l : list (list R)) : list (list R) := match l with [] => [] | p :: t => p :: dedupe_from p t end.
(** lines 52-53 *)
Fixpoint arc (c : R) (P : list (list R)) : list R :=
  match P with [] => [] | p :: t => c :: match t with q :: _ => arc (c + dist p q) t | [] => [] end end.
(** line 61, all columns at once: [np.interp] chooses the segment by [t] and [s] only *)
Fixpoint interp (t : R) (s : list R) (P : list (list R)) : list R :=
  match s, P with
  | s0 :: s', p :: P' =>
    match s', P' with
    | s1 :: _, q :: _ =>
      if rleb t s0 then p
      else if rltb t s1 then map (fun ab => fst ab + (snd ab - fst ab) / (s1 - s0) * (t - s0)) (combine p q)
      else interp t s' P'
    | _, _ => p
    end
  | _, _ => []
  end.
(** line 58; [n] points from 0 to [L], the only point is 0 for [n = 1] *)
Definition linspace (L : R) (n : nat) : list R :=
  map (fun i => if (n =? 1)%nat then 0 else INR i * (L / INR (n - 1))) (seq 0 n).
(** line 63: [I[0, :], I[-1, :] = P[0, :], P[-1, :]], assigned in this order *)
Definition set_first {A} (a : A) (l : list A) : res (list A) := match l with [] => Exn IndexError | _ :: t => Ok (a :: t) end.
Definition set_last {A} (a : A) (l : list A) : res (list A) := match l with [] => Exn IndexError | _ => Ok (removelast l ++ [a]) end.
(** lines 35-64; [qsort] is numpy's default argsort applied to the first column.  [L == 0] (lines 55-56) *)
Definition interpolate_tst (qsort : list (list R) -> list (list R)) (X : list (list R)) (Nf : Z) : res (list (list R)) :=
  let P := dedupe (qsort X) in
  if (Nf <? 0)%Z then Exn ValueError else
  let n := Z.to_nat Nf in
  match P with
  | p :: _ :: _ =>
    let L := path_length P in
    if reqb L 0 then Ok (repeat p n) else
    let rows := map (fun t => interp t (arc 0 P) P) (linspace L n) in
    do I1 <- set_first p rows;
    set_last (last P p) I1
  | [p] => Ok (repeat p n)
  | [] => Ok []
  end.
(** lines 68-113; [int] of NaN raises ValueError, an unbound [Fy] UnboundLocalError *)
Definition rsg (dbscan : list (list R) -> list Z) (qsort : list (list R) -> list (list R)) (num_obj : nat) (Py : list (list R)) (Nf : Z) : res (list (list R)) :=
  if (num_obj =? 2)%nat then
    let C := components (dbscan Py) Py in
    let len := map comp_length C in
    let total := fold_right Rplus 0 len in
    do parts <- mapM (fun cl => if reqb total 0 then Exn ValueError
                            else interpolate_tst qsort (fst cl) (matlab_round (IZR Nf * snd cl / total))) (combine C len);
    Ok (concat parts)
  else Exn UnboundLocalError.
