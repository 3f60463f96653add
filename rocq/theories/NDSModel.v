(** Model of the non-dominated sorting of /repo/hvd/utils.py (lines 303-752). *)
From Coq Require Import List Arith Bool.
From Verif Require Import Num Exn.
Import ListNotations.

Section NDS.
Context {T : Type} `{Num T}.

(** utils.py 318-327: the loop of [is_dominate]; the flag [one] is
    [is_one_value_less], the early [return]/[break] of line 325-326 gives [false]. *)
Fixpoint is_dominate_loop (l r : list T) (one : bool) : bool :=
  match l, r with
  | x :: l', y :: r' =>
      if nltb x y then is_dominate_loop l' r' true
      else if nltb y x then false
      else is_dominate_loop l' r' one
  | _, _ => one
  end.

(** utils.py 303-327 [is_dominate], including the assertion of line 316. *)
Definition is_dominate (l r : list T) : res bool :=
  if Nat.eqb (length l) (length r) then Ok (is_dominate_loop l r false)
  else Exn AssertionError.

(** The values [seq_objs_front[i]["objs"][k]].  [seq_objs_front] (a list of
    dictionaries with a constant entry "objs" and a mutable entry "front",
    utils.py 728) is modelled by a constant table [Ob] and a mutable table [F].
    Out-of-range accesses cannot occur (all index lists contain indices of [Ob]). *)
Definition val (Ob : list (list T)) (i k : nat) : T := nth k (nth i Ob []) nzero.
Definition pre (Ob : list (list T)) (i c : nat) : list T := firstn c (nth i Ob []).

Fixpoint upd {A} (i : nat) (a : A) (l : list A) : list A :=
  match l, i with
  | [], _ => []
  | _ :: t, 0 => a :: t
  | h :: t, S i' => h :: upd i' a t
  end.

Definition fr (F : list nat) (i : nat) : nat := nth i F 0.

(** [seq_objs_front[i]["front"] = max(seq_objs_front[i]["front"], b)]
    (utils.py 470, 533, 566-568, 622-624). *)
Definition raise_to (F : list nat) (i b : nat) : list nat :=
  upd i (Nat.max (fr F i) b) F.

(** Python's [==] and [<=] on tuples (lexicographic), used at 509 and 621 and by
    [sorted] at 728. *)
Fixpoint veqb (a b : list T) : bool :=
  match a, b with
  | [], [] => true
  | x :: a', y :: b' => neqb x y && veqb a' b'
  | _, _ => false
  end.
Fixpoint lexleb (a b : list T) : bool :=
  match a, b with
  | [], _ => true
  | _ :: _, [] => false
  | x :: a', y :: b' => if neqb x y then lexleb a' b' else nltb x y
  end.

(** utils.py 330-366 [_is_seq_has_one_uniq_value]; the [ValueError] branch for an
    empty iterable (355) is not reachable from the only call (571, len >= 3) and is
    modelled as [true]. *)
Definition one_uniq_value (l : list T) : bool :=
  match l with
  | [] => true
  | x :: l' => forallb (fun y => neqb y x) l'
  end.

(** utils.py 369-406 [_merge]: the in-place filling of [merged_list] is modelled as
    the standard merge of two lists; on equal heads the second list goes first
    (line 390). *)
Fixpoint merge (a : list nat) : list nat -> list nat :=
  fix merge_b (b : list nat) : list nat :=
    match a, b with
    | [], _ => b
    | _, [] => a
    | x :: a', y :: b' =>
        if Nat.ltb x y then x :: merge a' b else y :: merge_b b'
    end.

(** utils.py 409-442 [_split_by]. *)
Definition split_by (Ob : list (list T)) (ix : list nat) (m : T) (k : nat)
  : list nat * list nat * list nat :=
  (filter (fun i => nltb (val Ob i k) m) ix,
   filter (fun i => negb (nltb (val Ob i k) m) && negb (nltb m (val Ob i k))) ix,
   filter (fun i => negb (nltb (val Ob i k) m) && nltb m (val Ob i k)) ix).

Fixpoint list_max_nat (l : list nat) : nat :=
  match l with [] => 0 | x :: t => Nat.max x (list_max_nat t) end.

(** utils.py 463-475: loop of [_sweep_a]; [init] models the Python set [init_ind]
    (only membership matters). *)
Fixpoint sweep_a_loop (Ob : list (list T)) (F : list nat) (init : list nat)
  (ix : list nat) : list nat :=
  match ix with
  | [] => F
  | i :: ix' =>
      let le := filter (fun j => nleb (val Ob j 1) (val Ob i 1)) init in
      let F1 := match le with
                | [] => F
                | _ => raise_to F i (S (list_max_nat (map (fr F) le)))
                end in
      let init1 := i :: filter (fun j => negb (Nat.eqb (fr F1 j) (fr F1 i))) init in
      sweep_a_loop Ob F1 init1 ix'
  end.

(** utils.py 445-475 [_sweep_a] (called with >= 3 indices only). *)
Definition sweep_a (Ob : list (list T)) (F : list nat) (ix : list nat) : list nat :=
  match ix with
  | [] => F
  | i0 :: ix' => sweep_a_loop Ob F [i0] ix'
  end.

(** utils.py 506-526: the inner [while] of [_sweep_b], consuming comparison indices
    whose first two objectives are lexicographically <= those of [j]. *)
Fixpoint sweep_b_absorb (Ob : list (list T)) (F : list nat) (j : nat)
  (comp init : list nat) : list nat * list nat :=
  match comp with
  | [] => ([], init)
  | i :: comp' =>
      if lexleb (pre Ob i 2) (pre Ob j 2) then
        let less := filter (fun x => Nat.eqb (fr F x) (fr F i)
                                     && nltb (val Ob x 1) (val Ob i 1)) init in
        let init1 := match less with
                     | [] => i :: filter (fun x => negb (Nat.eqb (fr F x) (fr F i))) init
                     | _ => init
                     end in
        sweep_b_absorb Ob F j comp' init1
      else (comp, init)
  end.

(** utils.py 502-533: the outer loop of [_sweep_b]. *)
Fixpoint sweep_b_loop (Ob : list (list T)) (F : list nat)
  (comp init asg : list nat) : list nat :=
  match asg with
  | [] => F
  | j :: asg' =>
      let '(comp1, init1) := sweep_b_absorb Ob F j comp init in
      let le := filter (fun x => nleb (val Ob x 1) (val Ob j 1)) init1 in
      let F1 := match le with
                | [] => F
                | _ => raise_to F j (S (list_max_nat (map (fr F) le)))
                end in
      sweep_b_loop Ob F1 comp1 init1 asg'
  end.

(** utils.py 478-533 [_sweep_b]. *)
Definition sweep_b (Ob : list (list T)) (F : list nat) (comp asg : list nat) : list nat :=
  sweep_b_loop Ob F comp [] asg.

(** utils.py 617-624: the pairwise comparison used when one side has one element. *)
Definition pairwise_b (Ob : list (list T)) (F : list nat) (comp asg : list nat) (c : nat)
  : list nat :=
  fold_left (fun F i =>
    fold_left (fun F j =>
      let lv := pre Ob j c in
      let hv := pre Ob i c in
      if is_dominate_loop lv hv false || veqb lv hv
      then raise_to F i (S (fr F j)) else F) comp F) asg F.

(** Sorting (Python's [sorted]) of numbers; used by [statistics.median_low]. *)
Fixpoint insert_num (x : T) (l : list T) : list T :=
  match l with
  | [] => [x]
  | y :: l' => if nleb x y then x :: l else y :: insert_num x l'
  end.
Definition sort_num (l : list T) : list T := fold_right insert_num [] l.

(** [statistics.median_low]: element (n-1)/2 of the sorted data; called on
    non-empty data only. *)
Definition median_low (l : list T) : T := nth ((length l - 1) / 2) (sort_num l) nzero.

(** Python set comprehension of numbers (628-631, 644). *)
Fixpoint dedup (l : list T) : list T :=
  match l with
  | [] => []
  | x :: l' => if existsb (neqb x) l' then dedup l' else x :: dedup l'
  end.

Definition list_min (l : list T) : T :=
  match l with [] => nzero | x :: l' => fold_left nmin l' x end.
Definition list_max (l : list T) : T :=
  match l with [] => nzero | x :: l' => fold_left nmax l' x end.

(** utils.py 589-661 [_nd_helper_b]; fuel bounds the recursion depth. *)
Fixpoint nd_helper_b (fuel : nat) (Ob : list (list T)) (F : list nat)
  (comp asg : list nat) (c : nat) : res (list nat) :=
  match fuel with
  | 0 => Exn OutOfFuel
  | S fuel' =>
      match comp, asg with
      | [], _ => Ok F
      | _, [] => Ok F
      | _, _ =>
          if Nat.eqb (length comp) 1 || Nat.eqb (length asg) 1 then
            Ok (pairwise_b Ob F comp asg c)
          else if Nat.eqb c 2 then Ok (sweep_b Ob F comp asg)
          else
            let k := c - 1 in
            let vc := map (fun i => val Ob i k) comp in
            let va := map (fun i => val Ob i k) asg in
            if nleb (list_max vc) (list_min va) then
              nd_helper_b fuel' Ob F comp asg k
            else if nleb (list_min vc) (list_max va) then
              let m := median_low (dedup (vc ++ va)) in
              let '(l1, e1, g1) := split_by Ob comp m k in
              let '(l2, e2, g2) := split_by Ob asg m k in
              let le1 := merge l1 e1 in
              do F1 <- nd_helper_b fuel' Ob F l1 l2 c;
              do F2 <- nd_helper_b fuel' Ob F1 l1 e2 k;
              do F3 <- nd_helper_b fuel' Ob F2 e1 e2 k;
              do F4 <- nd_helper_b fuel' Ob F3 le1 g2 k;
              nd_helper_b fuel' Ob F4 g1 g2 c
            else Ok F
      end
  end.

(** utils.py 536-586 [_nd_helper_a]. *)
Fixpoint nd_helper_a (fuel : nat) (Ob : list (list T)) (F : list nat)
  (ix : list nat) (c : nat) : res (list nat) :=
  match fuel with
  | 0 => Exn OutOfFuel
  | S fuel' =>
      match ix with
      | [] => Ok F
      | [_] => Ok F
      | [l; r] =>
          if is_dominate_loop (pre Ob l c) (pre Ob r c) false
          then Ok (raise_to F r (S (fr F l))) else Ok F
      | _ =>
          if Nat.eqb c 2 then Ok (sweep_a Ob F ix)
          else
            let k := c - 1 in
            let vs := map (fun i => val Ob i k) ix in
            if one_uniq_value vs then nd_helper_a fuel' Ob F ix k
            else
              let m := median_low vs in
              let '(l, e, g) := split_by Ob ix m k in
              let le := merge e l in
              do F1 <- nd_helper_a fuel' Ob F l c;
              do F2 <- nd_helper_b fuel' Ob F1 l e k;
              do F3 <- nd_helper_a fuel' Ob F2 e k;
              do F4 <- nd_helper_b fuel' Ob F3 le g k;
              nd_helper_a fuel' Ob F4 g c
      end
  end.

(** utils.py 689-697: [objs_dict], an insertion-ordered dictionary from objective
    tuples to the list of indices having them. *)
Fixpoint dict_add (d : list (list T * list nat)) (key : list T) (i : nat)
  : list (list T * list nat) :=
  match d with
  | [] => [(key, [i])]
  | (k', is) :: d' => if veqb key k' then (k', is ++ [i]) :: d'
                      else (k', is) :: dict_add d' key i
  end.
Fixpoint build_dict (d : list (list T * list nat)) (i : nat) (ps : list (list T))
  : list (list T * list nat) :=
  match ps with
  | [] => d
  | p :: ps' => build_dict (dict_add d p i) (S i) ps'
  end.
Definition objs_dict (ps : list (list T)) := build_dict [] 0 ps.

Fixpoint dict_get (d : list (list T * list nat)) (key : list T) : list nat :=
  match d with
  | [] => []
  | (k', is) :: d' => if veqb key k' then is else dict_get d' key
  end.

(** [sorted(objs_dict.keys())], utils.py 728 (keys are pairwise distinct). *)
Fixpoint insert_lex (x : list T) (l : list (list T)) : list (list T) :=
  match l with
  | [] => [x]
  | y :: l' => if lexleb x y then x :: l else y :: insert_lex x l'
  end.
Definition sort_lex (l : list (list T)) : list (list T) := fold_right insert_lex [] l.

(** The fuel handed to the recursion (the Python code has no such bound). *)
Definition nds_fuel (n m : nat) : nat := S (n + n + m).

(** utils.py 689-732: the table of unique objective vectors and their fronts. *)
Definition nds_core (ps : list (list T)) : res (list (list T) * list nat) :=
  let d := objs_dict ps in
  match d with
  | [] => Exn AssertionError                               (* line 724 *)
  | (first, _) :: _ =>
      let m := length first in
      if Nat.leb m 1 then Exn AssertionError               (* line 705 *)
      else if forallb (fun kv => Nat.eqb m (length (fst kv))) d then
        let Ob := sort_lex (map fst d) in
        do F <- nd_helper_a (nds_fuel (length Ob) m) Ob (repeat 0 (length Ob))
                  (seq 0 (length Ob)) m;
        Ok (Ob, F)
      else Exn AssertionError                              (* line 713 *)
  end.

(** utils.py 735-739: the front number of every input row. *)
Definition front_numbers (ps : list (list T)) : res (list nat) :=
  do OF <- nds_core ps;
  let '(Ob, F) := OF in
  let d := objs_dict ps in
  Ok (fold_left (fun acc u =>
        fold_left (fun acc i => upd i (fr F u) acc) (dict_get d (nth u Ob [])) acc)
      (seq 0 (length Ob)) (seq 0 (length ps))).

(** [np.unique] of the front numbers: the sorted distinct values. *)
Definition unique_nat (l : list nat) : list nat :=
  filter (fun v => existsb (Nat.eqb v) l) (seq 0 (S (list_max_nat l))).

(** utils.py 740-741: [{i: np.nonzero(fronts == i)[0] for i in np.unique(fronts)}]. *)
Definition positions (v : nat) (l : list nat) : list nat :=
  filter (fun i => Nat.eqb (nth i l (S v)) v) (seq 0 (length l)).
Definition non_domin_sort_idx (ps : list (list T)) : res (list (nat * list nat)) :=
  do fs <- front_numbers ps;
  Ok (map (fun v => (v, positions v fs)) (unique_nat fs)).

(** utils.py 743-750, [only_front_indices=False]: decisions per front (decisions
    represented by their index); dictionary order = order of first insertion. *)
Fixpoint assoc_app (d : list (nat * list nat)) (key : nat) (l : list nat)
  : list (nat * list nat) :=
  match d with
  | [] => [(key, l)]
  | (k', l') :: d' => if Nat.eqb key k' then (k', l' ++ l) :: d'
                      else (k', l') :: assoc_app d' key l
  end.
Definition non_domin_sort_dec (ps : list (list T)) : res (list (nat * list nat)) :=
  do OF <- nds_core ps;
  let '(Ob, F) := OF in
  let d := objs_dict ps in
  Ok (fold_left (fun acc u => assoc_app acc (fr F u) (dict_get d (nth u Ob [])))
        (seq 0 (length Ob)) []).

End NDS.
