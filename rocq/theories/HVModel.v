(** Model of /repo/hvd/hypervolume.py (dimension sweep with dancing links). *)
From Coq Require Import List Arith Bool.
From Verif Require Import Num Exn.
Import ListNotations.

Section HV.
Context {T : Type} `{Num T}.

(** ** The heap of list nodes (hypervolume.py 166-195, class MultiList / Node).
    Nodes are numbered 0..n-1 in the order of [nodes] (line 148); the sentinel is
    node n.  [nx i x] is [x.next[i]], [pv i x] is [x.prev[i]], [ig x] is [x.ignore],
    [ar i x] is [x.area[i]], [vo i x] is [x.volume[i]], [bd i] is [bounds[i]]. *)
Record mem := mkMem {
  nx : nat -> nat -> nat;
  pv : nat -> nat -> nat;
  ig : nat -> nat;
  ar : nat -> nat -> T;
  vo : nat -> nat -> T;
  bd : nat -> T
}.

Definition upd1 {A} (f : nat -> A) (x : nat) (a : A) : nat -> A :=
  fun y => if Nat.eqb y x then a else f y.
Definition upd2 {A} (f : nat -> nat -> A) (i x : nat) (a : A) : nat -> nat -> A :=
  fun j y => if Nat.eqb j i && Nat.eqb y x then a else f j y.

Definition set_nx (m : mem) i x a := mkMem (upd2 (nx m) i x a) (pv m) (ig m) (ar m) (vo m) (bd m).
Definition set_pv (m : mem) i x a := mkMem (nx m) (upd2 (pv m) i x a) (ig m) (ar m) (vo m) (bd m).
Definition set_ig (m : mem) x a := mkMem (nx m) (pv m) (upd1 (ig m) x a) (ar m) (vo m) (bd m).
Definition set_ar (m : mem) i x a := mkMem (nx m) (pv m) (ig m) (upd2 (ar m) i x a) (vo m) (bd m).
Definition set_vo (m : mem) i x a := mkMem (nx m) (pv m) (ig m) (ar m) (upd2 (vo m) i x a) (bd m).
Definition set_bd (m : mem) i a := mkMem (nx m) (pv m) (ig m) (ar m) (vo m) (upd1 (bd m) i a).

Variable pts : list (list T).         (* the shifted relevant points *)
Notation sn := (length pts).          (* the sentinel *)

(** [x.cargo[i]]: [TypeError] for the sentinel, whose cargo is [None]. *)
Definition cg (x i : nat) : res T :=
  match nth_error pts x with
  | None => Exn TypeError
  | Some c => match nth_error c i with None => Exn IndexError | Some v => Ok v end
  end.

(** ** MultiList.remove / reinsert, hypervolume.py 245-267. *)
Definition lower_bd (m : mem) (i x : nat) : res mem :=
  do c <- cg x i;
  Ok (if nltb c (bd m i) then set_bd m i c else m).

Definition remove_one (x i : nat) (m : mem) : res mem :=
  let p := pv m i x in
  let s := nx m i x in
  lower_bd (set_pv (set_nx m i p s) i s p) i x.

Definition reinsert_one (x i : nat) (m : mem) : res mem :=
  let m1 := set_nx m i (pv m i x) x in
  let m2 := set_pv m1 i (nx m1 i x) x in
  lower_bd m2 i x.

Fixpoint for_lists (f : nat -> mem -> res mem) (is : list nat) (m : mem) : res mem :=
  match is with
  | [] => Ok m
  | i :: is' => do m1 <- f i m; for_lists f is' m1
  end.
Definition remove (x index : nat) (m : mem) : res mem := for_lists (remove_one x) (seq 0 index) m.
Definition reinsert (x index : nat) (m : mem) : res mem := for_lists (reinsert_one x) (seq 0 index) m.

(** ** hvRecursive, hypervolume.py 62-142. *)

(** lines 82-88: the two-dimensional sweep. *)
Fixpoint sweep2 (fuel : nat) (m : mem) (q p : nat) (h hvol : T) : res T :=
  match fuel with
  | 0 => Exn OutOfFuel
  | S fuel' =>
      if Nat.eqb p sn then
        do q1 <- cg q 1; Ok (nadd hvol (nmul h q1))
      else
        do q1 <- cg q 1; do p1 <- cg p 1; do p0 <- cg p 0;
        let hvol1 := nadd hvol (nmul h (nsub q1 p1)) in
        let h1 := if nltb p0 h then p0 else h in
        sweep2 fuel' m p (nx m 1 p) h1 hvol1
  end.

(** lines 97-100: reset of the ignore flags along the list. *)
Fixpoint reset_ignore (fuel : nat) (d : nat) (q : nat) (m : mem) : res mem :=
  match fuel with
  | 0 => Exn OutOfFuel
  | S fuel' =>
      if Nat.eqb q sn then Ok m
      else
        let m1 := if Nat.ltb (ig m q) d then set_ig m q 0 else m in
        reset_ignore fuel' d (pv m1 d q) m1
  end.

(** lines 102-108: removal loop; structural in [length].
    Returns (p, q, length, memory). *)
Fixpoint removal_loop (d : nat) (length : nat) (p q : nat) (m : mem)
  : res (nat * nat * nat * mem) :=
  match length with
  | 0 => Ok (p, q, 0, m)
  | S len' =>
      if Nat.leb len' 0 then Ok (p, q, length, m)
      else
        do cq <- cg q d;
        do again <- (if nltb (bd m d) cq then Ok true
                     else do cp <- cg (pv m d q) d; Ok (nleb (bd m d) cp));
        if again then
          do m1 <- remove q d m;
          removal_loop d len' q (pv m1 d q) m1
        else Ok (p, q, length, m)
  end.

(** line 118: [qArea[1:d+1] = [qArea[i] * -qCargo[i] for i in range(d)]]; the right
    hand side is evaluated (with the old areas, [qArea[0]] already 1) before the
    assignment. *)
Fixpoint map_res {A B} (f : A -> res B) (l : list A) : res (list B) :=
  match l with
  | [] => Ok []
  | x :: l' => do y <- f x; do ys <- map_res f l'; Ok (y :: ys)
  end.
Fixpoint assign_area (m : mem) (q i : nat) (vals : list T) : mem :=
  match vals with
  | [] => m
  | v :: vals' => assign_area (set_ar m i q v) q (S i) vals'
  end.
Definition singleton_area (d q : nat) (m : mem) : res mem :=
  let m1 := set_ar m 0 q none_ in
  do vals <- map_res (fun i => do c <- cg q i; Ok (nmul (ar m1 i q) (nopp c))) (seq 0 d);
  Ok (assign_area m1 q 1 vals).

(** lines 120-125 (and 135-140): the area of [q], by copying or by recursion;
    [recur] is the recursive call [hvRecursive(dimIndex - 1, length, bounds)]. *)
Definition area_step (recur : nat -> mem -> res (T * mem)) (d q length : nat) (m : mem) : res mem :=
  if Nat.leb d (ig m q) then Ok (set_ar m d q (ar m d (pv m d q)))
  else
    do r <- recur length m;
    let '(a, m1) := r in
    let m2 := set_ar m1 d q a in
    Ok (if nleb a (ar m2 d (pv m2 d q)) then set_ig m2 q d else m2).

(** lines 126-140: reinsertion loop; returns (q, hvol, memory). *)
Fixpoint reinsertion_loop (recur : nat -> mem -> res (T * mem)) (fuel d : nat)
  (p q length : nat) (hvol : T) (m : mem) : res (nat * T * mem) :=
  match fuel with
  | 0 => Exn OutOfFuel
  | S fuel' =>
      if Nat.eqb p sn then Ok (q, hvol, m)
      else
        do cp <- cg p d; do cq <- cg q d;
        let hvol1 := nadd hvol (nmul (ar m d q) (nsub cp cq)) in
        let m1 := set_bd m d cp in
        do m2 <- reinsert p d m1;
        let p' := nx m2 d p in
        let m3 := set_vo m2 d p hvol1 in
        do m4 <- area_step recur d p (S length) m3;
        reinsertion_loop recur fuel' d p' p (S length) hvol1 m4
  end.

(** [fuel] bounds the iterations of each [while] loop. *)
Fixpoint hv_recursive (fuel : nat) (dimIndex : nat) (length : nat) (m : mem) {struct dimIndex}
  : res (T * mem) :=
  if Nat.eqb length 0 then Ok (nzero, m)                               (* 71-72 *)
  else match dimIndex with
  | 0 => do c <- cg (nx m 0 sn) 0; Ok (nopp c, m)                      (* 73-76 *)
  | S d' =>
      if Nat.eqb d' 0 then                                             (* 77-90 *)
        let q := nx m 1 sn in
        do h <- cg q 0;
        do v <- sweep2 fuel m q (nx m 1 q) h nzero;
        Ok (v, m)
      else
        let d := S d' in
        do m0 <- reset_ignore fuel d (pv m d sn) m;                    (* 95-100 *)
        do r <- removal_loop d length sn (pv m0 d sn) m0;              (* 101-108 *)
        let '(p, q, length1, m1) := r in
        do cq <- cg q d;                                               (* 109-111 *)
        let qp := pv m1 d q in
        do hm <- (if Nat.ltb 1 length1 then                            (* 112-118 *)
                    do cqp <- cg qp d;
                    Ok (nadd (vo m1 d qp) (nmul (ar m1 d qp) (nsub cq cqp)), m1)
                  else do m2 <- singleton_area d q m1; Ok (nzero, m2));
        let '(hvol, m2) := hm in
        let m3 := set_vo m2 d q hvol in                                (* 119 *)
        do m4 <- area_step (hv_recursive fuel d') d q length1 m3;      (* 120-125 *)
        do r2 <- reinsertion_loop (hv_recursive fuel d') fuel d p q length1 hvol m4;
        let '(ql, hv, m5) := r2 in
        do cl <- cg ql d;
        Ok (nsub hv (nmul (ar m5 d ql) cl), m5)                        (* 141-142 *)
  end.

(** ** preProcess, hypervolume.py 144-163. *)

(** [np.argsort] (line 157; default kind, not stable) is an oracle. *)
Variable argsort : list T -> list nat.

(** [sortByDimension], 154-163. *)
Definition sort_by_dimension (nodes : list nat) (i : nat) : list nat :=
  map (fun j => nth j nodes 0) (argsort (map (fun x => nth i (nth x pts []) nzero) nodes)).

(** [MultiList.extend], 234-243. *)
Definition extend (nodes : list nat) (index : nat) (m : mem) : mem :=
  fold_left (fun m node =>
    let last := pv m index sn in
    let m1 := set_nx m index node sn in
    let m2 := set_pv m1 index node last in
    let m3 := set_pv m2 index sn node in
    set_nx m3 index last node) nodes m.

(** 147, 186-195, 175-181: new nodes; [next]/[prev] of ordinary nodes are [None] and of
    the sentinel the sentinel itself (ordinary nodes are given the sentinel too; their
    entries are overwritten by [extend] before any use). *)
Definition init_mem (minf : T) : mem :=
  mkMem (fun _ _ => sn) (fun _ _ => sn) (fun _ => 0) (fun _ _ => nzero) (fun _ _ => nzero)
        (fun _ => minf).

Fixpoint pre_process (is : list nat) (nodes : list nat) (m : mem) : mem :=
  match is with
  | [] => m
  | i :: is' => let nodes' := sort_by_dimension nodes i in
                pre_process is' nodes' (extend nodes' i m)
  end.

End HV.

Section Compute.
Context {T : Type} `{Num T}.

(** lines 38-42: [weaklyDominates(point, other)]; rows have the length of [other]. *)
Fixpoint weakly_dom (p o : list T) : bool :=
  match p, o with
  | x :: p', y :: o' => if nltb y x then false else weakly_dom p' o'
  | _, _ => true
  end.

(** line 51: [any(referencePoint)] *)
Definition any_nonzero (l : list T) : bool := existsb (fun x => negb (neqb x nzero)) l.

Fixpoint vsub (a b : list T) : list T :=
  match a, b with x :: a', y :: b' => nsub x y :: vsub a' b' | _, _ => [] end.

(** lines 44-56 *)
Definition relevant_points (front : list (list T)) (ref : list T) : list (list T) :=
  let rel := filter (fun p => weakly_dom p ref) front in
  if any_nonzero ref then map (fun p => vsub p ref) rel else rel.

(** hypervolume.py 30-60 [HyperVolume.compute] = 6-11 [hypervolume].
    [minf] is the initial bound -1.0e308 (line 58).  For [dimensions = 0] the index
    -1 into an empty list raises [IndexError] when there are points. *)
Definition hypervolume (minf : T) (argsort : list T -> list nat)
  (front : list (list T)) (ref : list T) : res T :=
  let pts := relevant_points front ref in
  let n := length pts in
  match length ref with
  | 0 => if Nat.eqb n 0 then Ok nzero else Exn IndexError
  | S d =>
      let m := pre_process pts argsort (seq 0 (S d)) (seq 0 n) (init_mem pts minf) in
      do r <- hv_recursive pts (S n) d n m;
      Ok (fst r)
  end.
End Compute.

(** ** hypervolume_derivatives.py 27-29 [hypervolume_improvement]. *)
Definition hypervolume_improvement {T} `{Num T} (minf : T) (argsort : list T -> list nat)
  (x : list T) (pareto_front : list (list T)) (ref : list T) : res T :=
  do a <- hypervolume minf argsort (x :: pareto_front) ref;
  do b <- hypervolume minf argsort pareto_front ref;
  Ok (nsub a b).
