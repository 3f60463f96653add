(** Model of /repo/hvd/line_search.py and of the step control, population handling and
    main loops of /repo/hvd/newton.py and /repo/hvd/mmd_newton.py. *)
From Coq Require Import List Arith Bool Reals ZArith.
From Verif Require Import Num Exn NDSModel.
Import ListNotations.
Open Scope R_scope.

(** * Numbers with infinities and NaN
    Results of floating-point division and square roots without rounding; zero has no sign,
    a positive number divided by zero is +inf. *)
Inductive fl : Type := Fin (r : R) | PInf | NInf | NaN.
Definition rltb (a b : R) : bool := if Rlt_dec a b then true else false.
Definition rleb (a b : R) : bool := if Rle_dec a b then true else false.
Definition reqb (a b : R) : bool := if Req_EM_T a b then true else false.
Definition fle (a b : fl) : bool :=
  match a, b with
  | Fin x, Fin y => rleb x y
  | NaN, _ | _, NaN => false
  | NInf, _ | _, PInf => true
  | _, _ => false
  end.
Definition fopp (a : fl) : fl := match a with Fin x => Fin (- x) | PInf => NInf | NInf => PInf | NaN => NaN end.
Definition fadd (a b : fl) : fl :=
  match a, b with
  | Fin x, Fin y => Fin (x + y)
  | NaN, _ | _, NaN | PInf, NInf | NInf, PInf => NaN
  | PInf, _ | _, PInf => PInf
  | _, _ => NInf
  end.
Definition fsub (a b : fl) : fl := fadd a (fopp b).
(** an infinity with the sign of [x] *)
Definition inf_sign (x : R) : fl := if rltb 0 x then PInf else if rltb x 0 then NInf else NaN.
Definition fmul (a b : fl) : fl :=
  match a, b with
  | Fin x, Fin y => Fin (x * y)
  | NaN, _ | _, NaN => NaN
  | Fin x, PInf | PInf, Fin x => inf_sign x
  | Fin x, NInf | NInf, Fin x => inf_sign (- x)
  | PInf, PInf | NInf, NInf => PInf
  | _, _ => NInf
  end.
Definition fdiv (a b : fl) : fl :=
  match a, b with
  | NaN, _ | _, NaN => NaN
  | Fin x, Fin y => if reqb y 0 then inf_sign x else Fin (x / y)
  | Fin _, _ => Fin 0
  | PInf, Fin y => if rltb y 0 then NInf else PInf
  | NInf, Fin y => if rltb y 0 then PInf else NInf
  | _, _ => NaN
  end.
Definition fsqrt (a : fl) : fl :=
  match a with Fin x => if rltb x 0 then NaN else Fin (sqrt x) | PInf => PInf | _ => NaN end.
Definition fsign (x : R) : R := if rltb 0 x then 1 else if rltb x 0 then -1 else 0.

(** * line_search.py *)
(** [np.isclose(phi0, np.finfo(float).eps)] *)
Definition eps_mach : R := / 2 ^ 52.
Definition near_eps (p : fl) : bool :=
  match p with Fin x => rleb (Rabs (x - eps_mach)) (/ 10 ^ 8 + / 10 ^ 5 * eps_mach) | _ => false end.
(** line 20, newton.py 641, mmd_newton.py 316 *)
Definition armijo (c1 : R) (phi0 : fl) (s : R) (phi : fl) : bool :=
  fle phi (fmul (Fin (1 - c1 * s)) phi0) || near_eps phi0.

(** lines 14-36: [n] trials; the result is the last entry of [s], with the list of the
    step sizes at which [phi_func] was evaluated.  mmd_newton.py 309-324 is the same with
    another [c1]. *)
Fixpoint backtrack (n : nat) (c1 : R) (phi : R -> fl) (phi0 : fl) (s : R) : R * list R :=
  match n with
  | O => (s, [])
  | S n' => if armijo c1 phi0 s (phi s) then (s, [s])
            else let r := backtrack n' c1 phi phi0 (s * / 2) in (fst r, s :: snd r)
  end.
Definition backtracking_line_search (phi0 : fl) (phi : R -> fl) (max_step : R) : R * list R :=
  backtrack 6 (/ 10 ^ 5) phi phi0 max_step.
(** mmd_newton.py 293-324 without the early return; [max_step] is [min(max_step_size)] *)
Definition mmd_line_search (phi0 : fl) (phi : R -> fl) (max_step : R) : R * list R :=
  backtrack 6 (/ 10 ^ 6) phi phi0 max_step.

(** newton.py 645-651 (and mmd_newton.py 359-365): cubic interpolation, clipped.
    [s2], [p2]: the last but one step and value, [s1], [p1]: the last *)
Definition cubic (s2 s1 : R) (p2 p1 : fl) : fl :=
  let d1 := fsub (fsub (fopp p2) p1) (fdiv (fmul (Fin 3) (fsub p2 p1)) (Fin (s2 - s1))) in
  let d2 := fmul (Fin (fsign (s1 - s2))) (fsqrt (fsub (fmul d1 d1) (fmul p2 p1))) in
  fsub (Fin s1)
    (fdiv (fmul (Fin (s1 - s2)) (fsub (fadd (fopp p1) d2) d1))
          (fadd (fadd (fopp p1) p2) (fmul (Fin 2) d2))).
Definition clip (x : fl) (lo hi : R) : R :=
  match x with Fin r => Rmin (Rmax r lo) hi | PInf => hi | _ => Rmin lo hi end.
Definition next_step (s2 s1 : R) (p2 p1 : fl) : R :=
  match cubic s2 s1 p2 p1 with
  | NaN => s1 * / 2
  | x => clip x (4 / 10 * s1) (6 / 10 * s1)
  end.
(** the loop 637-653 for one point *)
Fixpoint cubic_search (n : nat) (c1 : R) (phi : R -> fl) (phi0 : fl) (s2 : R) (p2 : fl) (s1 : R) : R * list R :=
  match n with
  | O => (s1, [])
  | S n' =>
      let p1 := phi s1 in
      if armijo c1 phi0 s1 p1 then (s1, [s1])
      else let r := cubic_search n' c1 phi phi0 s1 p1 (next_step s2 s1 p2 p1) in (fst r, s1 :: snd r)
  end.
Definition close_to_0 (x : R) : bool := rleb (Rabs x) (/ 10 ^ 8).   (* np.isclose(x, 0) *)
(** newton.py 611-658 DpN._backtracking_line_search: [phi i] is the merit of point [i];
    [steps] are the rows of [step], [norms] the norms of the rows of [R] *)
Definition dpn_line_search (phi : nat -> R -> fl) (steps : list (list R)) (norms : list fl) (max_step : list R) : list R :=
  if forallb (forallb close_to_0) steps then map (fun _ => 1) steps
  else map (fun i => fst (cubic_search 8 (/ 10 ^ 4) (phi i) (nth i norms NaN) 0 (nth i norms NaN) (nth i max_step 1)))
           (seq 0 (length steps)).

(** * newton.py 268-276 HVN._compute_max_step_size *)
Fixpoint zip_with {A B C} (f : A -> B -> C) (l : list A) (l' : list B) : list C :=
  match l, l' with a :: t, b :: t' => f a b :: zip_with f t t' | _, _ => [] end.
Definition list_minR (l : list R) : res R :=
  match l with [] => Exn ValueError | a :: t => Ok (fold_left Rmin t a) end.
Definition max_step_size (limit : bool) (xl xu : list R) (X step : list (list R)) : res R :=
  if negb limit then Ok 1 else
  let x := concat X in
  let n := length X in
  let dist := zip_with (fun a b => Rabs (a - b)) x (concat (repeat xl n))
           ++ zip_with (fun a b => Rabs (a - b)) (concat (repeat xu n)) x in
  let v := concat step ++ map Ropp (concat step) in
  let sel := filter (fun dv => rltb (snd dv) 0) (combine dist v) in
  do m <- list_minR (map (fun dv => fst dv / Rabs (snd dv)) sel);
  Ok (Rmin 1 (/ 4 * m)).

(** * newton.py 660-690 DpN._handle_box_constraint, one row of the population *)
(** [dist / np.abs(np.minimum(0, v))] *)
Definition box_ratios (xl xu x step : list R) : list fl :=
  let dist := zip_with (fun a b => Rabs (a - b)) x xl ++ zip_with (fun a b => Rabs (a - b)) xu x in
  let v := step ++ map Ropp step in
  zip_with (fun d w => fdiv (Fin d) (Fin (Rabs (Rmin 0 w)))) dist v.
(** [np.nanmin]: NaN if there are only NaNs *)
Definition fmin (a b : fl) : fl := if fle a b then a else b.
Fixpoint nanmin (l : list fl) : fl :=
  match l with
  | [] => NaN
  | NaN :: t => nanmin t
  | a :: t => match nanmin t with NaN => a | b => fmin a b end
  end.
(** Python's [min(1.0, m)] *)
Definition cap1 (m : fl) : fl := match m with Fin r => if rltb r 1 then Fin r else Fin 1 | NInf => NInf | _ => Fin 1 end.
(** [np.argmin]: the first NaN if there is one, else the first minimum *)
Fixpoint first_nan (l : list fl) (i : nat) : option nat :=
  match l with [] => None | NaN :: _ => Some i | _ :: t => first_nan t (S i) end.
Fixpoint first_min (l : list fl) (i : nat) (best : fl) (k : nat) : nat :=
  match l with
  | [] => k
  | a :: t => if fle best a then first_min t (S i) best k else first_min t (S i) a i
  end.
Definition argmin (l : list fl) : nat :=
  match first_nan l 0 with
  | Some i => i
  | None => match l with [] => 0%nat | a :: t => first_min t 1 a 0 end
  end.
(** column [k] of [normal_vectors] = [eye, -eye] *)
Definition normal (dim k : nat) : list R :=
  map (fun i => if (i =? k)%nat then 1 else if (dim + i =? k)%nat then -1 else 0) (seq 0 dim).
Definition dotR (a b : list R) : R := fold_right Rplus 0 (zip_with Rmult a b).
Definition is_fzero (m : fl) : bool := match m with Fin r => reqb r 0 | _ => false end.
(** rows whose maximal step is not 0 keep their step, so the recomputation 687-689 does not
    change them; [step] are the primal components *)
Definition dpn_box (xl xu x step : list R) : list R * fl :=
  let s := box_ratios xl xu x step in
  let m := cap1 (nanmin s) in
  if is_fzero m then
    let a := normal (length x) (argmin s) in
    let c := dotR step a in
    let step' := zip_with (fun t b => t - c * b) step a in
    (step', cap1 (nanmin (box_ratios xl xu x step')))
  else (step, m).

(** * newton.py 287-303 HVN._check_population *)
(** [np.isclose(D[i, j], 0, rtol=self.eps)]: the tolerance is atol = 1e-8 *)
Definition close_pair (D : nat -> nat -> R) (eps : R) (i j : nat) : bool :=
  rleb (Rabs (D i j - 0)) (/ 10 ^ 8 + eps * Rabs 0).
Definition memn (i : nat) (l : list nat) : bool := existsb (Nat.eqb i) l.
Definition drop_step (D : nat -> nat -> R) (eps : R) (N : nat) (drop : list nat) (i : nat) : list nat :=
  if memn i drop then drop
  else drop ++ filter (fun j => close_pair D eps i j && negb (j =? i)%nat) (seq 0 N).
Definition drop_idx (D : nat -> nat -> R) (eps : R) (N : nat) : list nat :=
  fold_left (drop_step D eps N) (seq 0 N) [].
(** [list(set(range(N)) - drop_idx)]: [order] is the iteration order of the set *)
Definition kept (order : list nat -> list nat) (D : nat -> nat -> R) (eps : R) (N : nat) : list nat :=
  order (filter (fun i => negb (memn i (drop_idx D eps N))) (seq 0 N)).
(** [cdist]: Euclidean distances *)
Definition dist2 (p q : list R) : R := sqrt (fold_right Rplus 0 (zip_with (fun a b => (a - b) * (a - b)) p q)).
Definition check_population (order : list nat -> list nat) (eps : R) (X : list (list R)) : list nat :=
  kept order (fun i j => dist2 (nth i X []) (nth j X [])) eps (length X).

(** * newton.py 168-176: the layers of HVN.iterate *)
Definition positions_of (b : bool) (mask : list bool) : list nat :=
  filter (fun i => Bool.eqb (nth i mask (negb b)) b) (seq 0 (length mask)).
Fixpoint insert_nat (x : nat) (l : list nat) : list nat :=
  match l with [] => [x] | y :: t => if (x <=? y)%nat then x :: l else y :: insert_nat x t end.
Definition sort_nat (l : list nat) : list nat := fold_right insert_nat [] l.
(** [partitions.update({0: ...})] and [partitions[0]] *)
Fixpoint get0 (d : list (nat * list nat)) : res (list nat) :=
  match d with [] => Exn KeyError | (k, v) :: t => if (k =? 0)%nat then Ok v else get0 t end.
Definition put0 (v : list nat) (d : list (nat * list nat)) : list (nat * list nat) :=
  map (fun kv : nat * list nat => if (fst kv =? 0)%nat then (0%nat, v) else kv) d.
Definition hvn_layers (feasible : list bool) (Y : list (list R)) : res (list (nat * list nat)) :=
  let fi := positions_of true feasible in
  let ii := positions_of false feasible in
  match fi with
  | [] => Ok [(0%nat, seq 0 (length Y))]
  | _ =>
    do d <- non_domin_sort_idx (map (fun i => nth i Y []) fi);
    let d' := map (fun kv : nat * list nat => (fst kv, map (fun j => nth j fi 0%nat) (snd kv))) d in
    do l0 <- get0 d';
    Ok (put0 (sort_nat (l0 ++ ii)) d')
  end.

(** * Main loops: newton.py 145-149, 194-214 (HVN), 488-492, 508-528 (DpN),
    mmd_newton.py 177-181, 196-217.  [iterate] is one Newton iteration on everything but the
    counter; the history gets one entry per iteration.  MMDNewton increments the counter at
    the end of the iteration, the others at the start of [log]. *)
Section Loop.
Context {St : Type}.
Variable iterate : St -> res St.
Inductive budget : Type := Finite (z : Z) | Unlimited.
Record opt : Type := mkOpt { o_state : St; o_iter : nat; o_max : budget; o_stop : option nat; o_hist : list St }.
(** [self.N * 10 if max_iters is None else max_iters] *)
Definition default_budget (N : nat) (m : option budget) : budget :=
  match m with None => Finite (Z.of_nat N * 10) | Some b => b end.
Definition fresh (s : St) (m : budget) : opt := mkOpt s 0 m None [].
(** [terminate]: [stop_dict] is never emptied *)
Definition reached (o : opt) : bool :=
  match o_max o with Finite z => (z <=? Z.of_nat (o_iter o))%Z | Unlimited => false end.
Definition terminate (o : opt) : opt * bool :=
  let stop := if reached o then Some (o_iter o) else o_stop o in
  (mkOpt (o_state o) (o_iter o) (o_max o) stop (o_hist o), match stop with Some _ => true | None => false end).
Fixpoint run (fuel : nat) (o : opt) : res opt :=
  let (o', t) := terminate o in
  if t then Ok o' else
  match fuel with
  | O => Exn OutOfFuel
  | S f =>
    do s <- iterate (o_state o');
    run f (mkOpt s (S (o_iter o')) (o_max o') (o_stop o') (o_hist o' ++ [s]))
  end.
End Loop.

(** newton.py 97-106: initial points are clipped into the box *)
Definition clip_row (xl xu x : list R) : list R := zip_with Rmin (zip_with Rmax x xl) xu.
