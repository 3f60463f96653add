(** Model of further parts of /repo/examples and of the statistics and set-up in /repo/scripts. *)
From Coq Require Import Ascii String List Arith Bool Reals ZArith.
From Verif Require Import Exn ProbModel ExModel.
Import ListNotations.
Open Scope R_scope.

(** * Union of boxes: examples/HVSS/box_domain.py lines 5-25 *)
Definition vdiff (a b : list R) : list R := map (fun p => fst p - snd p) (combine a b).
(** [jnp.argmin]: first index of the smallest value *)
Fixpoint argmin (l : list R) : option nat :=
  match l with
  | [] => None
  | a :: t => match argmin t with
              | None => Some 0%nat
              | Some j => if rleb a (nth j t 0) then Some 0%nat else Some (S j)
              end
  end.
(** a list of centres and one of half radii, each of the dimension of [x]; no boxes: argmin of an empty array raises *)
Definition union_box (x : list R) (centers radii : list (list R)) : res (list R) :=
  match argmin (map (fun c => norm2 (vdiff x c)) centers) with
  | None => Exn ValueError
  | Some i =>
      match nth_error centers i, nth_error radii i with
      | Some c, Some h =>
          let ad := map Rabs (vdiff x c) in
          let margin := vdiff h ad in
          if forallb (fun m => rleb 0 m) margin then Ok (map Ropp margin)
          else Ok (map (fun m => Rmax m 0) (vdiff ad h))
      | _, _ => Exn IndexError
      end
  end.

(** * Polynomial features: examples/HVSS/base.py lines 26-71, one row of the batch *)
(** [combinations_with_replacement(cols, deg)] *)
Fixpoint comb_rep (deg : nat) (cols : list R) : list (list R) :=
  match deg with
  | O => [[]]
  | S d => (fix go (cs : list R) : list (list R) :=
              match cs with [] => [] | c :: t => map (cons c) (comb_rep d cs) ++ go t end) cols
  end.
(** [combinations(cols, deg)] *)
Fixpoint comb_sub (deg : nat) (cols : list R) : list (list R) :=
  match deg, cols with
  | O, _ => [[]]
  | S d, [] => []
  | S d, c :: t => map (cons c) (comb_sub d t) ++ comb_sub deg t
  end.
Definition prod (l : list R) : R := fold_right Rmult 1 l.
(** [torch.cat] of an empty list raises *)
Definition poly_features (degree : nat) (interaction_only : bool) (t : list R) : res (list R) :=
  let first := if (1 <=? degree)%nat then t else [] in
  let rest := flat_map (fun deg => map prod (if interaction_only then comb_sub deg t else comb_rep deg t)) (seq 2 (degree - 1)) in
  match first ++ rest with [] => Exn ValueError | l => Ok l end.
(** lines 61-65: the width of the linear layer; [math.comb] *)
Definition hidden_dim (input_dim degree : nat) : nat := (comb (input_dim + degree - 1) degree + input_dim)%nat.
(** lines 67-71: a linear layer applied to another number of features raises *)
Definition poly_forward (input_dim degree : nat) (w : list R) (b : R) (x : list R) : res R :=
  do h <- poly_features degree false x;
  if (length h =? hidden_dim input_dim degree)%nat && (length w =? hidden_dim input_dim degree)%nat
  then Ok (fold_right Rplus 0 (map (fun p => fst p * snd p) (combine h w)) + b) else Exn RuntimeError.

(** * Fronts as problems: examples/HVSS/run3D_example.py lines 40-108 *)
(** objective is the identity; equality and inequality constraint, box, number of constraints *)
Record fprob : Type := mkFP { fp_eq : list R -> R; fp_ieq : list R -> R; fp_lo : R; fp_hi : R; fp_front : res (list (list R)) }.
Definition sumsq (x : list R) : R := fold_right (fun a s => a * a + s) 0 x.
Definition sumv (x : list R) : R := fold_right Rplus 0 x.
(** lines 40-65, 68-80, 83-108 *)
Definition front_convex (fuel : nat) : fprob := mkFP (fun x => sumsq x - 1) (fun x => sumsq (firstn 2 x) - 1) (-1) 0 (sphere_front fuel 3).
Definition front_concave (fuel : nat) : fprob := mkFP (fun x => sumsq x - 1) (fun x => sumsq (firstn 2 x) - 1) 0 1 (sphere_front fuel 3).
Definition front_linear (fuel : nat) : fprob := mkFP (fun x => sumv x - / 2) (fun x => sumv (firstn 2 x) - / 2) 0 1 (simplex_front fuel 3).

(** * MOP1: examples/HVN/2D_example.py lines 27-57 (also DpN/MOP1_example.py, MMD/MOP1.py) *)
Definition mop1 (x : list R) : list R := [sumsq (map (fun a => a - 1) x); sumsq (map (fun a => a + 1) x)].
Definition mop1_jac (x : list R) : list (list R) := [map (fun a => 2 * (a - 1)) x; map (fun a => 2 * (a + 1)) x].
(** the constraint of 2D_example.py lines 42-44 and its gradient *)
Definition circle_h (x : list R) : R := sumsq x - 1.
Definition circle_jac (x : list R) : list R := map (fun a => 2 * a) x.

(** * Initial points: examples/HVSS/run3D_example.py lines 111-128 (also run3D.py) *)
(** [labels], [centers]: answer of KMeans; [pick]: answer of [random.sample] *)
Definition select_points (labels : list nat) (centers : list (list R)) (pick : list nat -> nat -> list nat) (X0 : list (list R)) (N : nat) : res (list nat) :=
  let reps := flat_map (fun i =>
      let mask := filter (fun j => (nth j labels O =? i)%nat) (seq 0 (length X0)) in
      match argmin (map (fun j => norm2 (vdiff (nth j X0 []) (nth i centers []))) mask) with
      | None => []
      | Some a => [nth a mask O]
      end) (seq 0 (2 * N)) in
  if (N <=? length reps)%nat then Ok (pick reps N) else Exn ValueError.

(** * Comparison tables *)
(** scripts/compute_statistics.py lines 70-84: [rows] are the pairs of medians with the decision of the test *)
Definition tally (rows : list (bool * R * R)) : nat * nat * nat :=
  fold_left (fun c row => let '(win, tie, loose) := c in let '(rej, x, y) := row in
    if rej : bool then (if rleb y x then (win, tie, S loose) else (S win, tie, loose)) else (win, S tie, loose)) rows (O, O, O).
(** examples/HVSS/compute_stats.py lines 40-54: [(x, y)] is median and range of quantiles of the
    other algorithm; [x > y] is tested *)
Definition tally_hvss (rows : list (bool * R * R)) : nat * nat * nat :=
  fold_left (fun c row => let '(win, tie, loose) := c in let '(rej, x, y) := row in
    if rej : bool then (if rleb x y then (win, tie, S loose) else (S win, tie, loose)) else (win, S tie, loose)) rows (O, O, O).
(** sorted copy, [np.median] *)
Fixpoint insert (a : R) (l : list R) : list R := match l with [] => [a] | b :: t => if rleb a b then a :: l else b :: insert a t end.
Definition sort (l : list R) : list R := fold_right insert [] l.
Definition median (l : list R) : R :=
  let s := sort l in let n := length l in
  if Nat.even n then (nth (n / 2 - 1) s 0 + nth (n / 2) s 0) / 2 else nth (n / 2) s 0.
(** [np.quantile(l, q)], linear interpolation *)
Definition quantile (q : R) (l : list R) : R :=
  let s := sort l in
  let v := q * INR (length l - 1) in
  let k := Z.to_nat (Int_part v) in
  nth k s 0 + (v - INR k) * (nth (Nat.min (S k) (length l - 1)) s 0 - nth k s 0).
(** [stats_func] *)
Definition stats_func (l : list R) : R * R := (median l, quantile 0.9 l - quantile 0.1 l).
(** the rows of HVSS/compute_stats.py: data of HVN and of the other algorithm per problem; [reject]: answer of the test *)
Definition rows_hvss (reject : list (list R * list R) -> list bool) (data : list (list R * list R)) : list (bool * R * R) :=
  map (fun p => let '(r, (_, other)) := p in (r, fst (stats_func other), snd (stats_func other))) (combine (reject data) data).

(** * Bezier curve: examples/HVSS/ZDT1/B_spline.py lines 6-26; a B-spline of degree 5 with knots 0
    (six times) and 1 (six times) is the Bernstein polynomial; [None] is NaN ([extrapolate=False]) *)
Definition zdt1_coeff1 : list R := [0.001252528; 0.01947433331299664; 0.27016246911506425; 0.4863707860259108; 0.7430099474586837; 1.0].
Definition zdt1_coeff2 : list R := [0.964662523; 0.6705892382800092; 0.4305933960365816; 0.2834106933629399; 0.12671565799862497; 0.000000000015].
Definition bernstein (c : list R) (t : R) : R :=
  let n := (length c - 1)%nat in
  fold_right Rplus 0 (map (fun i => nth i c 0 * (INR (comb n i) * t ^ i * (1 - t) ^ (n - i))) (seq 0 (length c))).
Definition zdt1_curve (t : R) : option (list R) :=
  if rleb 0 t && rleb t 1 then Some [bernstein zdt1_coeff1 t; bernstein zdt1_coeff2 t] else None.

(** * Running best values and selection from the archive: examples/HVSS/run.py lines 68-79 *)
(** [np.maximum.accumulate] *)
Fixpoint accumulate (m : R) (l : list R) : list R := match l with [] => [] | a :: t => Rmax m a :: accumulate (Rmax m a) t end.
Definition best_so_far (l : list R) : list R := match l with [] => [] | a :: t => a :: accumulate a t end.
(** [archive_Y[np.argmin(cdist(Y, archive_Y), axis=1)]] *)
Definition nearest (archive : list (list R)) (y : list R) : res nat :=
  match argmin (map (fun a => norm2 (vdiff y a)) archive) with None => Exn ValueError | Some i => Ok i end.
Fixpoint select_archive (archive Y : list (list R)) : res (list nat) :=
  match Y with [] => Ok [] | y :: t => do i <- nearest archive y; do r <- select_archive archive t; Ok (i :: r) end.

(** * Set-up of the evolutionary algorithms *)
(** numbers of directions of pymoo's Das-Dennis construction *)
Definition n_dirs (n_obj parts : nat) : nat := comb (parts + n_obj - 1) (n_obj - 1).
Inductive ea := NSGA2 | NSGA3 | MOEAD | SMSEMOA | Unknown.
(** algorithm with population size (for MOEA/D the number of directions), number and dimension of
    directions, and whether it is wrapped by the constraint handling *)
Record setup : Type := mkSetup { s_pop : nat; s_dirs : option (nat * nat); s_wrapped : bool }.
(** scripts/run_EA_save_population.py lines 79-117 *)
Definition pop_size (n_obj : nat) : res nat := match n_obj with 2 => Ok 100%nat | 3 => Ok 300%nat | 4 => Ok 600%nat | _ => Exn UnboundLocalError end.
Definition get_algorithm (n_obj : nat) (a : ea) (constrained : bool) : res setup :=
  match a with
  | NSGA2 => do p <- pop_size n_obj; Ok (mkSetup p None constrained)
  | NSGA3 =>
      match n_obj with
      | 2 => Ok (mkSetup 100 (Some (n_dirs 2 99, 2%nat)) constrained)
      | 3 => Ok (mkSetup 300 (Some (n_dirs 3 23, 3%nat)) constrained)
      | 4 => Ok (mkSetup 600 (Some (n_dirs 4 13, 4%nat)) constrained)
      | _ => Exn UnboundLocalError
      end
  | MOEAD =>
      match n_obj with
      | 2 => Ok (mkSetup (n_dirs 2 99) (Some (n_dirs 2 99, 2%nat)) false)
      | 3 => Ok (mkSetup (n_dirs 3 23) (Some (n_dirs 3 23, 3%nat)) false)
      | 4 => if (600 <=? n_dirs 3 14)%nat then Ok (mkSetup 600 (Some (600%nat, 3%nat)) false) else Exn ValueError
      | _ => Exn UnboundLocalError
      end
  | SMSEMOA => do p <- pop_size n_obj; Ok (mkSetup p None constrained)
  | Unknown => Exn UnboundLocalError
  end.
(** scripts/benchmark_EA.py lines 123-153, 178-183; an unset global name (NameError) is written
    [UnboundLocalError] *)
Definition get_algorithm_bench (n_obj : nat) (a : ea) (constrained : bool) : res setup :=
  do p <- pop_size n_obj;
  match a with
  | NSGA2 => Ok (mkSetup p None constrained)
  | NSGA3 =>
      match n_obj with
      | 2 => Ok (mkSetup p (Some (n_dirs 2 (p - 20), 2%nat)) constrained)
      | 3 => Ok (mkSetup p (Some (n_dirs 3 20, 3%nat)) constrained)
      | 4 => Ok (mkSetup p (Some (n_dirs 4 13, 4%nat)) constrained)
      | _ => Exn UnboundLocalError
      end
  | MOEAD =>
      match n_obj with
      | 2 => Ok (mkSetup (n_dirs 2 80) (Some (n_dirs 2 80, 2%nat)) false)
      | 3 => Ok (mkSetup (n_dirs 3 23) (Some (n_dirs 3 23, 3%nat)) false)
      | 4 => if (p <=? n_dirs 4 14)%nat then Ok (mkSetup p (Some (p, 4%nat)) false) else Exn ValueError
      | _ => Exn UnboundLocalError
      end
  | SMSEMOA => Ok (mkSetup p None constrained)
  | Unknown => Exn UnboundLocalError
  end.
(** scripts/run_EA_save_population.py lines 60-73: generations performed by pymoo before it stops
    (after the k-th call of [next] the counter [n_gen] is k + 1); the saved iterations *)
Definition saved (n_gen performed : nat) : res (list nat) :=
  match filter (fun k => (n_gen <=? k + 5)%nat) (seq 1 performed) with [] => Exn ValueError | l => Ok l end.
(** scripts/benchmark_EA.py lines 113-120: [F] is [None] if pymoo found no feasible point *)
Definition bench_values (igd gd hv : list (list R) -> R) (F : option (list (list R))) : res (R * R * R) :=
  match F with None => Exn UnboundLocalError | Some Y => Ok (igd Y, gd Y, hv Y) end.
(** scripts/benchmark_CONV4.py lines 32-36: [directed_hausdorff(ref[i], {y})] is the distance of
    [y] to the farthest point of [ref[i]] *)
Definition far (ref : list (list R)) (y : list R) : R := fold_right Rmax 0 (map (fun r => norm2 (vdiff r y)) ref).
Definition match_cluster (refs : list (list (list R))) (Y : list (list R)) : res (list nat) :=
  fold_right (fun y acc => do l <- acc; match argmin (map (fun r => far r y) refs) with None => Exn ValueError | Some i => Ok (i :: l) end) (Ok []) Y.

(** * Files of B-splines: read_bspline_csv, examples/HVSS/utils.py lines 8-46 (also subset_selection/utils.py) *)
(** a line is the list of its characters (ASCII) *)
Definition text := list ascii.
(** [str.strip], [str.lower], [str.startswith], [str.split(",")] *)
Definition is_space (c : ascii) : bool := let n := nat_of_ascii c in ((9 <=? n) && (n <=? 13) || (28 <=? n) && (n <=? 32))%nat.
Fixpoint lstrip (s : text) : text := match s with c :: t => if is_space c then lstrip t else s | [] => [] end.
Definition strip (s : text) : text := rev (lstrip (rev (lstrip s))).
Definition lower_char (c : ascii) : ascii := let n := nat_of_ascii c in if ((65 <=? n) && (n <=? 90))%nat then ascii_of_nat (n + 32) else c.
Definition lower (s : text) : text := map lower_char s.
Definition text_eqb (a b : text) : bool := if list_eq_dec ascii_dec a b then true else false.
Definition startswith (s p : text) : bool := text_eqb (firstn (length p) s) p.
Fixpoint split (s : text) : list text :=
  match s with
  | [] => [[]]
  | c :: t => if ascii_dec c "," then [] :: split t else match split t with p :: r => (c :: p) :: r | [] => [[c]] end
  end.
Definition tx (s : string) : text := list_ascii_of_string s.
Inductive mode := Points | Knots | Degree.
Record spline := mkSpline { sp_points : list (list R); sp_knots : list R; sp_degree : option Z }.
(** [float_of]: Python's [float] ([None]: ValueError); [int_of]: [int(float(.))] *)
Section Parser.
  Variable float_of : text -> option R.
  Variable int_of : text -> option Z.
  Fixpoint floats (l : list text) : res (list R) :=
    match l with
    | [] => Ok []
    | p :: t => match float_of p with None => Exn ValueError | Some v => do r <- floats t; Ok (v :: r) end
    end.
  (** lines 16-42, one line; [k] its number *)
  Definition parse_line (k : nat) (m : mode) (sp : spline) (line0 : text) : res (mode * spline) :=
    let line := strip line0 in
    if match line with [] => true | _ => false end then Ok (m, sp)
    else if (k =? 0)%nat && text_eqb (lower line) (tx "x,y,z") then Ok (m, sp)
    else if startswith (lower line) (tx "knot") then Ok (Knots, sp)
    else if startswith (lower line) (tx "degree") then Ok (Degree, sp)
    else match m with
      | Points => let parts := split line in
          if (length parts =? 3)%nat then do r <- floats parts; Ok (m, mkSpline (sp_points sp ++ [r]) (sp_knots sp) (sp_degree sp)) else Ok (m, sp)
      | Knots => do r <- floats (map strip (filter (fun p => match strip p with [] => false | _ => true end) (split line)));
          Ok (m, mkSpline (sp_points sp) (sp_knots sp ++ r) (sp_degree sp))
      | Degree => match int_of line with None => Exn ValueError | Some d => Ok (m, mkSpline (sp_points sp) (sp_knots sp) (Some d)) end
      end.
  Fixpoint parse_lines (k : nat) (m : mode) (sp : spline) (ls : list text) : res spline :=
    match ls with [] => Ok sp | l :: t => do r <- parse_line k m sp l; parse_lines (S k) (fst r) (snd r) t end.
  Definition read_bspline (ls : list text) : res spline := parse_lines 0 Points (mkSpline [] [] None) ls.
End Parser.
