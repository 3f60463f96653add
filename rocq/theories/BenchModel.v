(** Model of /repo/hvd/problems/zdt.py, uf.py and cf.py: objectives, constraints, default bounds
    and reported fronts.  A result [None] stands for an array with an undefined entry (the mean of
    no numbers, 0/0) or with an entry read outside an array, whose value JAX does not specify. *)
From Coq Require Import List Arith Bool Reals.
From Verif Require Import ProbModel NewtonModel.
Import ListNotations.
Open Scope R_scope.

Notation "'let?' x := e 'in' k" := (match e with Some x => k | None => None end) (at level 200, x pattern, e at level 100, k at level 200).
(** [jnp.mean], [jnp.sum], [jnp.prod] *)
Definition vsum (l : list R) : R := fold_right Rplus 0 l.
Definition vprod (l : list R) : R := fold_right Rmult 1 l.
Definition mean (l : list R) : option R := match l with [] => None | _ => Some (vsum l / INR (length l)) end.
(** [x[idx]] *)
Fixpoint take {A} (l : list A) (idx : list nat) : option (list A) :=
  match idx with [] => Some [] | i :: t => let? a := nth_error l i in let? r := take l t in Some (a :: r) end.
(** [jnp.arange(a, b, s)] for [s > 0] *)
Definition arange (a b s : nat) : list nat := map (fun k => (a + k * s)%nat) (seq 0 ((b - a + (s - 1)) / s)).
(** [np.linspace(0, 1, N)] *)
Definition linspace01 (N : nat) : list R := map (fun i => if (N =? 1)%nat then 0 else INR i / INR (N - 1)) (seq 0 N).
(** [a ** e] for [a >= 0] *)
Definition pw (a e : R) : R := if reqb a 0 then (if reqb e 0 then 1 else 0) else Rpower a e.
(** the position of every entry, from 0 *)
Definition enum {A} (l : list A) : list (nat * A) := combine (seq 0 (length l)) l.
(** [x - t] where entry [i] of [t] is [tgt i] *)
Definition minus_at (tgt : nat -> R) (x : list R) : list R := map (fun ix => snd ix - tgt (fst ix)) (enum x).
Definition sq (a : R) : R := a * a.

(** * zdt.py *)
(** line 9 *)
Definition eps : R := / 10 ^ 12.
(** lines 29-31, kind "linear" *)
Definition zdt_set (n_var N : nat) : list (list R) := map (fun t => t :: repeat 0 (n_var - 1)) (linspace01 N).
(** lines 35-37 *)
Definition zdt_g (x : list R) : option R := let? m := mean (tl x) in Some (1 + 9 * m).
Definition zdt1 (x : list R) : option (list R) :=
  let? x0 := nth_error x 0 in let? g := zdt_g x in Some [x0; g * (1 - sqrt (Rmax (x0 / g) eps))].
(** lines 39-41 *)
Definition zdt1_front (N : nat) : list (list R) := map (fun f => [f; 1 - sqrt f]) (linspace01 N).
(** lines 44-51 *)
Definition zdt2 (x : list R) : option (list R) :=
  let? x0 := nth_error x 0 in let? g := zdt_g x in Some [x0; g * (1 - sq (x0 / g))].
Definition zdt2_front (N : nat) : list (list R) := map (fun f => [f; 1 - sq f]) (linspace01 N).
(** lines 65-68 *)
Definition zdt3 (x : list R) : option (list R) :=
  let? x0 := nth_error x 0 in let? g := zdt_g x in
  let r := x0 / g in Some [x0; g * (1 - sqrt (Rmax r eps) - r * sin (10 * PI * x0))].
(** lines 55-63: the intervals *)
Definition zdt3_regions : list (R * R) :=
  [(0, 0.0830015349); (0.182228780, 0.2577623634); (0.4093136748, 0.4538821041); (0.6183967944, 0.6525117038); (0.8233317983, 0.8518328654)].
(** lines 70-75, flatten; [n_points] not negative *)
Definition zdt3_front (N : nat) : list (list R) :=
  concat (map (fun lh => map (fun t => let f := fst lh + t * (snd lh - fst lh) in [f; 1 - sqrt f - f * sin (10 * PI * f)])
                             (linspace01 (Nat.max 1 (N / 5)))) zdt3_regions).
(** lines 93-95; bounds 89-90: [0, 1] for the first variable and [-5, 5] for the others; front as ZDT1 *)
Definition zdt4 (x : list R) : option (list R) :=
  let? x0 := nth_error x 0 in
  let g := 1 + 10 * INR (length x - 1) + vsum (map (fun a => sq a - 10 * cos (4 * PI * a)) (tl x)) in
  Some [x0; g * (1 - sqrt (Rmax (x0 / g) eps))].
(** lines 108-111 *)
Definition zdt6 (x : list R) : option (list R) :=
  let? x0 := nth_error x 0 in let? m := mean (tl x) in
  let f1 := 1 - exp (-4 * x0) * sin (6 * PI * x0) ^ 6 in
  let g := 1 + 9 * Rpower (Rmax m eps) (/ 4) in
  Some [f1; g * (1 - sq (f1 / g))].
(** lines 113-115 *)
Definition zdt6_front (N : nat) : list (list R) :=
  map (fun t => let f := 0.2807753191 + t * (1 - 0.2807753191) in [f; 1 - sq f]) (linspace01 N).

(** * uf.py, two objectives *)
(** lines 33-34 *)
Definition uf_odd (n : nat) : list nat := arange 2 n 2.
Definition uf_even (n : nat) : list nat := arange 1 n 2.
(** lines 43-44 *)
Definition sine (n : nat) (x0 : R) (i : nat) : R := sin (6 * PI * x0 + INR (i + 1) * PI / INR n).
Definition mean2 (l : list R) : option R := let? m := mean l in Some (2 * m).
(** lines 56-60 *)
Definition uf1 (n : nat) (x : list R) : option (list R) :=
  let? x0 := nth_error x 0 in
  let y := minus_at (sine n x0) x in
  let? yo := take y (uf_odd n) in let? ye := take y (uf_even n) in
  let? p := mean2 (map sq yo) in let? q := mean2 (map sq ye) in
  Some [x0 + p; 1 - sqrt x0 + q].
(** lines 63-74 *)
Definition uf2_tgt (trig : R -> R) (n : nat) (x0 : R) (i : nat) : R :=
  (0.3 * sq x0 * cos (24 * PI * x0 + 4 * INR (i + 1) * PI / INR n) + 0.6 * x0) * trig (6 * PI * x0 + INR (i + 1) * PI / INR n).
Definition uf2 (n : nat) (x : list R) : option (list R) :=
  let? x0 := nth_error x 0 in
  let? yo := take (minus_at (uf2_tgt cos n x0) x) (uf_odd n) in let? ye := take (minus_at (uf2_tgt sin n x0) x) (uf_even n) in
  let? p := mean2 (map sq yo) in let? q := mean2 (map sq ye) in
  Some [x0 + p; 1 - sqrt x0 + q].
(** lines 81-82; entry [i] of the indices is [i + 1] *)
Definition power_tgt (n : nat) (x0 : R) (i : nat) : R := pw x0 (0.5 * (1 + 3 * (INR (i + 1) - 2) / (INR n - 2))).
(** lines 84-90 and 126-132: [idx] are the indices, [z] the entries of y there *)
Definition cos_penalty (idx : list nat) (z : list R) : option R :=
  match idx with
  | [] => None
  | _ => Some (2 / INR (length idx) * (4 * vsum (map sq z) - 2 * vprod (map (fun iz => cos (20 * PI * snd iz / sqrt (INR (fst iz + 1)))) (combine idx z)) + 2))
  end.
(** lines 80-92 *)
Definition uf3 (n : nat) (x : list R) : option (list R) :=
  let? x0 := nth_error x 0 in
  let y := minus_at (power_tgt n x0) x in
  let? yo := take y (uf_odd n) in let? ye := take y (uf_even n) in
  let? p := cos_penalty (uf_odd n) yo in let? q := cos_penalty (uf_even n) ye in
  Some [x0 + p; 1 - sqrt x0 + q].
(** lines 103-105 *)
Definition uf4 (n : nat) (x : list R) : option (list R) :=
  let? x0 := nth_error x 0 in
  let h := map (fun a => Rabs a / (1 + exp (2 * Rabs a))) (minus_at (sine n x0) x) in
  let? ho := take h (uf_odd n) in let? he := take h (uf_even n) in
  let? p := mean2 ho in let? q := mean2 he in
  Some [x0 + p; 1 - sq x0 + q].
(** lines 109-115 *)
Definition wave (a : R) : R := 2 * sq a - cos (4 * PI * a) + 1.
Definition uf5 (n : nat) (x : list R) : option (list R) :=
  let? x0 := nth_error x 0 in
  let h := map wave (minus_at (sine n x0) x) in
  let common := 0.15 * Rabs (sin (20 * PI * x0)) in
  let? ho := take h (uf_odd n) in let? he := take h (uf_even n) in
  let? p := mean2 ho in let? q := mean2 he in
  Some [x0 + common + p; 1 - x0 + common + q].
(** lines 117-119; [N] is not used *)
Definition uf5_front : list (list R) := map (fun i => [INR i / 20; 1 - INR i / 20]) (seq 0 21).
(** lines 123-135 *)
Definition uf6 (n : nat) (x : list R) : option (list R) :=
  let? x0 := nth_error x 0 in
  let y := minus_at (sine n x0) x in
  let common := Rmax 0 (0.7 * sin (4 * PI * x0)) in
  let? yo := take y (uf_odd n) in let? ye := take y (uf_even n) in
  let? p := cos_penalty (uf_odd n) yo in let? q := cos_penalty (uf_even n) ye in
  Some [x0 + common + p; 1 - x0 + common + q].
(** lines 137-140 *)
Definition uf6_keep (f : R) : bool := negb ((rltb 0 f && rltb f 0.25) || (rltb 0.5 f && rltb f 0.75)).
Definition uf6_front (N : nat) : list (list R) := map (fun f => [f; 1 - f]) (filter uf6_keep (linspace01 N)).
(** lines 144-147 *)
Definition uf7 (n : nat) (x : list R) : option (list R) :=
  let? x0 := nth_error x 0 in
  let y := minus_at (sine n x0) x in
  let a := pw x0 0.2 in
  let? yo := take y (uf_odd n) in let? ye := take y (uf_even n) in
  let? p := mean2 (map sq yo) in let? q := mean2 (map sq ye) in
  Some [a + p; 1 - a + q].
(** lines 46-48 with [_front] of lines 52-54, 99-101, 149-151 *)
Definition curve_front (phi : R -> R) (N : nat) : list (list R) := map (fun f => [f; phi f]) (linspace01 N).
Definition uf1_front := curve_front (fun f => 1 - sqrt f).
Definition uf4_front := curve_front (fun f => 1 - sq f).
Definition uf7_front := curve_front (fun f => 1 - f).

(** * uf.py, three objectives *)
(** line 172 *)
Definition uf_groups (n : nat) : list nat * list nat * list nat := (arange 3 n 3, arange 4 n 3, arange 2 n 3).
(** lines 183-184 *)
Definition sine3 (n : nat) (x0 x1 : R) (i : nat) : R := 2 * x1 * sin (2 * PI * x0 + INR (i + 1) * PI / INR n).
(** the three penalties of lines 192-193, 200-201, 215-217; [f] is applied to the entries of y *)
Definition penalties3 (n : nat) (f : R -> R) (y : list R) : option (R * R * R) :=
  let '(g1, g2, g3) := uf_groups n in
  let? y1 := take y g1 in let? y2 := take y g2 in let? y3 := take y g3 in
  let? p1 := mean2 (map f y1) in let? p2 := mean2 (map f y2) in let? p3 := mean2 (map f y3) in
  Some (p1, p2, p3).
Definition sphere3 (n : nat) (f : R -> R) (x : list R) : option (list R) :=
  let? x0 := nth_error x 0 in let? x1 := nth_error x 1 in
  let? (p1, p2, p3) := penalties3 n f (minus_at (sine3 n x0 x1) x) in
  let a := 0.5 * PI * x0 in let b := 0.5 * PI * x1 in
  Some [cos a * cos b + p1; cos a * sin b + p2; sin a + p3].
(** lines 191-195 and 214-219 *)
Definition wave3 (a : R) : R := 4 * sq a - cos (8 * PI * a) + 1.
Definition uf8 (n : nat) : list R -> option (list R) := sphere3 n sq.
Definition uf10 (n : nat) : list R -> option (list R) := sphere3 n wave3.
(** lines 199-205 *)
Definition uf9 (n : nat) (x : list R) : option (list R) :=
  let? x0 := nth_error x 0 in let? x1 := nth_error x 1 in
  let? (p1, p2, p3) := penalties3 n sq (minus_at (sine3 n x0 x1) x) in
  let a := Rmax 0 (1.1 * (1 - 4 * sq (2 * x0 - 1))) in
  Some [0.5 * (a + 2 * x0) * x1 + p1; 0.5 * (a - 2 * x0 + 2) * x1 + p2; 1 - x1 + p3].
(** lines 207-210 for given reference directions (C45) *)
Definition uf9_keep (r : list R) : bool :=
  negb (rltb ((1 - nth 2 r 0) / 4) (nth 0 r 0) && rltb (nth 0 r 0) ((1 - nth 2 r 0) * 3 / 4)).
Definition uf9_front (dirs : list (list R)) : list (list R) := filter uf9_keep dirs.
(** lines 186-187, uf8 and uf10: [generic_sphere] of ProbModel *)

(** * cf.py *)
(** e.g. lines 49-50; counted from 0 *)
Definition cf_J1 (n : nat) : list nat := map (fun j => (j - 1)%nat) (arange 3 n 2).
Definition cf_J2 (n : nat) : list nat := map (fun j => (j - 1)%nat) (arange 2 (n + 2) 2).
(** [jnp.clip] for a lower and an upper bound per entry *)
Definition clip1 (lo hi a : R) : R := Rmin hi (Rmax lo a).
Definition clip (lo hi : list R) (x : list R) : list R := map (fun p => clip1 (fst (fst p)) (snd (fst p)) (snd p)) (combine (combine lo hi) x).
(** default bounds: [a] for the first [k] lower bounds ... *)
Definition bounds (n k : nat) (first rest : R) : list R := repeat first k ++ repeat rest (n - k).
(** lines 43-59; the default bounds are 0 and 1 *)
Definition cf1 (n : nat) (x : list R) : option (list R) :=
  let x := clip (bounds n 0 0 0) (bounds n 0 1 1) x in
  let? x0 := nth_error x 0 in
  let y := minus_at (power_tgt n x0) x in
  let? y1 := take y (cf_J1 n) in let? y2 := take y (cf_J2 n) in
  let? p := mean2 (map sq y1) in let? q := mean2 (map sq y2) in
  Some [x0 + p; 1 - x0 + q].
(** lines 61-63 *)
Definition cf1_con (f : list R) : R := 1 - nth 0 f 0 - nth 1 f 0 + Rabs (sin (10 * PI * (nth 0 f 0 - nth 1 f 0 + 1))).
(** lines 65-67 *)
Definition cf1_front := curve_front (fun f => 1 - f).
(** lines 100-119; bounds 87, 90 *)
Definition cosine (n : nat) (x0 : R) (i : nat) : R := cos (6 * PI * x0 + INR (i + 1) * PI / INR n).
Definition cf2 (n : nat) (x : list R) : option (list R) :=
  let x := clip (bounds n 1 0 (-1)) (bounds n 1 1 1) x in
  let? x0 := nth_error x 0 in
  let? y1 := take (minus_at (sine n x0) x) (cf_J1 n) in let? y2 := take (minus_at (cosine n x0) x) (cf_J2 n) in
  let? p := mean2 (map sq y1) in let? q := mean2 (map sq y2) in
  Some [x0 + p; 1 - sqrt x0 + q].
(** lines 121-126 *)
Definition squash (t : R) : R := - t / (1 + exp (4 * Rabs t)).
Definition cf2_con (f : list R) : R :=
  let s := sqrt (nth 0 f 0) in squash (nth 1 f 0 + s - sin (2 * PI * (s - nth 1 f 0 + 1)) - 1).
(** lines 128-132 *)
Definition cf2_keep (f : R) : bool := (rleb (1/16) f && rleb f (4/16)) || (rleb (9/16) f && rleb f 1).
Definition cf2_front (N : nat) : list (list R) := map (fun f => [f; 1 - sqrt f]) (filter cf2_keep (linspace01 N)).
(** lines 158-171; bounds 147-148 *)
Definition cf3 (n : nat) (x : list R) : option (list R) :=
  let x := clip (bounds n 1 0 (-2)) (bounds n 1 1 2) x in
  let? x0 := nth_error x 0 in
  let y := minus_at (sine n x0) x in
  let? y1 := take y (cf_J1 n) in let? y2 := take y (cf_J2 n) in
  let? p := cos_penalty (cf_J1 n) y1 in let? q := cos_penalty (cf_J2 n) y2 in
  Some [x0 + p; 1 - sq x0 + q].
(** lines 173-177 *)
Definition cf3_con (f : list R) : R := 1 - nth 1 f 0 - sq (nth 0 f 0) + sin (2 * PI * (sq (nth 0 f 0) - nth 1 f 0 + 1)).
(** lines 179-183 *)
Definition cf3_keep (f : R) : bool := negb ((rltb 0 f && rltb f (1/2)) || (rltb (sqrt (1/2)) f && rltb f (sqrt (3/4)))).
Definition cf3_front (N : nat) : list (list R) := map (fun f => [f; 1 - sq f]) (filter cf3_keep (linspace01 N)).
(** lines 209-226; [h] has the entry [0.125] or the absolute value at position 1 *)
Definition threshold : R := 3 / 2 * (1 - sqrt (1 / 2)).
Definition cf4_h (y : list R) : list R :=
  map (fun iy => if (fst iy =? 1)%nat then (if rltb (snd iy) threshold then Rabs (snd iy) else 0.125) else sq (snd iy)) (enum y).
Definition cf4 (n : nat) (x : list R) : option (list R) :=
  let x := clip (bounds n 1 0 (-2)) (bounds n 1 1 2) x in
  let? x0 := nth_error x 0 in
  let h := cf4_h (minus_at (sine n x0) x) in
  let? h1 := take h (cf_J1 n) in let? h2 := take h (cf_J2 n) in
  Some [x0 + vsum h1; 1 - x0 + vsum h2].
(** lines 228-233: of the point, not clipped *)
Definition cf4_con (n : nat) (x : list R) : option R :=
  let? x0 := nth_error x 0 in let? x1 := nth_error x 1 in
  Some (squash (x1 - sin (6 * PI * x0 + 2 * PI / INR n) - 0.5 * x0 + 0.25)).
(** lines 235-242, 299-306 *)
Definition cf4_phi (f : R) : R := if rltb 0.75 f then 1 - f + 0.125 else if rltb 0.5 f then -0.5 * f + 3 / 4 else 1 - f.
Definition cf4_front := curve_front cf4_phi.
(** lines 268-291; position 0 of the second group is variable 1 *)
Definition cf5_tgt (trig : R -> R) (n : nat) (x0 : R) (i : nat) : R := 0.8 * x0 * trig (6 * PI * x0 + INR (i + 1) * PI / INR n).
Definition cf5 (n : nat) (x : list R) : option (list R) :=
  let? x0 := nth_error x 0 in
  let? y1 := take (minus_at (cf5_tgt cos n x0) x) (cf_J1 n) in
  let? y2 := take (minus_at (cf5_tgt sin n x0) x) (cf_J2 n) in
  match y2 with
  | [] => None
  | a :: rest =>
    let h3 := if rltb a threshold then Rabs a else 0.125 + sq (a - 1) in
    Some [x0 + vsum (map wave y1); 1 - x0 + vsum (map wave rest) + h3]
  end.
(** lines 293-297 *)
Definition cf5_con (n : nat) (x : list R) : option R :=
  let? x0 := nth_error x 0 in let? x1 := nth_error x 1 in
  Some (- x1 + 0.8 * x0 * sin (6 * PI * x0 + 2 * PI / INR n) + 0.5 * x0 - 0.25).
(** lines 332-344 *)
Definition cf6 (n : nat) (x : list R) : option (list R) :=
  let? x0 := nth_error x 0 in
  let? y1 := take (minus_at (cf5_tgt cos n x0) x) (cf_J1 n) in
  let? y2 := take (minus_at (cf5_tgt sin n x0) x) (cf_J2 n) in
  Some [x0 + vsum (map sq y1); sq (1 - x0) + vsum (map sq y2)].
(** [sign(a) * sqrt(abs(a))] *)
Definition sign (a : R) : R := if rltb 0 a then 1 else if rltb a 0 then -1 else 0.
Definition sroot (a : R) : R := sign a * sqrt (Rabs a).
(** the last terms of lines 353-354, 359-360 and 417-418, 423-424 *)
Definition cf6_a (x0 : R) : R := sroot (0.5 * (1 - x0) - sq (1 - x0)).
Definition cf6_b (x0 : R) : R := sroot (0.25 * sqrt (1 - x0) - 0.5 * (1 - x0)).
(** lines 346-362 *)
Definition cf6_con (n : nat) (x : list R) : option (list R) :=
  let? x0 := nth_error x 0 in let? x1 := nth_error x 1 in let? x3 := nth_error x 3 in
  Some [- x1 + 0.8 * x0 * sin (6 * PI * x0 + 2 * PI / INR n) + cf6_a x0;
        - x3 + 0.8 * x0 * sin (6 * PI * x0 + 4 * PI / INR n) + cf6_b x0].
(** lines 364-371, 428-435 *)
Definition cf6_phi (f : R) : R := if rltb 0.75 f then 0.25 * sqrt (1 - f) else if rltb 0.5 f then 0.5 * (1 - f) else sq (1 - f).
Definition cf6_front := curve_front cf6_phi.
(** lines 397-408: the first two entries of the second group are squared *)
Definition cf7 (n : nat) (x : list R) : option (list R) :=
  let? x0 := nth_error x 0 in
  let? y1 := take (minus_at (cosine n x0) x) (cf_J1 n) in
  let? y2 := take (minus_at (sine n x0) x) (cf_J2 n) in
  Some [x0 + vsum (map wave y1); sq (1 - x0) + vsum (map wave (skipn 2 y2)) + vsum (map sq (firstn 2 y2))].
(** lines 410-426 *)
Definition cf7_con (n : nat) (x : list R) : option (list R) :=
  let? x0 := nth_error x 0 in let? x1 := nth_error x 1 in let? x3 := nth_error x 3 in
  Some [- x1 + sin (6 * PI * x0 + 2 * PI / INR n) + cf6_a x0; - x3 + sin (6 * PI * x0 + 4 * PI / INR n) + cf6_b x0].

(** lines 459-462; bounds 449-450 *)
Definition cf8 (n : nat) (x : list R) : option (list R) := uf8 n (clip (bounds n 2 0 (-4)) (bounds n 2 1 4) x).
(** lines 464-472, 510-517, 571-578: [None] if the third objective is 1 or -1 *)
Definition ratio_con (h : R -> R) (f : list R) : option R :=
  let d := 1 - sq (nth 2 f 0) in
  if reqb d 0 then None
  else Some (1 - (sq (nth 0 f 0) + sq (nth 1 f 0)) / d + h (2 * PI * ((sq (nth 0 f 0) - sq (nth 1 f 0)) / d + 1))).
Definition cf8_con : list R -> option R := ratio_con (fun a => 4 * Rabs (sin a)).
Definition cf9_con : list R -> option R := ratio_con (fun a => 3 * sin a).
Definition cf10_con : list R -> option R := ratio_con sin.
(** lines 474-483: [np.max(v, 0)] is the largest entry of the vector v *)
Definition cf8_front (N : nat) : list (list R) :=
  let k := ((N + 4) / 5)%nat in
  let rows := concat (map (fun i => map (fun t => let s := sin (t * PI / 2) in (sqrt (INR i / 4 * (1 - sq s)), s)) (linspace01 k)) (seq 0 5)) in
  match map (fun r => 1 - sq (fst r) - sq (snd r)) rows with
  | [] => []
  | a :: t => let top := sqrt (fold_left Rmax t a) in map (fun r => [fst r; top; snd r]) rows
  end.
(** lines 506-508: as CF8 with the bounds of lines 495-496 *)
Definition cf9 (n : nat) (x : list R) : option (list R) := uf8 n (clip (bounds n 2 0 (-2)) (bounds n 2 1 2) x).
(** lines 551-569: the groups are those of UF8 *)
Definition cf10 (n : nat) : list R -> option (list R) := sphere3 n wave3.
(** lines 519-525 and 580-586 for a given random sample [S] *)
Definition cf9_drop (r : list R) : bool :=
  let d := 1 - sq (nth 2 r 0) in
  (rltb (/ 10 ^ 5) (nth 0 r 0) && rltb (nth 0 r 0) (sqrt (d / 4))) || (rltb (sqrt (d / 2)) (nth 0 r 0) && rltb (nth 0 r 0) (sqrt (3 * d / 4))).
Definition cf9_front (S : list (list R)) : list (list R) := filter (fun r => negb (cf9_drop r)) (generic_sphere S).
