(** Model of /repo/hvd/problems/wfg.py.  The functions of the file work on a batch of rows and treat
    every row alike; the model has one row.  [None] stands for a result with an undefined or
    infinite entry (division by 0, a power of a negative number, the mean of no numbers). *)
From Coq Require Import List Arith Bool ZArith Reals.
From Verif Require Import Exn ProbModel NewtonModel BenchModel.
Import ListNotations.
Open Scope R_scope.

(** [l[a:b]] *)
Definition slice {A} (a b : nat) (l : list A) : list A := firstn (b - a) (skipn a l).
Fixpoint mapo {A B} (f : A -> option B) (l : list A) : option (list B) :=
  match l with [] => Some [] | a :: t => let? b := f a in let? r := mapo f t in Some (b :: r) end.
(** [jnp.floor] *)
Definition flr (x : R) : R := IZR (Int_part x).
(** [a ** e] *)
Definition pow_pos (a e : R) : option R :=
  if rltb a 0 then None else if reqb a 0 then (if rltb 0 e then Some 0 else if reqb e 0 then Some 1 else None) else Some (Rpower a e).
Definition div (a b : R) : option R := if reqb b 0 then None else Some (a / b).

(** lines 16-18 *)
Definition correct01 (x : R) : R :=
  let e := / 10 ^ 10 in
  let x := if rltb x 0 && rleb (- e) x then 0 else x in
  if rltb 1 x && rleb x (1 + e) then 1 else x.
(** lines 21-23 *)
Definition shift_linear (s v : R) : option R := let? r := div (Rabs (v - s)) (Rabs (flr (s - v) + s)) in Some (correct01 r).
(** lines 26-34; lines 67-73 are the same function with B = 0.001 *)
Definition shift_deceptive (A B C y : R) : option R :=
  let? d1 := div ((A - B)) B in let? d2 := div (1 - A - B) B in let? i := div 1 B in
  let? t1 := div (flr (y - A + B) * (1 - C + d1)) (A - B) in
  let? t2 := div (flr (A + B - y) * (1 - C + d2)) (1 - A - B) in
  Some (correct01 (1 + (Rabs (y - A) - B) * (t1 + t2 + i))).
(** lines 37-40 *)
Definition shift_multi_modal (A B C y : R) : option R :=
  let? t1 := div (Rabs (y - C)) (2 * (flr (C - y) + C)) in
  let t2 := (4 * A + 2) * PI * (/ 2 - t1) in
  let? r := div (1 + cos t2 + 4 * B * (t1 * t1)) (B + 2) in Some (correct01 r).
(** lines 43-49 *)
Definition bias_flat (a b c y : R) : option R :=
  let? u := div (a * (b - y)) b in let? v := div ((1 - a) * (y - c)) (1 - c) in
  Some (correct01 (a + Rmin 0 (flr (y - b)) * u - Rmin 0 (flr (c - y)) * v)).
(** lines 52-53 *)
Definition bias_poly (alpha y : R) : option R := let? r := pow_pos y alpha in Some (correct01 r).
(** lines 56-64; the arguments A, B, C are always the default ones *)
Definition pd_exponent (u : R) : R :=
  let A := 0.98 / 49.98 in 0.02 + (50 - 0.02) * (A - (1 - 2 * u) * Rabs (flr (/ 2 - u) + A)).
Definition param_dependent (y u : R) : option R := let? r := pow_pos y (pd_exponent u) in Some (correct01 r).
(** lines 76-77 *)
Definition weighted_sum (y w : list R) : option R := let? r := div (vsum (zip_with Rmult y w)) (vsum w) in Some (correct01 r).
(** lines 80-81 *)
Definition uniform_sum (y : list R) : option R := let? m := mean y in Some (correct01 m).
(** lines 84-95 *)
Definition non_separable (A : nat) (y : list R) : option R :=
  let n := length y in
  let v := INR ((A + 1) / 2) in
  let? terms := mapo (fun c => let? yc := nth_error y c in
                               let? ds := mapo (fun o => let? yo := nth_error y ((c + o + 1) mod n) in Some (Rabs (yc - yo))) (seq 0 (A - 1)) in
                               Some (yc + vsum ds)) (seq 0 n) in
  let? den := div (INR n * v * (1 + 2 * INR A - 2 * v)) (INR A) in
  let? r := div (vsum terms) den in Some (correct01 r).

(** lines 98-107, 110-119, 122-131: the three families have this form *)
Definition family (up dn : R -> R) (x : list R) (m : nat) : option R :=
  let n := length x in
  let? r := (if (m =? 1)%nat then Some (vprod (map up x))
             else if (m <=? n)%nat then let? a := nth_error x (n - m + 1) in Some (vprod (map up (firstn (n - m + 1) x)) * dn a)
             else let? a := nth_error x 0 in Some (dn a)) in
  Some (correct01 r).
Definition concave : list R -> nat -> option R := family (fun a => sin (/ 2 * a * PI)) (fun a => cos (/ 2 * a * PI)).
Definition convex : list R -> nat -> option R := family (fun a => 1 - cos (/ 2 * a * PI)) (fun a => 1 - sin (/ 2 * a * PI)).
Definition linear : list R -> nat -> option R := family (fun a => a) (fun a => 1 - a).
(** lines 134-136, A = 5, alpha = 1 *)
Definition mixed (a : R) : R := correct01 (1 - a - cos (2 * 5 * PI * a + / 2 * PI) / (2 * 5 * PI)).
(** lines 139-145, alpha = beta = 1, A = 5 *)
Definition disconnected (a : R) : R := correct01 (1 - a * cos (5 * PI * a) ^ 2).
(** lines 148-153 *)
Definition post (t A : list R) : list R :=
  zip_with (fun ti a => Rmax (last t 0) a * (ti - / 2) + / 2) (removelast t) A ++ [last t 0].
(** lines 156-157 *)
Definition calculate (y S shapes : list R) : list R := map (fun v => last y 0 + v) (zip_with Rmult S shapes).

(** lines 160-165: only the entries from [k] on *)
Definition from_k (k : nat) (f : R -> option R) (y : list R) : option (list R) :=
  let? d := mapo f (skipn k y) in Some (firstn k y ++ d).
(** the groups [x[:, (index - 1) * gap : index * gap]] for [index] in [range(1, n_obj)] of lines 168-215 *)
Definition groups (M k : nat) (y : list R) : list (list R) :=
  let gap := (k / (M - 1))%nat in map (fun i => slice ((i - 1) * gap) (i * gap) y) (seq 1 (M - 1)).
(** lines 168-176 *)
Definition weights (n : nat) : list R := map (fun i => 2 * INR i) (seq 1 n).
Definition wfg1_t4 (n M k : nat) (y : list R) : option (list R) :=
  let? p := mapo (fun g => weighted_sum (fst g) (snd g)) (combine (groups M k y) (groups M k (weights n))) in
  let? d := weighted_sum (slice k n y) (slice k n (weights n)) in Some (p ++ [d]).
(** lines 179-184 *)
Definition wfg2_t2 (n k : nat) (y : list R) : option (list R) :=
  let? d := mapo (fun i => let h := (k + 2 * (i - k))%nat in non_separable 2 (slice h (h + 2) y)) (seq k ((n - k) / 2)) in
  Some (firstn k y ++ d).
(** lines 187-195 *)
Definition wfg2_t3 (n M k : nat) (y : list R) : option (list R) :=
  let? p := mapo uniform_sum (groups M k y) in
  let? d := uniform_sum (slice k (k + (n - k) / 2) y) in Some (p ++ [d]).
(** lines 198-205 *)
Definition wfg4_t2 (M k : nat) (y : list R) : option (list R) :=
  let? p := mapo uniform_sum (groups M k y) in
  let? d := uniform_sum (skipn k y) in Some (p ++ [d]).
(** lines 208-215 *)
Definition wfg6_t2 (n M k : nat) (y : list R) : option (list R) :=
  let? p := mapo (non_separable (k / (M - 1))) (groups M k y) in
  let? d := non_separable (n - k) (skipn k y) in Some (p ++ [d]).
(** [y.at[i].set(a)] *)
Definition set_at (i : nat) (a : R) (y : list R) : list R := firstn i y ++ a :: skipn (S i) y.
(** lines 258-259: the loop of WFG7 *)
Fixpoint wfg7_loop (is : list nat) (y : list R) : option (list R) :=
  match is with
  | [] => Some y
  | i :: t => let? yi := nth_error y i in let? u := uniform_sum (skipn (S i) y) in
              let? a := param_dependent yi u in wfg7_loop t (set_at i a y)
  end.
(** lines 265-275 *)
Definition wfg8_t1 (n k : nat) (y : list R) : option (list R) :=
  let? d := mapo (fun i => let? yi := nth_error y i in let? u := uniform_sum (firstn i y) in param_dependent yi u) (seq k (n - k)) in
  Some (firstn k y ++ d).
(** lines 281-285 *)
Definition wfg9_t1 (n : nat) (y : list R) : option (list R) :=
  let? d := mapo (fun i => let? yi := nth_error y i in let? u := uniform_sum (skipn (S i) y) in param_dependent yi u) (seq 0 (n - 1)) in
  Some (d ++ skipn (n - 1) y).
(** lines 286-291 *)
Definition wfg9_t2 (n k : nat) (y : list R) : option (list R) :=
  let? p := mapo (fun i => let? yi := nth_error y i in shift_deceptive 0.35 0.001 0.05 yi) (seq 0 k) in
  let? d := mapo (fun i => let? yi := nth_error y i in shift_multi_modal 30 95 0.35 yi) (seq k (n - k)) in
  Some (p ++ d).

(** lines 228-297: the reduced vector before [_post], from [y = x / xu] *)
Definition wfg_t (number n M k : nat) (y : list R) : option (list R) :=
  match number with
  | 1%nat => let? y := from_k k (shift_linear 0.35) y in let? y := from_k k (bias_flat 0.8 0.75 0.85) y in
             let? y := mapo (bias_poly 0.02) y in wfg1_t4 n M k y
  | 2%nat | 3%nat => let? y := from_k k (shift_linear 0.35) y in let? y := wfg2_t2 n k y in wfg2_t3 n M k y
  | 4%nat => let? y := mapo (shift_multi_modal 30 10 0.35) y in wfg4_t2 M k y
  | 5%nat => let? y := mapo (shift_deceptive 0.35 0.001 0.05) y in wfg4_t2 M k y
  | 6%nat => let? y := from_k k (shift_linear 0.35) y in wfg6_t2 n M k y
  | 7%nat => let? y := wfg7_loop (seq 0 k) y in let? y := from_k k (shift_linear 0.35) y in wfg4_t2 M k y
  | 8%nat => let? y := wfg8_t1 n k y in let? y := from_k k (shift_linear 0.35) y in wfg4_t2 M k y
  | 9%nat => let? y := wfg9_t1 n y in let? y := wfg9_t2 n k y in wfg6_t2 n M k y
  | _ => None
  end.
(** the shapes; [x] is [y[:, :-1]] *)
Definition wfg_shapes (number M : nat) (x : list R) : option (list R) :=
  match number with
  | 1%nat => let? s := mapo (convex x) (seq 1 (M - 1)) in let? a := nth_error x 0 in Some (s ++ [mixed a])
  | 2%nat => let? s := mapo (convex x) (seq 1 M) in let? a := nth_error x 0 in Some (removelast s ++ [disconnected a])
  | 3%nat => mapo (linear x) (seq 1 M)
  | _ => mapo (concave x) (seq 1 M)
  end.
(** lines 218-297; every number outside 1..9 is a ValueError there *)
Definition wfg_eval (number n M k : nat) (xu S A x : list R) : option (list R) :=
  if existsb (fun b => reqb b 0) xu then None else
  let? t := wfg_t number n M k (zip_with Rdiv x xu) in
  let y := if (number =? 9)%nat then t else post t A in
  let? s := wfg_shapes number M (removelast y) in
  Some (calculate y S s).

(** lines 321-328: scales, A and default upper bounds *)
Definition scales (M : nat) : list R := map (fun i => 2 * INR i) (seq 1 M).
Definition degeneracy (number M : nat) : list R :=
  if (number =? 3)%nat then 1 :: repeat 0 (M - 2) else repeat 1 (M - 1).
Definition default_xu (n : nat) : list R := map (fun i => 2 * INR i) (seq 1 n).
(** lines 350-361 *)
Definition wfg (number n M k : nat) (xu x : list R) : option (list R) := wfg_eval number n M k xu (scales M) (degeneracy number M) x.

(** lines 315-317, 338-348: position and distance parameters *)
Definition wfg_params (number : nat) (n M : Z) (k l : option Z) : res (Z * Z) :=
  let k := match k with Some k => k | None => if (M =? 2)%Z then 4%Z else (2 * (M - 1))%Z end in
  let l := match l with Some l => l | None => (n - k)%Z end in
  if (M <? 2)%Z then Exn ValueError else
  if (k <? 4)%Z then Exn ValueError else
  if negb (k mod (M - 1) =? 0)%Z then Exn ValueError else
  if negb (k + l =? n)%Z || (l <? 1)%Z || (k + l <? M)%Z then Exn ValueError else
  if ((number =? 2)%nat || (number =? 3)%nat) && negb (l mod 2 =? 0)%Z then Exn ValueError else
  Ok (k, l).

(** lines 368-374 *)
Definition extremes (k : nat) : list (list R) :=
  map (fun row => map (fun c => if Nat.testbit row c then 1 else 0) (seq 0 k)) (seq 0 (2 ^ k)).
(** lines 417-425: the suffix of WFG8, one entry after the other *)
Fixpoint wfg8_suffix (l : nat) (values : list R) : option (list R) :=
  match l with
  | O => Some values
  | S l => let? d := mean values in
           let t1 := Rabs (flr (/ 2 - d) + 0.98 / 49.98) in
           let t2 := 0.02 + 49.98 * (0.98 / 49.98 - (1 - 2 * d) * t1) in
           let? e := div 1 t2 in let? s := pow_pos 0.35 e in wfg8_suffix l (values ++ [s])
  end.
(** lines 431-437: the entries from the last one down to [k]; an entry is computed from those after it *)
Fixpoint wfg9_suffix (l : nat) : option (list R) :=
  match l with
  | O => Some []
  | S O => Some [0.35]
  | S l => let? r := wfg9_suffix l in let? d := mean r in
           let? e := div 1 (0.02 + 1.96 * d) in let? s := pow_pos 0.35 e in Some (s :: r)
  end.
(** lines 363-365, 417-425, 431-437 *)
Definition optimal_position (number l : nat) (xu p : list R) : option (list R) :=
  let? v := match number with
            | 8%nat => wfg8_suffix l p
            | 9%nat => let? s := wfg9_suffix l in Some (p ++ s)
            | _ => Some (p ++ repeat 0.35 l)
            end in Some (zip_with Rmult v xu).
(** lines 367-380; [interior] is the random array, of [max(0, N - 2 ** k)] rows *)
Definition wfg_set (number k l : nat) (xu : list R) (interior : list (list R)) : option (list (list R)) :=
  let interior := if (number =? 1)%nat then map (map (fun a => a ^ 50)) interior else interior in
  mapo (optimal_position number l xu) (extremes k ++ interior).
(** lines 382-383 *)
Definition wfg_front (number n M k l : nat) (xu : list R) (interior : list (list R)) : option (list (list R)) :=
  let? X := wfg_set number k l xu interior in mapo (wfg number n M k xu) X.
