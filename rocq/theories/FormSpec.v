(** Published formulas of the benchmark problems, independently of the model: variables and objectives are
    counted from 1 as in the literature.
    UF, CF: Zhang et al., "Multiobjective optimization test instances for the CEC 2009 special session and competition";
    ZDT: Zitzler, Deb, Thiele, "Comparison of multiobjective evolutionary algorithms";
    DTLZ: Deb, Thiele, Laumanns, Zitzler, "Scalable test problems for evolutionary multiobjective optimization". *)
From Coq Require Import List Arith Bool Reals.
Import ListNotations.
Open Scope R_scope.

Definition Sum (J : list nat) (f : nat -> R) : R := fold_right Rplus 0 (map f J).
Definition Prod (J : list nat) (f : nat -> R) : R := fold_right Rmult 1 (map f J).
(** variable [j] of the point [x] *)
Definition X (x : list R) (j : nat) : R := nth (j - 1) x 0.
(** twice the average over a set of indices *)
Definition Avg2 (J : list nat) (f : nat -> R) : R := 2 / INR (length J) * Sum J f.
(** powers of numbers that are not negative, with positive exponents *)
Definition power (a e : R) : R := if Req_EM_T a 0 then 0 else Rpower a e.
(** odd and even indices from 2 to n *)
Definition Odd (n : nat) : list nat := filter Nat.odd (seq 2 (n - 1)).
Definition Even (n : nat) : list nat := filter Nat.even (seq 2 (n - 1)).
(** indices from 3 to n with a given remainder modulo 3 *)
Definition Mod3 (n r : nat) : list nat := filter (fun j => j mod 3 =? r)%nat (seq 3 (n - 2)).

Section Formulas.
Variables (n : nat) (x : list R).
Let x1 := X x 1.
Let x2 := X x 2.
Let ph (j : nat) : R := 6 * PI * x1 + INR j * PI / INR n.
(** the rugged penalty of UF3, UF6 and CF3 *)
Definition Rugged (J : list nat) (y : nat -> R) : R :=
  2 / INR (length J) * (4 * Sum J (fun j => y j ^ 2) - 2 * Prod J (fun j => cos (20 * y j * PI / sqrt (INR j))) + 2).
Definition UF1 : list R := let y j := X x j - sin (ph j) in
  [x1 + Avg2 (Odd n) (fun j => y j ^ 2); 1 - sqrt x1 + Avg2 (Even n) (fun j => y j ^ 2)].
Definition UF2 : list R :=
  let a j := 0.3 * x1 ^ 2 * cos (24 * PI * x1 + 4 * INR j * PI / INR n) + 0.6 * x1 in
  [x1 + Avg2 (Odd n) (fun j => (X x j - a j * cos (ph j)) ^ 2); 1 - sqrt x1 + Avg2 (Even n) (fun j => (X x j - a j * sin (ph j)) ^ 2)].
Definition UF3 : list R := let y j := X x j - power x1 (0.5 * (1 + 3 * (INR j - 2) / (INR n - 2))) in
  [x1 + Rugged (Odd n) y; 1 - sqrt x1 + Rugged (Even n) y].
Definition UF4 : list R := let y j := X x j - sin (ph j) in let h t := Rabs t / (1 + exp (2 * Rabs t)) in
  [x1 + Avg2 (Odd n) (fun j => h (y j)); 1 - x1 ^ 2 + Avg2 (Even n) (fun j => h (y j))].
(** N = 10, epsilon = 0.1 *)
Definition UF5 : list R := let y j := X x j - sin (ph j) in let h t := 2 * t ^ 2 - cos (4 * PI * t) + 1 in
  let c := (1 / (2 * 10) + 0.1) * Rabs (sin (2 * 10 * PI * x1)) in
  [x1 + c + Avg2 (Odd n) (fun j => h (y j)); 1 - x1 + c + Avg2 (Even n) (fun j => h (y j))].
(** N = 2, epsilon = 0.1 *)
Definition UF6 : list R := let y j := X x j - sin (ph j) in
  let c := Rmax 0 (2 * (1 / (2 * 2) + 0.1) * sin (2 * 2 * PI * x1)) in
  [x1 + c + Rugged (Odd n) y; 1 - x1 + c + Rugged (Even n) y].
Definition UF7 : list R := let y j := X x j - sin (ph j) in
  [power x1 (1 / 5) + Avg2 (Odd n) (fun j => y j ^ 2); 1 - power x1 (1 / 5) + Avg2 (Even n) (fun j => y j ^ 2)].
Let y3 (j : nat) : R := X x j - 2 * x2 * sin (2 * PI * x1 + INR j * PI / INR n).
Definition UF8 : list R :=
  [cos (x1 * PI / 2) * cos (x2 * PI / 2) + Avg2 (Mod3 n 1) (fun j => y3 j ^ 2);
   cos (x1 * PI / 2) * sin (x2 * PI / 2) + Avg2 (Mod3 n 2) (fun j => y3 j ^ 2);
   sin (x1 * PI / 2) + Avg2 (Mod3 n 0) (fun j => y3 j ^ 2)].
(** epsilon = 0.1 *)
Definition UF9 : list R :=
  let a := Rmax 0 ((1 + 0.1) * (1 - 4 * (2 * x1 - 1) ^ 2)) in
  [0.5 * (a + 2 * x1) * x2 + Avg2 (Mod3 n 1) (fun j => y3 j ^ 2);
   0.5 * (a - 2 * x1 + 2) * x2 + Avg2 (Mod3 n 2) (fun j => y3 j ^ 2);
   1 - x2 + Avg2 (Mod3 n 0) (fun j => y3 j ^ 2)].
Definition UF10 : list R :=
  let h t := 4 * t ^ 2 - cos (8 * PI * t) + 1 in
  [cos (x1 * PI / 2) * cos (x2 * PI / 2) + Avg2 (Mod3 n 1) (fun j => h (y3 j));
   cos (x1 * PI / 2) * sin (x2 * PI / 2) + Avg2 (Mod3 n 2) (fun j => h (y3 j));
   sin (x1 * PI / 2) + Avg2 (Mod3 n 0) (fun j => h (y3 j))].

(** ** CF: objectives, and constraints of the form [... >= 0] *)
Definition CF1 : list R := let y j := X x j - power x1 (0.5 * (1 + 3 * (INR j - 2) / (INR n - 2))) in
  [x1 + Avg2 (Odd n) (fun j => y j ^ 2); 1 - x1 + Avg2 (Even n) (fun j => y j ^ 2)].
Definition CF2 : list R :=
  [x1 + Avg2 (Odd n) (fun j => (X x j - sin (ph j)) ^ 2); 1 - sqrt x1 + Avg2 (Even n) (fun j => (X x j - cos (ph j)) ^ 2)].
Definition CF3 : list R := let y j := X x j - sin (ph j) in
  [x1 + Rugged (Odd n) y; 1 - x1 ^ 2 + Rugged (Even n) y].
(** the function of the second variable in CF4 and CF5 *)
Definition Bent (t : R) : R := if Rlt_dec t (3 / 2 * (1 - sqrt 2 / 2)) then Rabs t else 0.125 + (t - 1) ^ 2.
Definition CF4 : list R := let y j := X x j - sin (ph j) in
  [x1 + Sum (Odd n) (fun j => y j ^ 2); 1 - x1 + Sum (Even n) (fun j => if (j =? 2)%nat then Bent (y j) else y j ^ 2)].
Let y5 (trig : R -> R) (j : nat) : R := X x j - 0.8 * x1 * trig (ph j).
Definition CF5 : list R := let h t := 2 * t ^ 2 - cos (4 * PI * t) + 1 in
  [x1 + Sum (Odd n) (fun j => h (y5 cos j)); 1 - x1 + Sum (Even n) (fun j => if (j =? 2)%nat then Bent (y5 sin j) else h (y5 sin j))].
Definition CF6 : list R :=
  [x1 + Sum (Odd n) (fun j => y5 cos j ^ 2); (1 - x1) ^ 2 + Sum (Even n) (fun j => y5 sin j ^ 2)].
Definition CF7 : list R := let h t := 2 * t ^ 2 - cos (4 * PI * t) + 1 in
  [x1 + Sum (Odd n) (fun j => h (X x j - cos (ph j)));
   (1 - x1) ^ 2 + Sum (Even n) (fun j => let y := X x j - sin (ph j) in if (j =? 2)%nat || (j =? 4)%nat then y ^ 2 else h y)].
(** constraints of the objective vector, a = 1, N = 10; a = 1, N = 2; a = 1, N = 2 *)
Definition CF1c (f : list R) : R := let f1 := nth 0 f 0 in let f2 := nth 1 f 0 in f1 + f2 - 1 * Rabs (sin (10 * PI * (f1 - f2 + 1))) - 1.
Definition Squash (t : R) : R := t / (1 + exp (4 * Rabs t)).
Definition CF2c (f : list R) : R := let f1 := nth 0 f 0 in let f2 := nth 1 f 0 in Squash (f2 + sqrt f1 - 1 * sin (2 * PI * (sqrt f1 - f2 + 1)) - 1).
Definition CF3c (f : list R) : R := let f1 := nth 0 f 0 in let f2 := nth 1 f 0 in f2 + f1 ^ 2 - 1 * sin (2 * PI * (f1 ^ 2 - f2 + 1)) - 1.
Definition CF4c : R := Squash (x2 - sin (6 * PI * x1 + 2 * PI / INR n) - 0.5 * x1 + 0.25).
Definition CF5c : R := x2 - 0.8 * x1 * sin (6 * PI * x1 + 2 * PI / INR n) - 0.5 * x1 + 0.25.
(** sign(a) sqrt|a| *)
Definition SignRoot (a : R) : R := if Rle_dec 0 a then sqrt a else - sqrt (- a).
Definition CF6c : list R :=
  [x2 - 0.8 * x1 * sin (6 * PI * x1 + 2 * PI / INR n) - SignRoot (0.5 * (1 - x1) - (1 - x1) ^ 2);
   X x 4 - 0.8 * x1 * sin (6 * PI * x1 + 4 * PI / INR n) - SignRoot (0.25 * sqrt (1 - x1) - 0.5 * (1 - x1))].
Definition CF7c : list R :=
  [x2 - sin (6 * PI * x1 + 2 * PI / INR n) - SignRoot (0.5 * (1 - x1) - (1 - x1) ^ 2);
   X x 4 - sin (6 * PI * x1 + 4 * PI / INR n) - SignRoot (0.25 * sqrt (1 - x1) - 0.5 * (1 - x1))].
(** CF8: a = 4, with absolute value; CF9: a = 3; CF10: a = 1; N = 2 *)
Definition Ratio (h : R -> R) (f : list R) : R :=
  let f1 := nth 0 f 0 in let f2 := nth 1 f 0 in let f3 := nth 2 f 0 in
  (f1 ^ 2 + f2 ^ 2) / (1 - f3 ^ 2) - h (sin (2 * PI * ((f1 ^ 2 - f2 ^ 2) / (1 - f3 ^ 2) + 1))) - 1.
Definition CF8c : list R -> R := Ratio (fun s => 4 * Rabs s).
Definition CF9c : list R -> R := Ratio (fun s => 3 * s).
Definition CF10c : list R -> R := Ratio (fun s => s).

(** ** ZDT *)
Let rest : list nat := seq 2 (n - 1).
Definition ZDTg : R := 1 + 9 / (INR n - 1) * Sum rest (X x).
Definition ZDT1 : list R := [x1; ZDTg * (1 - sqrt (x1 / ZDTg))].
Definition ZDT2 : list R := [x1; ZDTg * (1 - (x1 / ZDTg) ^ 2)].
Definition ZDT3 : list R := [x1; ZDTg * (1 - sqrt (x1 / ZDTg) - x1 / ZDTg * sin (10 * PI * x1))].
Definition ZDT4g : R := 1 + 10 * (INR n - 1) + Sum rest (fun j => X x j ^ 2 - 10 * cos (4 * PI * X x j)).
Definition ZDT4 : list R := [x1; ZDT4g * (1 - sqrt (x1 / ZDT4g))].
Definition ZDT6g : R := 1 + 9 * power (Sum rest (X x) / (INR n - 1)) 0.25.
Definition ZDT6 : list R := let f1 := 1 - exp (-4 * x1) * sin (6 * PI * x1) ^ 6 in [f1; ZDT6g * (1 - (f1 / ZDT6g) ^ 2)].

(** ** DTLZ with [m] objectives: [C j], [S j] are the two factors of position variable [j] *)
Variable m : nat.
Definition Products (c : R) (C S : nat -> R) : list R :=
  map (fun i => c * Prod (seq 1 (m - i)) C * (if (i =? 1)%nat then 1 else S (m - i + 1)%nat)) (seq 1 m).
(** the distance variables are m, ..., n *)
Let last : list nat := seq m (n + 1 - m).
Definition GRast : R := 100 * (INR (length last) + Sum last (fun j => (X x j - 0.5) ^ 2 - cos (20 * PI * (X x j - 0.5)))).
Definition GSphere : R := Sum last (fun j => (X x j - 0.5) ^ 2).
Definition GRoot : R := Sum last (fun j => power (X x j) 0.1).
Definition DTLZ1 : list R := Products (0.5 * (1 + GRast)) (X x) (fun j => 1 - X x j).
Definition DTLZ2 : list R := Products (1 + GSphere) (fun j => cos (X x j * PI / 2)) (fun j => sin (X x j * PI / 2)).
Definition DTLZ3 : list R := Products (1 + GRast) (fun j => cos (X x j * PI / 2)) (fun j => sin (X x j * PI / 2)).
(** alpha = 100 *)
Definition DTLZ4 : list R := Products (1 + GSphere) (fun j => cos (X x j ^ 100 * PI / 2)) (fun j => sin (X x j ^ 100 * PI / 2)).
Definition Theta (g : R) (j : nat) : R := if (j =? 1)%nat then X x 1 * PI / 2 else PI / (4 * (1 + g)) * (1 + 2 * g * X x j).
Definition DTLZ5 : list R := Products (1 + GSphere) (fun j => cos (Theta GSphere j)) (fun j => sin (Theta GSphere j)).
Definition DTLZ6 : list R := Products (1 + GRoot) (fun j => cos (Theta GRoot j)) (fun j => sin (Theta GRoot j)).
Definition DTLZ7 : list R :=
  let g := 1 + 9 / INR (length last) * Sum last (X x) in
  map (X x) (seq 1 (m - 1)) ++ [(1 + g) * (INR m - Sum (seq 1 (m - 1)) (fun j => X x j / (1 + g) * (1 + sin (3 * PI * X x j))))].
End Formulas.
(** a result with the exact first objective and a second one that may be off by [g * 1e-6], but is exact under a condition *)
Definition Within (g : R) (u : option (list R)) (v : list R) (exact : Prop) : Prop :=
  exists b, u = Some [nth 0 v 0; b] /\ Rabs (b - nth 1 v 0) <= g * / 10 ^ 6 /\ (exact -> b = nth 1 v 0).
