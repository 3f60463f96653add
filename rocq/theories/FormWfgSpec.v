(** Published formulas of the WFG problems, independently of the model: Huband, Hingston, Barone, While, "A review of
    multiobjective test problems and a scalable test problem toolkit".  Vectors are functions of the indices 1, 2, ... *)
From Coq Require Import List Arith Bool Reals.
From Verif Require Import FormSpec.
Import ListNotations.
Open Scope R_scope.

Definition Floor (a : R) : R := IZR (Int_part a).
(** ** transformations *)
Definition SLinear (A y : R) : R := Rabs (y - A) / Rabs (Floor (A - y) + A).
Definition SDecept (A B C y : R) : R :=
  1 + (Rabs (y - A) - B) * (Floor (y - A + B) * (1 - C + (A - B) / B) / (A - B) + Floor (A + B - y) * (1 - C + (1 - A - B) / B) / (1 - A - B) + 1 / B).
Definition SMulti (A B C y : R) : R :=
  let s := Rabs (y - C) / (2 * (Floor (C - y) + C)) in (1 + cos ((4 * A + 2) * PI * (0.5 - s)) + 4 * B * s ^ 2) / (B + 2).
Definition BFlat (A B C y : R) : R :=
  A + Rmin 0 (Floor (y - B)) * (A * (B - y) / B) - Rmin 0 (Floor (C - y)) * ((1 - A) * (y - C) / (1 - C)).
Definition BPoly (alpha y : R) : R := power y alpha.
Definition BParam (A B C y u : R) : R := power y (B + (C - B) * (A - (1 - 2 * u) * Rabs (Floor (0.5 - u) + A))).
Definition RSum (w y : nat -> R) (J : list nat) : R := Sum J (fun j => w j * y j) / Sum J w.
Definition Ceil2 (A : nat) : R := INR ((A + 1) / 2).
Definition RNonSep (A : nat) (y : nat -> R) (J : list nat) : R :=
  let N := length J in let el p := y (nth p J 0%nat) in
  Sum (seq 0 N) (fun p => el p + Sum (seq 0 (A - 1)) (fun q => Rabs (el p - el ((p + q + 1) mod N)%nat)))
  / (INR N / INR A * Ceil2 A * (1 + 2 * INR A - 2 * Ceil2 A)).

(** ** the problems, with [n = k + l] variables, [M] objectives and normalised variables [y] *)
Section Problems.
Variables (n M k : nat).
Let one (_ : nat) : R := 1.
Let twice (j : nat) : R := 2 * INR j.
(** the indices of group i *)
Definition Group (i : nat) : list nat := seq ((i - 1) * (k / (M - 1)) + 1) (k / (M - 1)).
(** keep the first [k], change the others *)
Definition Late (f : nat -> R) (y : nat -> R) (i : nat) : R := if (i <=? k)%nat then y i else f i.
Definition Early (f : nat -> R) (y : nat -> R) (i : nat) : R := if (i <=? k)%nat then f i else y i.
(** reduce the groups by [r] and the indices [rest] by [r'] *)
Definition Reduce (r r' : (nat -> R) -> list nat -> R) (rest : list nat) (y : nat -> R) (i : nat) : R :=
  if (i <? M)%nat then r y (Group i) else r' y rest.
Let Linear (y : nat -> R) : nat -> R := Late (fun i => SLinear 0.35 (y i)) y.
Let Param : R -> R -> R := BParam (0.98 / 49.98) 0.02 50.
Let dist : list nat := seq (k + 1) (n - k).
Definition WfgT (number : nat) (y : nat -> R) : nat -> R :=
  match number with
  | 1%nat => let t1 := Linear y in
             let t2 := Late (fun i => BFlat 0.8 0.75 0.85 (t1 i)) t1 in
             let t3 := fun i => BPoly 0.02 (t2 i) in
             Reduce (RSum twice) (RSum twice) dist t3
  | 2%nat | 3%nat => let t1 := Linear y in
             let t2 := Late (fun i => RNonSep 2 t1 [(k + 2 * (i - k) - 1)%nat; (k + 2 * (i - k))%nat]) t1 in
             Reduce (RSum one) (RSum one) (seq (k + 1) ((n - k) / 2)) t2
  | 4%nat => Reduce (RSum one) (RSum one) dist (fun i => SMulti 30 10 0.35 (y i))
  | 5%nat => Reduce (RSum one) (RSum one) dist (fun i => SDecept 0.35 0.001 0.05 (y i))
  | 6%nat => Reduce (RNonSep (k / (M - 1))) (RNonSep (n - k)) dist (Linear y)
  | 7%nat => let t1 := Early (fun i => Param (y i) (RSum one y (seq (i + 1) (n - i)))) y in Reduce (RSum one) (RSum one) dist (Linear t1)
  | 8%nat => let t1 := Late (fun i => Param (y i) (RSum one y (seq 1 (i - 1)))) y in Reduce (RSum one) (RSum one) dist (Linear t1)
  | _ => let t1 := fun i => if (i <? n)%nat then Param (y i) (RSum one y (seq (i + 1) (n - i))) else y i in
         let t2 := fun i => if (i <=? k)%nat then SDecept 0.35 0.001 0.05 (t1 i) else SMulti 30 95 0.35 (t1 i) in
         Reduce (RNonSep (k / (M - 1))) (RNonSep (n - k)) dist t2
  end.
(** the coordinates of the shapes; all degeneracy constants are 1 except those of WFG3 from the second on *)
Definition WfgX (number : nat) (t : nat -> R) (i : nat) : R :=
  let A := if ((number =? 3) && negb (i =? 1))%nat then 0 else 1 in Rmax (t M) A * (t i - 0.5) + 0.5.
(** shape functions: a product of [up] and a last factor [dn] *)
Definition Shape (up dn : R -> R) (x : nat -> R) (m : nat) : R :=
  Prod (seq 1 (M - m)) (fun i => up (x i)) * (if (m =? 1)%nat then 1 else dn (x (M - m + 1)%nat)).
Definition WfgH (number : nat) (x : nat -> R) (m : nat) : R :=
  let convex := Shape (fun a => 1 - cos (a * PI / 2)) (fun a => 1 - sin (a * PI / 2)) x m in
  match number with
  | 1%nat => if (m =? M)%nat then 1 - x 1%nat - cos (2 * 5 * PI * x 1%nat + PI / 2) / (2 * 5 * PI) else convex
  | 2%nat => if (m =? M)%nat then 1 - x 1%nat * cos (5 * x 1%nat * PI) ^ 2 else convex
  | 3%nat => Shape (fun a => a) (fun a => 1 - a) x m
  | _ => Shape (fun a => sin (a * PI / 2)) (fun a => cos (a * PI / 2)) x m
  end.
Definition WFG (number : nat) (xu x : list R) : list R :=
  let t := WfgT number (fun i => X x i / X xu i) in
  map (fun m => t M + 2 * INR m * WfgH number (WfgX number t) m) (seq 1 M).
End Problems.
