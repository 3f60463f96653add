(** Model of the problems that the example scripts of /repo/examples/HVN and /repo/examples/DpN define themselves. *)
From Coq Require Import List Arith ZArith Reals.
Import ListNotations.
Open Scope R_scope.

(** vectors of three numbers; the scripts call the functions with these only (other lengths: [None]) *)
Definition sq3 (c : R * R * R) (a b d : R) : R := let '(c1, c2, c3) := c in (a - c1) ^ 2 + (b - c2) ^ 2 + (d - c3) ^ 2.
Definition grad3 (c : R * R * R) (a b d : R) : list R := let '(c1, c2, c3) := c in [2 * (a - c1); 2 * (b - c2); 2 * (d - c3)].
Definition two_eye : list (list R) := [[2; 0; 0]; [0; 2; 0]; [0; 0; 2]].
(** [MOP1], [MOP1_Jacobian], [MOP1_Hessian]: HVN/3D_example1.py 19-38, HVN/3D_example2.py 36-60; the same in DpN/3D_example1.py and DpN/3D_example2.py *)
Record centres : Type := mkC { k1 : R * R * R; k2 : R * R * R; k3 : R * R * R }.
Definition mop3 (C : centres) (x : list R) : option (list R) :=
  match x with [a; b; d] => Some [sq3 (k1 C) a b d; sq3 (k2 C) a b d; sq3 (k3 C) a b d] | _ => None end.
Definition mop3_jac (C : centres) (x : list R) : option (list (list R)) :=
  match x with [a; b; d] => Some [grad3 (k1 C) a b d; grad3 (k2 C) a b d; grad3 (k3 C) a b d] | _ => None end.
Definition mop3_hess (x : list R) : list (list (list R)) := [two_eye; two_eye; two_eye].
(** the centres: 3D_example1.py 14-16 and 3D_example2.py 31-33 *)
Definition ex1 : centres := mkC (1, 1, 0) (1, -1, 0) (-1, 0, 0).
Definition ex2 : centres := mkC (-1, -1, -1) (-1, 0, 0) (-2, -2, 4).

(** ** 3D_example1.py 41-76 *)
Definition mid : R * R * R := (2 / sqrt 3 - 1, 0, -1.5).
Definition ex1_h (a b d : R) : R := sq3 mid a b d - 1.
Definition ex1_h_jac (a b d : R) : list R := grad3 mid a b d.
(** [np.linspace(a, b, n)], entry [j] *)
Definition lin (a b : R) (n j : nat) : R := if (n =? 1)%nat then a else a + INR j * ((b - a) / INR (n - 1)).
(** lines 60-73: the rows of [point_set], in the plane of the centres ([int(np.sqrt(200))] is 14) *)
Definition ex1_points : list (R * R) :=
  flat_map (fun i => let x := lin (-1) 1 14 i in let n := (1 + 2 * i)%nat in
    map (fun j => (x, lin (- (0.5) * x - 0.5) (0.5 * x + 0.5) n j)) (seq 0 n)) (seq 0 14).
(** lines 74-75: a row moved onto the sphere *)
Definition onto (p : R * R) : list R :=
  let '(m1, m2, m3) := mid in
  let u := fst p - m1 in let v := snd p - m2 in let w := 0 - m3 in
  let r := sqrt (u ^ 2 + v ^ 2 + w ^ 2) in [u / r + m1; v / r + m2; w / r + m3].

(** ** 3D_example2.py: [h] and [h_Jacobian], HVN lines 66-77 ([g] and [g_Jacobian], DpN lines 64-71, have the other sign) *)
Definition ex2_h (a b d : R) : R := a.
Definition ex2_h_jac (a b d : R) : list R := [1; 0; 0].
(** lines 80-88: the rows of [point_set] as pairs; the first coordinate is 0.  [int] of the
    only negative argument (first [z]) gives 0, as [Z.to_nat] does here *)
Definition ex2_z (i : nat) : R := lin (-1.01) 3.99 50 i.
Definition ex2_right (z : R) : R := if Rle_dec 0 z then z / -2 else z.
Definition ex2_left (z : R) : R := (z + 6) / -5.
Definition ex2_n (z : R) : nat := Z.to_nat (Int_part (10 * (ex2_right z - ex2_left z))).
Definition ex2_row (i : nat) : list (R * R) :=
  let z := ex2_z i in map (fun j => (lin (ex2_left z - 0.01) (ex2_right z + 0.01) (ex2_n z) j, z)) (seq 0 (ex2_n z)).
Definition ex2_points : list (R * R) := [(-1, -1); (0, 0); (-2, 4)] ++ flat_map ex2_row (seq 0 50).
Definition flat0 (p : R * R) : list R := [0; fst p; snd p].

(** ** EqCon1.py: HVN lines 28-54 with [e = 1], DpN lines 30-56 with [e = 0.5] *)
Definition eq1 (e : R) (x : list R) : option (list R) :=
  match x with [a; b] => Some [(a + 1) ^ 2 + (b + 1) ^ 2; (a - 1) ^ 2 + (b - e) ^ 2] | _ => None end.
Definition eq1_jac (e : R) (x : list R) : option (list (list R)) :=
  match x with [a; b] => Some [[2 * (a + 1); 2 * (b + 1)]; [2 * (a - 1); 2 * (b - e)]] | _ => None end.
Definition eq1_h (a b : R) : R := b.
(** [pareto_set], HVN lines 76-77 *)
Definition eq1_set : list (list R) := map (fun j => [lin (-1) 1 500 j; 0]) (seq 0 500).

(** ** concave_example.py 29-50 and convex_example.py 29-50 *)
Definition same (x : list R) : option (list R) := Some x.
Definition concave_g (a b : R) : R := 1 - a ^ 2 - b.
Definition concave_g_jac (a b : R) : list R := [- 2 * a; - 1].
Definition concave_g_hess : list (list R) := [[- 2; 0]; [0; 0]].
Definition convex_g (a b : R) : R := a ^ 2 - 2 * a + 1 - b.
Definition convex_g_jac (a b : R) : list R := [2 * a - 2; - 1].
Definition convex_g_hess : list (list R) := [[2; 0]; [0; 0]].
