(** Property theorems: the benchmark functions are the published ones. *)
From Coq Require Import List Arith Bool Reals ZArith Lia Lra.
From Verif Require Import Num Exn ListAux NewtonModel ProbModel BenchModel BenchSpec FormSpec FormProof.
Import ListNotations.
Open Scope R_scope.

(** * C161: UF1 to UF10 *)
Theorem C161_two_objectives : forall n x, (3 <= n)%nat -> length x = n ->
  uf1 n x = Some (UF1 n x) /\ uf2 n x = Some (UF2 n x) /\ uf3 n x = Some (UF3 n x) /\ uf4 n x = Some (UF4 n x) /\ uf5 n x = Some (UF5 n x) /\ uf6 n x = Some (UF6 n x) /\ uf7 n x = Some (UF7 n x).
Proof. intros n x Hn L. split; [apply uf1_ok; auto|]. split; [apply uf2_ok; auto|]. split; [apply uf3_ok; auto|]. split; [apply uf4_ok; auto|]. split; [apply uf5_ok; auto|]. split; [apply uf6_ok; auto|]. apply uf7_ok; auto. Qed.
Print Assumptions C161_two_objectives.
Theorem C161_three_objectives : forall n x, (5 <= n)%nat -> length x = n ->
  uf8 n x = Some (UF8 n x) /\ uf9 n x = Some (UF9 n x) /\ uf10 n x = Some (UF10 n x).
Proof. intros n x Hn L. split; [apply uf8_ok; auto|]. split; [apply uf9_ok; auto|]. apply uf10_ok; auto. Qed.
Print Assumptions C161_three_objectives.
Example C161_meets : (5 <= 6)%nat /\ length [1/4; 1/2; -1; 2; 0; 1/3] = 6%nat /\ Odd 6 = [3; 5]%nat /\ Even 6 = [2; 4; 6]%nat /\ Mod3 6 0 = [3; 6]%nat.
Proof. repeat split; try reflexivity. lia. Qed.

(** * C162: CF1 to CF10 *)
Theorem C162_two_objectives : forall n x, (4 <= n)%nat -> Nat.even n = true -> length x = n ->
  (in_box n 0 0 1 0 1 x -> cf1 n x = Some (CF1 n x)) /\ (in_box n 1 0 1 (-1) 1 x -> cf2 n x = Some (CF2 n x)) /\ (in_box n 1 0 1 (-2) 2 x -> cf3 n x = Some (CF3 n x))
  /\ cf5 n x = Some (CF5 n x) /\ cf6 n x = Some (CF6 n x) /\ cf7 n x = Some (CF7 n x).
Proof.
  intros n x Hn He L. split; [|split; [|split; [|split; [|split]]]].
  - intros Hb. apply cf1_ok; auto.
  - apply cf2_ok; auto.
  - apply cf3_ok; auto.
  - apply cf5_ok; auto.
  - apply cf6_ok; auto.
  - apply cf7_ok; auto.
Qed.
Print Assumptions C162_two_objectives.
Theorem C162_three_objectives : forall n x, (5 <= n)%nat -> length x = n ->
  (in_box n 2 0 1 (-4) 4 x -> cf8 n x = Some (UF8 n x)) /\ (in_box n 2 0 1 (-2) 2 x -> cf9 n x = Some (UF8 n x)) /\ cf10 n x = Some (UF10 n x).
Proof. intros n x Hn L. split; [|split]; [apply cf8_ok|apply cf9_ok|apply cf10_ok]; auto. Qed.
Print Assumptions C162_three_objectives.
(** constraints [c >= 0] of the publication are [- c <= 0] here *)
Theorem C162_constraints_of_objectives : forall f, cf1_con f = - CF1c f /\ cf2_con f = - CF2c f /\ cf3_con f = - CF3c f
  /\ (nth 2 f 0 ^ 2 <> 1 -> cf8_con f = Some (- CF8c f) /\ cf9_con f = Some (- CF9c f) /\ cf10_con f = Some (- CF10c f)).
Proof.
  intros f. split; [apply cf1c_ok|]. split; [apply cf2c_ok|]. split; [apply cf3c_ok|]. intros H.
  split; [apply (ratio_ok (fun s => 4 * Rabs s)); auto|]. split; [apply (ratio_ok (fun s => 3 * s)); auto|]. exact (ratio_ok (fun s => s) f H).
Qed.
Print Assumptions C162_constraints_of_objectives.
Theorem C162_constraints_of_variables : forall n x, (4 <= length x)%nat ->
  cf4_con n x = Some (- CF4c n x) /\ cf5_con n x = Some (- CF5c n x) /\ cf6_con n x = Some (map Ropp (CF6c n x)) /\ cf7_con n x = Some (map Ropp (CF7c n x)).
Proof. intros n x H. split; [apply cf4c_ok; lia|]. split; [apply cf5c_ok; lia|]. split; [apply cf6c_ok; lia|]. apply cf7c_ok; lia. Qed.
Print Assumptions C162_constraints_of_variables.
(** CF4: the code has the constant 0.125 in place of 0.125 + (t - 1)^2 *)
Theorem C162_cf4_partial : forall n x, (4 <= n)%nat -> Nat.even n = true -> in_box n 1 0 1 (-2) 2 x ->
  let y2 := X x 2 - sin (6 * PI * X x 1 + 2 * PI / INR n) in
  cf4 n x = Some [nth 0 (CF4 n x) 0; nth 1 (CF4 n x) 0 - if Rlt_dec y2 (3 / 2 * (1 - sqrt 2 / 2)) then 0 else (y2 - 1) ^ 2].
Proof. intros n x Hn He Hb. apply cf4_is; auto. apply Hb. Qed.
Print Assumptions C162_cf4_partial.
Theorem C162_cf4_refuted : forall n, (4 <= n)%nat -> Nat.even n = true ->
  exists x, in_box n 1 0 1 (-2) 2 x /\ cf4 n x = Some [nth 0 (CF4 n x) 0; nth 1 (CF4 n x) 0 - 1] /\ cf4 n x <> Some (CF4 n x).
Proof.
  intros n Hn He. destruct (cf4_differs n Hn He) as (x & Hb & E). exists x. split; auto. split; auto. rewrite E. intros H. injection H as H. cbn [nth] in H. lra.
Qed.
Print Assumptions C162_cf4_refuted.
Example C162_meets : in_box 4 0 0 1 0 1 [1/2; 1; 0; 1/3] /\ in_box 4 1 0 1 (-1) 1 [1/2; -1; 0; 1] /\ in_box 6 2 0 1 (-4) 4 [1/2; 0; -4; 3; 1; 2] /\ nth 2 [1; 0; 1/2] 0 ^ 2 <> 1 /\ Nat.even 4 = true.
Proof.
  assert (B : forall n k a b c d x, length x = n -> (forall i, (i < n)%nat -> if (i <? k)%nat then a <= nth i x 0 <= b else c <= nth i x 0 <= d) -> in_box n k a b c d x) by (intros; split; auto).
  split; [|split; [|split; [|split]]].
  1-3: apply B; [reflexivity|]; intros i Hi; repeat (destruct i as [|i]; [first [exfalso; lia|cbn [Nat.ltb Nat.leb nth]; lra]|]; try (exfalso; lia)).
  - cbn [nth]. lra.
  - reflexivity.
Qed.

(** * C163: ZDT1 to ZDT6 *)
Theorem C163_zdt : forall n x, (2 <= n)%nat -> length x = n -> 0 <= X x 1 ->
  ((forall j, (2 <= j <= n)%nat -> 0 <= X x j) ->
     Within (ZDTg n x) (zdt1 x) (ZDT1 n x) (/ 10 ^ 12 <= X x 1 / ZDTg n x) /\ zdt2 x = Some (ZDT2 n x)
     /\ Within (ZDTg n x) (zdt3 x) (ZDT3 n x) (/ 10 ^ 12 <= X x 1 / ZDTg n x))
  /\ Within (ZDT4g n x) (zdt4 x) (ZDT4 n x) (/ 10 ^ 12 <= X x 1 / ZDT4g n x)
  /\ (/ 10 ^ 12 <= Sum (seq 2 (n - 1)) (X x) / (INR n - 1) -> zdt6 x = Some (ZDT6 n x)).
Proof.
  intros n x Hn L H1. split; [|split].
  - intros H. pose proof (ZDTg_ge1 n x Hn H). split; [apply zdt1_ok; auto; lra|]. split; [apply zdt2_ok; auto|apply zdt3_ok; auto; lra].
  - pose proof (ZDT4g_ge1 n x Hn). apply zdt4_ok; auto. lra.
  - apply zdt6_ok; auto.
Qed.
Print Assumptions C163_zdt.
Example C163_meets : let x := [1/2; 1; 0] in (2 <= 3)%nat /\ length x = 3%nat /\ 0 <= X x 1 /\ (forall j, (2 <= j <= 3)%nat -> 0 <= X x j)
  /\ / 10 ^ 12 <= X x 1 / ZDTg 3 x /\ / 10 ^ 12 <= Sum (seq 2 2) (X x) / (INR 3 - 1).
Proof.
  split; [lia|]. split; [reflexivity|]. split; [cbn; lra|]. split; [|split].
  - intros j Hj. destruct j as [|[|[|[|j]]]]; try lia; cbn; lra.
  - unfold ZDTg, Sum, X. simpl. lra.
  - unfold Sum, X. simpl. lra.
Qed.

(** * C164: DTLZ1 to DTLZ7 *)
Theorem C164_dtlz : forall n m x, (1 <= m <= n)%nat -> length x = n ->
  dtlz1 n m x = DTLZ1 n x m /\ dtlz2 n m x = DTLZ2 n x m /\ dtlz3 n m x = DTLZ3 n x m /\ dtlz4 n m x = DTLZ4 n x m /\ dtlz5 n m x = DTLZ5 n x m
  /\ ((forall j, (m <= j <= n)%nat -> / 10 ^ 30 <= X x j) -> dtlz6 n m x = DTLZ6 n x m) /\ dtlz7 n m x = DTLZ7 n x m.
Proof. intros n m x Hm L. split; [apply dtlz1_ok; auto|]. split; [apply dtlz2_ok; auto|]. split; [apply dtlz3_ok; auto|]. split; [apply dtlz4_ok; auto|]. split; [apply dtlz5_ok; auto|]. split; [apply dtlz6_ok; auto|]. apply dtlz7_ok; auto. Qed.
Print Assumptions C164_dtlz.
Example C164_meets : let x := [1/4; 1/2; 1; 1/3] in (1 <= 3 <= 4)%nat /\ length x = 4%nat /\ forall j, (3 <= j <= 4)%nat -> / 10 ^ 30 <= X x j.
Proof. split; [lia|]. split; [reflexivity|]. intros j Hj. destruct j as [|[|[|[|[|j]]]]]; try lia; unfold X; cbn [nth Nat.sub]; lra. Qed.
