(** Property theorems: Pareto sets and fronts of the DTLZ problems. *)
From Coq Require Import List Arith Reals Lia Lra.
From Verif Require Import ProbModel ProbSpec DtlzProof.
Import ListNotations.
Open Scope R_scope.

(** * C109: the Pareto sets of DTLZ1-6 *)
Theorem C109_pareto_set : forall n m x, (1 <= m)%nat -> (m <= n + 1)%nat -> cube n x ->
  let half := forall a, In a (skipn (m - 1) x) -> a = / 2 in
  (optimal (cube n) (dtlz1 n m) (dtlz1 n m x) <-> half) /\ (optimal (cube n) (dtlz2 n m) (dtlz2 n m x) <-> half) /\
  (optimal (cube n) (dtlz3 n m) (dtlz3 n m x) <-> half) /\ (optimal (cube n) (dtlz4 n m) (dtlz4 n m x) <-> half) /\
  (half -> optimal (cube n) (dtlz5 n m) (dtlz5 n m x)).
Proof. exact pareto_sets. Qed.
Print Assumptions C109_pareto_set.
(** the rows returned by get_pareto_set *)
Theorem C109_rows : forall n m u, (1 <= m)%nat -> (m <= n + 1)%nat -> length u = (m - 1)%nat -> Forall (fun a => 0 <= a <= 1) u ->
  let x := pareto_row (n - (m - 1)) (/ 2) u in
  cube n x /\ optimal (cube n) (dtlz1 n m) (dtlz1 n m x) /\ optimal (cube n) (dtlz2 n m) (dtlz2 n m x) /\ optimal (cube n) (dtlz3 n m) (dtlz3 n m x) /\
  optimal (cube n) (dtlz4 n m) (dtlz4 n m x) /\ optimal (cube n) (dtlz5 n m) (dtlz5 n m x).
Proof.
  intros n m u Hm Hn Lu Hu x. assert (Hx : cube n x) by (unfold x; rewrite <- Lu; apply ProbTop.row_cube; auto; lia). split; auto.
  destruct (pareto_sets n m x Hm Hn Hx) as (H1 & H2 & H3 & H4 & H5). cbv zeta in *.
  assert (Hh : forall a, In a (skipn (m - 1) x) -> a = / 2) by (intros a Ha; unfold x in Ha; rewrite (proj2 (row_parts _ _ _ _ Lu)) in Ha; apply repeat_spec in Ha; auto).
  split; [apply H1; auto|]. split; [apply H2; auto|]. split; [apply H3; auto|]. split; [apply H4; auto|apply H5; auto].
Qed.
Print Assumptions C109_rows.
Theorem C109_dtlz6_rows : forall n m u, (1 <= m)%nat -> (m <= n + 1)%nat -> length u = (m - 1)%nat -> Forall (fun a => 0 <= a <= 1) u ->
  let x := pareto_row (n - length u) 0 u in cube n x /\ optimal (cube n) (dtlz6 n m) (dtlz6 n m x).
Proof. exact dtlz6_set. Qed.
Print Assumptions C109_dtlz6_rows.
(** with three objectives these are, up to the cap of 1e-30, all optimal vectors of DTLZ6 *)
Theorem C109_dtlz6_three : forall n x, (2 <= n)%nat -> cube n x ->
  (optimal (cube n) (dtlz6 n 3) (dtlz6 n 3 x) <-> forall a, In a (skipn 2 x) -> a <= / 10 ^ 30).
Proof. exact dtlz6_exact. Qed.
Print Assumptions C109_dtlz6_three.
Example C109_case : cube 4 [/ 3; 1; / 2; / 2] /\ (forall a, In a (skipn (3 - 1) [/ 3; 1; / 2; / 2]) -> a = / 2) /\ cube 4 [/ 3; 1; / 2; / 4] /\
  ~ (forall a, In a (skipn (3 - 1) [/ 3; 1; / 2; / 4]) -> a = / 2).
Proof.
  assert (F : forall a b c d, 0 <= a <= 1 -> 0 <= b <= 1 -> 0 <= c <= 1 -> 0 <= d <= 1 -> cube 4 [a; b; c; d]) by (intros; split; [reflexivity|auto]).
  split; [apply F; lra|]. split; [intros a [<-|[<-|[]]]; auto|]. split; [apply F; lra|]. intros H. specialize (H (/ 4) ltac:(simpl; auto)). lra.
Qed.

(** * C110: the front of DTLZ5 *)
Theorem C110_front_three : forall n y, (2 <= n)%nat -> (attained (cube n) (dtlz5 n 3) y /\ optimal (cube n) (dtlz5 n 3) y <->
  exists a, 0 <= a <= 1 /\ y = [cos (a * PI / 2) / sqrt 2; cos (a * PI / 2) / sqrt 2; sin (a * PI / 2)]).
Proof. exact dtlz5_front. Qed.
Print Assumptions C110_front_three.
Theorem C110_weakly_dominated : forall n x, cube n x -> (2 <= n)%nat -> exists a b xm, x = a :: b :: xm /\
  leqv [cos (a * PI / 2) / sqrt 2; cos (a * PI / 2) / sqrt 2; sin (a * PI / 2)] (dtlz5 n 3 x).
Proof. intros n x Hx Hn. destruct (dtlz5_ge n x Hx Hn) as (a & b & xm & E & _ & H). exists a, b, xm. auto. Qed.
Print Assumptions C110_weakly_dominated.
(** with four objectives there are attained vectors which no row of the Pareto set weakly dominates *)
Theorem C110_four_objectives_refuted : exists n x, cube n x /\
  forall u, length u = 3%nat -> Forall (fun a => 0 <= a <= 1) u -> ~ leqv (dtlz5 n 4 (pareto_row (n - 3) (/ 2) u)) (dtlz5 n 4 x).
Proof. exists 7%nat, [0; 1; 1; 0; 0; 0; 0]. exact dtlz5_four. Qed.
Print Assumptions C110_four_objectives_refuted.
Example C110_case : cube 3 [/ 4; 1; 0] /\ (2 <= 3)%nat /\ dtlz5 3 3 [0; 1; / 2] = [1 / sqrt 2; 1 / sqrt 2; 0].
Proof.
  split; [split; [reflexivity|repeat apply Forall_cons; try lra; apply Forall_nil]|]. split; [lia|].
  rewrite dtlz5_row by (intros c [<-|[]]; auto). unfold curve. replace (0 * PI / 2) with 0 by field. rewrite cos_0, sin_0. reflexivity.
Qed.

(** * C111: DTLZ7 *)
Theorem C111_objectives : forall n m x, (1 <= m)%nat -> (m <= n)%nat -> cube n x ->
  exists y, dtlz7 n m x = firstn (m - 1) x ++ [y] /\ 2 * INR m - total (map (fun a => a * (1 + sin (3 * PI * a))) (firstn (m - 1) x)) <= y /\
    (y = 2 * INR m - total (map (fun a => a * (1 + sin (3 * PI * a))) (firstn (m - 1) x)) <-> forall a, In a (skipn (m - 1) x) -> a = 0).
Proof.
  intros n m x Hm Hn Hx. assert (E : forall f l, total (map f l) = sumf f l) by (intros f l; induction l as [|a l IH]; [reflexivity|]; unfold total, sumf in *; cbn [map fold_right]; rewrite IH; reflexivity).
  rewrite E. exact (dtlz7_last n m x Hm Hn Hx).
Qed.
Print Assumptions C111_objectives.
(** the optimal vectors: no distance, and every position variable a strict record of [t (1 + sin (3 pi t))] *)
Theorem C111_pareto_set : forall n m x, (1 <= m)%nat -> (m <= n)%nat -> cube n x ->
  (optimal (cube n) (dtlz7 n m) (dtlz7 n m x) <->
   Forall (fun a => a = 0) (skipn (m - 1) x) /\
   Forall (fun a => forall t, 0 <= t < a -> t * (1 + sin (3 * PI * t)) < a * (1 + sin (3 * PI * a))) (firstn (m - 1) x)).
Proof. exact dtlz7_exact. Qed.
Print Assumptions C111_pareto_set.
(** get_pareto_set returns vectors which are not optimal *)
Theorem C111_rows_refuted : exists n m u, length u = (m - 1)%nat /\ Forall (fun a => 0 <= a <= 1) u /\ (m <= n)%nat /\
  let x := pareto_row (n - length u) 0 u in cube n x /\ ~ optimal (cube n) (dtlz7 n m) (dtlz7 n m x).
Proof.
  exists 3%nat, 2%nat, [/ 2]. split; [reflexivity|]. assert (H : Forall (fun a => 0 <= a <= 1) [/ 2]) by (repeat apply Forall_cons; try lra; apply Forall_nil). split; auto. split; [lia|]. cbv zeta.
  assert (C : cube 3 (pareto_row (3 - length [/ 2]) 0 [/ 2])) by (apply cube_zero_row; simpl; auto). split; auto. intros Ho.
  apply (proj1 (dtlz7_exact 3 2 _ ltac:(lia) ltac:(lia) C)) in Ho. destruct Ho as [_ Ho]. cbn [Nat.sub length pareto_row app firstn] in Ho. inversion Ho as [|? ? R _]; subst. specialize (R 0 ltac:(lra)).
  unfold sval in R. replace (3 * PI * / 2) with (3 * (PI / 2)) in R by field. rewrite sin_3PI2 in R. lra.
Qed.
Print Assumptions C111_rows_refuted.
Example C111_case : cube 4 [/ 6; 0; 0; 0] /\ (2 <= 4)%nat /\ Forall (fun a => a = 0) (skipn (3 - 1) [/ 6; 0; 0; 0]) /\
  Forall (fun a => forall t, 0 <= t < a -> t * (1 + sin (3 * PI * t)) < a * (1 + sin (3 * PI * a))) (firstn (3 - 1) [/ 6; 0; 0; 0]).
Proof.
  split; [split; [reflexivity|repeat apply Forall_cons; try lra; apply Forall_nil]|]. split; [lia|]. split; [repeat constructor|]. cbn [Nat.sub firstn]. repeat apply Forall_cons; [|intros; lra|apply Forall_nil].
  intros t Ht. pose proof PI_RGT_0. replace (3 * PI * / 6) with (PI / 2) by field. rewrite sin_PI2. pose proof (SIN_bound (3 * PI * t)) as B.
  apply Rle_lt_trans with (t * 2); [apply Rmult_le_compat_l; lra|lra].
Qed.
