From Coq Require Import List Arith Lia Reals Lra Psatz.
From Verif Require Import BenchSpec.
Import ListNotations.
Open Scope R_scope.

Lemma PI_gt_2 : 2 < PI.
Proof. pose proof PI2_1. lra. Qed.
(** a weak form of Jordan's inequality *)
Lemma sin_ge_third x : 0 <= x <= PI / 2 -> x / 3 <= sin x.
Proof.
  intros (H0 & H1). pose proof PI_4. destruct (pre_sin_bound x 0 H0 ltac:(lra)) as (Hs & _).
  unfold sin_approx, sum_f_R0, sin_term in Hs. cbn in Hs. nra.
Qed.
Lemma abs_sin_shift x i : Rabs (sin (x + INR i * PI)) = Rabs (sin x).
Proof.
  induction i as [|i IH]; [f_equal; f_equal; cbn; ring|]. rewrite S_INR.
  replace (x + (INR i + 1) * PI) with (x + INR i * PI + PI) by ring. rewrite neg_sin, Rabs_Ropp. exact IH.
Qed.
Lemma nearest m z : 0 <= z <= INR m -> exists i, (i <= m)%nat /\ Rabs (z - INR i) <= / 2.
Proof.
  induction m as [|m IH]; intros H.
  - exists 0%nat. split; auto. cbn in *. rewrite Rabs_pos_eq; lra.
  - rewrite S_INR in H. destruct (Rle_dec z (INR m)) as [Hz|Hz]; [destruct IH as (i & Hi & E); [lra|]; exists i; split; auto; lia|].
    destruct (Rle_dec z (INR m + / 2)).
    + exists m. split; [lia|]. apply Rabs_le. lra.
    + exists (S m). split; [lia|]. rewrite S_INR. apply Rabs_le. lra.
Qed.
Lemma near_grid m c : (1 <= m)%nat -> 0 <= c <= 1 -> exists k, grid m k /\ 2 / 3 * INR m * Rabs (c - k) <= Rabs (sin (INR m * PI * c)).
Proof.
  intros Hm Hc. assert (Hp : 0 < INR m) by (apply lt_0_INR; lia).
  destruct (nearest m (INR m * c)) as (i & Hi & H); [nra|]. exists (INR i / INR m). split; [exists i; auto|].
  replace (Rabs (sin (INR m * PI * c))) with (Rabs (sin ((INR m * c - INR i) * PI))).
  2:{ rewrite <- (abs_sin_shift _ i). f_equal. f_equal. ring. }
  assert (E : INR m * Rabs (c - INR i / INR m) = Rabs (INR m * c - INR i)).
  { rewrite <- (Rabs_pos_eq (INR m)) at 1 by lra. rewrite <- Rabs_mult. f_equal. field. lra. }
  rewrite Rmult_assoc, E. set (d := INR m * c - INR i) in *. pose proof PI_gt_2.
  assert (Hs : forall a, 0 <= a <= / 2 -> 2 / 3 * a <= sin (a * PI)).
  { intros a Ha. apply Rle_trans with (a * PI / 3); [nra|]. apply sin_ge_third. nra. }
  destruct (Rle_dec 0 d) as [Hd|Hd].
  - rewrite Rabs_pos_eq in * by auto. eapply Rle_trans; [apply Hs; lra|]. apply Rle_abs.
  - rewrite Rabs_left in * by lra. eapply Rle_trans; [apply Hs; lra|]. rewrite <- Rabs_Ropp, <- sin_neg. replace (- (d * PI)) with (- d * PI) by ring. apply Rle_abs.
Qed.
Lemma grid_sin m k : (1 <= m)%nat -> grid m k -> sin (INR m * PI * k) = 0.
Proof.
  intros Hm (i & _ & ->). assert (Hp : 0 < INR m) by (apply lt_0_INR; lia). replace (INR m * PI * (INR i / INR m)) with (0 + INR i * PI) by (field; lra).
  pose proof (abs_sin_shift 0 i) as H. rewrite sin_0, Rabs_R0 in H. destruct (Req_dec (sin (0 + INR i * PI)) 0); auto. apply Rabs_no_R0 in H0. contradiction.
Qed.
Lemma sin_2PI_plus x : sin (x + 2 * PI) = sin x.
Proof. rewrite <- (sin_period x 1). f_equal. cbn. ring. Qed.
Lemma near_bands c : 0 <= c <= 1 -> exists k, bands k /\ 2 * Rabs (c - k) <= Rmax 0 (sin (4 * PI * c)).
Proof.
  intros Hc. pose proof PI_gt_2.
  assert (Hs : forall a, 0 <= a <= / 8 -> 2 * a <= sin (4 * PI * a)).
  { intros a Ha. apply Rle_trans with (4 * PI * a / 3); [nra|]. apply sin_ge_third. nra. }
  assert (Hin : bands c -> exists k, bands k /\ 2 * Rabs (c - k) <= Rmax 0 (sin (4 * PI * c))).
  { intros Hb. exists c. split; auto. unfold Rminus. rewrite Rplus_opp_r, Rabs_R0, Rmult_0_r. apply Rmax_l. }
  assert (Hone : forall b, 0 <= c - b <= / 4 -> sin (4 * PI * c) = sin (4 * PI * (c - b)) -> bands b -> bands (b + / 4) ->
                 exists k, bands k /\ 2 * Rabs (c - k) <= Rmax 0 (sin (4 * PI * c))).
  { intros b Hb E B1 B2. destruct (Rle_dec (c - b) (/ 8)).
    - exists b. split; auto. rewrite Rabs_pos_eq by lra. eapply Rle_trans; [apply Hs; lra|]. rewrite E. apply Rmax_r.
    - exists (b + / 4). split; auto. rewrite Rabs_left1 by lra. eapply Rle_trans; [apply Hs; lra|]. rewrite E.
      replace (4 * PI * - (c - (b + / 4))) with (PI - 4 * PI * (c - b)) by field. rewrite sin_PI_x. apply Rmax_r. }
  destruct (Rle_dec c (/ 4)).
  { apply (Hone 0); [lra| |left; auto|right; left; lra]. f_equal. ring. }
  destruct (Rle_dec c (/ 2)); [apply Hin; right; left; lra|].
  destruct (Rle_dec c (3 / 4)).
  { apply (Hone (/ 2)); [lra| |right; left; lra|right; right; lra]. rewrite <- (sin_2PI_plus (4 * PI * (c - / 2))). f_equal. field. }
  apply Hin. right; right; lra.
Qed.
Lemma bands_sin k : bands k -> sin (4 * PI * k) <= 0.
Proof.
  pose proof PI_gt_2. intros [->|[H1|H1]].
  - rewrite Rmult_0_r, sin_0. lra.
  - apply sin_le_0; nra.
  - replace (4 * PI * k) with (4 * PI * (k - / 2) + 2 * PI) by field. rewrite sin_2PI_plus. apply sin_le_0; nra.
Qed.
Lemma not_bands_sin c : 0 <= c <= 1 -> ~ bands c -> 0 < sin (4 * PI * c).
Proof.
  intros H Hn. destruct (near_bands c H) as (k & Hk & E). destruct (Rle_dec (sin (4 * PI * c)) 0) as [Hs|Hs]; [|lra].
  rewrite Rmax_left in E by auto. exfalso. apply Hn. replace c with k; auto. pose proof (Rabs_pos (c - k)).
  assert (Rabs (c - k) = 0) by lra. destruct (Req_dec (c - k) 0); [lra|]. apply Rabs_no_R0 in H2. contradiction.
Qed.
Lemma bands_unit k : bands k -> 0 <= k <= 1.
Proof. unfold bands. lra. Qed.
Lemma grid_unit m k : (1 <= m)%nat -> grid m k -> 0 <= k <= 1.
Proof.
  intros Hm (i & Hi & ->). assert (Hp : 0 < INR m) by (apply lt_0_INR; lia). assert (INR i <= INR m) by (apply le_INR; auto). pose proof (pos_INR i).
  split; [apply Rmult_le_pos; auto; apply Rlt_le, Rinv_0_lt_compat; auto|].
  apply Rmult_le_reg_r with (INR m); auto. unfold Rdiv. rewrite Rmult_assoc, Rinv_l by lra. lra.
Qed.
Lemma grid_0 m : grid m 0.
Proof. exists 0%nat. split; [lia|]. cbn. unfold Rdiv. ring. Qed.
Lemma grid_1 m : (1 <= m)%nat -> grid m 1.
Proof. intros H. exists m. split; auto. unfold Rdiv. rewrite Rinv_r; auto. apply not_0_INR. lia. Qed.

(** two numbers whose sum exceeds 1 by a function of their difference reach past a value of the set *)
Lemma bands_between a b : 0 <= a -> 0 <= b -> 0 <= a + b - 1 -> sin (2 * PI * (a - b + 1)) <= a + b - 1 -> exists k, bands k /\ 1 - b <= k <= a.
Proof.
  intros Ha Hb H0 H. set (c := (a - b + 1) / 2). assert (E : 2 * PI * (a - b + 1) = 4 * PI * c) by (unfold c; field). rewrite E in H.
  destruct (Rle_dec c 0); [exists 0; split; [left; auto|unfold c in *; lra]|].
  destruct (Rle_dec 1 c); [exists 1; split; [right; right; lra|unfold c in *; lra]|].
  destruct (near_bands c ltac:(lra)) as (k & Hk & Hd). exists k. split; auto.
  assert (2 * Rabs (c - k) <= a + b - 1) by (eapply Rle_trans; [exact Hd|]; apply Rmax_lub; auto).
  pose proof (Rle_abs (c - k)). pose proof (Rle_abs (- (c - k))). rewrite Rabs_Ropp in *. unfold c in *. lra.
Qed.
Lemma grid_between m a b : (3 <= m)%nat -> 0 <= a -> 0 <= b -> Rabs (sin (INR m * PI * (a - b + 1) / 2)) <= a + b - 1 -> exists k, grid m k /\ 1 - b <= k <= a.
Proof.
  intros Hm Ha Hb H. set (c := (a - b + 1) / 2). assert (E : INR m * PI * (a - b + 1) / 2 = INR m * PI * c) by (unfold c; field). rewrite E in H.
  destruct (Rle_dec c 0); [exists 0; split; [apply grid_0|unfold c in *; lra]|].
  destruct (Rle_dec 1 c); [exists 1; split; [apply grid_1; lia|unfold c in *; lra]|].
  destruct (near_grid m c ltac:(lia) ltac:(lra)) as (k & Hk & Hd). exists k. split; auto.
  assert (3 <= INR m) by (apply (le_INR 3) in Hm; cbn in Hm; lra).
  pose proof (Rabs_pos (c - k)).
  assert (2 * Rabs (c - k) <= a + b - 1) by nra.
  pose proof (Rle_abs (c - k)). pose proof (Rle_abs (- (c - k))). rewrite Rabs_Ropp in *. unfold c in *. lra.
Qed.
