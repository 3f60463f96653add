(** The regions in the reported front of ZDT3. *)
From Coq Require Import List Arith Bool Reals Lra Lia ZArith Machin.
From Verif Require Import BenchModel BenchSpec BenchZDT.
Import ListNotations.
Open Scope R_scope.

Definition pi_up : R := 31415926535898 / 10000000000000.
Lemma PI_up : PI <= pi_up.
Proof.
  destruct (PI_2_3_7_ineq 8) as [_ H]. unfold pi_up.
  cbn [Nat.mul Nat.add] in H. unfold tg_alt, PI_2_3_7_tg, Ratan_seq in H. cbn [sum_f_R0 Nat.mul Nat.add pow INR] in H.
  lra.
Qed.
Lemma INR_fact k : INR (fact (S k)) = INR (S k) * INR (fact k).
Proof. rewrite <- mult_INR. reflexivity. Qed.
Lemma INR_fact0 : INR (fact 0) = 1.
Proof. reflexivity. Qed.
(** upper bound of the sine and lower bound of the cosine of a multiple of PI *)
Lemma sin_up b v : 0 <= b <= 1 / 2 -> b * pi_up <= PI / 2 -> sin_approx (b * pi_up) 6 <= v -> sin (b * PI) <= v.
Proof.
  intros Hb Hq Hv. pose proof PI_RGT_0. pose proof PI_up. assert (H1 : 0 <= b * PI) by (apply Rmult_le_pos; lra).
  assert (H2 : b * PI <= b * pi_up) by (apply Rmult_le_compat_l; lra).
  assert (H3 : sin (b * PI) <= sin (b * pi_up)) by (apply sin_incr_1; lra).
  destruct (pre_sin_bound (b * pi_up) 2) as [_ H4]; [lra|pose proof PI_4; lra|]. change (2 * (2 + 1))%nat with 6%nat in H4. lra.
Qed.
Lemma cos_low a v : 0 <= a <= 1 / 2 -> a * pi_up <= 2 -> v <= cos_approx (a * pi_up) 5 -> v <= cos (a * PI).
Proof.
  intros Ha Hq Hv. pose proof PI_RGT_0. pose proof PI_up. assert (H1 : 0 <= a * PI) by (apply Rmult_le_pos; lra).
  assert (H2 : a * PI <= a * pi_up) by (apply Rmult_le_compat_l; lra).
  assert (P2 : 2 < PI) by (pose proof PI2_3_2; lra).
  assert (H3 : cos (a * pi_up) <= cos (a * PI)) by (apply cos_decr_1; lra).
  destruct (pre_cos_bound (a * pi_up) 2) as [H4 _]; [lra|lra|]. change (2 * 2 + 1)%nat with 5%nat in H4. lra.
Qed.
Definition psi (t : R) : R := 1 - sqrt t - t * sin (10 * PI * t).
Lemma psi_hi a (m : nat) : psi ((2 * INR m + 1 / 2 + a) / 10) = 1 - sqrt ((2 * INR m + 1 / 2 + a) / 10) - (2 * INR m + 1 / 2 + a) / 10 * cos (a * PI).
Proof.
  unfold psi. f_equal. f_equal. replace (10 * PI * ((2 * INR m + 1 / 2 + a) / 10)) with ((PI / 2 + a * PI) + 2 * INR m * PI) by field.
  rewrite sin_period. rewrite cos_sin. reflexivity.
Qed.
Lemma psi_lo b (m : nat) : psi ((2 * INR m + b) / 10) = 1 - sqrt ((2 * INR m + b) / 10) - (2 * INR m + b) / 10 * sin (b * PI).
Proof.
  unfold psi. f_equal. f_equal. replace (10 * PI * ((2 * INR m + b) / 10)) with (b * PI + 2 * INR m * PI) by field.
  rewrite sin_period. reflexivity.
Qed.
Lemma sqrt_ge x r : 0 <= r -> r * r <= x -> r <= sqrt x.
Proof. intros Hr H. rewrite <- (sqrt_square r) by auto. apply sqrt_le_1_alt. auto. Qed.
Lemma sqrt_le x r : 0 <= r -> x <= r * r -> sqrt x <= r.
Proof. intros Hr H. rewrite <- (sqrt_square r) by auto. apply sqrt_le_1_alt. auto. Qed.
Lemma pi_low : 3 < PI.
Proof. pose proof PI2_3_2. lra. Qed.
Lemma pair2 : psi 0.2577623634 < psi 0.4093136748.
Proof.
  assert (E1 : 0.2577623634 = (2 * INR 1 + 1 / 2 + 0.077623634) / 10) by (simpl; lra).
  assert (E2 : 0.4093136748 = (2 * INR 2 + 0.093136748) / 10) by (simpl; lra).
  assert (C : 970412764862 / 1000000000000 <= cos (0.077623634 * PI)).
  { apply cos_low; [lra|unfold pi_up; lra|]. unfold cos_approx, cos_term, pi_up. cbn [sum_f_R0 Nat.mul Nat.add]. rewrite !INR_fact, !INR_fact0. cbn [INR pow]. lra. }
  assert (S : sin (0.093136748 * PI) <= 288440509919 / 1000000000000).
  { pose proof pi_low. apply sin_up; [lra|unfold pi_up; lra|]. unfold sin_approx, sin_term, pi_up. cbn [sum_f_R0 Nat.mul Nat.add]. rewrite !INR_fact, !INR_fact0. cbn [INR pow]. lra. }
  assert (Q1 : 507703026778 / 1000000000000 <= sqrt 0.2577623634) by (apply sqrt_ge; lra).
  assert (Q2 : sqrt 0.4093136748 <= 639776269332 / 1000000000000) by (apply sqrt_le; lra).
  rewrite E1, E2, psi_hi, psi_lo, <- E1, <- E2. lra.
Qed.
Lemma pair3 : psi 0.4538821041 < psi 0.6183967944.
Proof.
  assert (E1 : 0.4538821041 = (2 * INR 2 + 1 / 2 + 0.038821041) / 10) by (simpl; lra).
  assert (E2 : 0.6183967944 = (2 * INR 3 + 0.183967944) / 10) by (simpl; lra).
  assert (C : 992572105595 / 1000000000000 <= cos (0.038821041 * PI)).
  { apply cos_low; [lra|unfold pi_up; lra|]. unfold cos_approx, cos_term, pi_up. cbn [sum_f_R0 Nat.mul Nat.add]. rewrite !INR_fact, !INR_fact0. cbn [INR pow]. lra. }
  assert (S : sin (0.183967944 * PI) <= 546309999118 / 1000000000000).
  { pose proof pi_low. apply sin_up; [lra|unfold pi_up; lra|]. unfold sin_approx, sin_term, pi_up. cbn [sum_f_R0 Nat.mul Nat.add]. rewrite !INR_fact, !INR_fact0. cbn [INR pow]. lra. }
  assert (Q1 : 673707728989 / 1000000000000 <= sqrt 0.4538821041) by (apply sqrt_ge; lra).
  assert (Q2 : sqrt 0.6183967944 <= 786382091862 / 1000000000000) by (apply sqrt_le; lra).
  rewrite E1, E2, psi_hi, psi_lo, <- E1, <- E2. lra.
Qed.
Lemma pair4 : psi 0.6525117038 < psi 0.8233317983.
Proof.
  assert (E1 : 0.6525117038 = (2 * INR 3 + 1 / 2 + 0.025117038) / 10) by (simpl; lra).
  assert (E2 : 0.8233317983 = (2 * INR 4 + 0.233317983) / 10) by (simpl; lra).
  assert (C : 996888418055 / 1000000000000 <= cos (0.025117038 * PI)).
  { apply cos_low; [lra|unfold pi_up; lra|]. unfold cos_approx, cos_term, pi_up. cbn [sum_f_R0 Nat.mul Nat.add]. rewrite !INR_fact, !INR_fact0. cbn [INR pow]. lra. }
  assert (S : sin (0.233317983 * PI) <= 669094767799 / 1000000000000).
  { pose proof pi_low. apply sin_up; [lra|unfold pi_up; lra|]. unfold sin_approx, sin_term, pi_up. cbn [sum_f_R0 Nat.mul Nat.add]. rewrite !INR_fact, !INR_fact0. cbn [INR pow]. lra. }
  assert (Q1 : 807781965508 / 1000000000000 <= sqrt 0.6525117038) by (apply sqrt_ge; lra).
  assert (Q2 : sqrt 0.8233317983 <= 907376326725 / 1000000000000) by (apply sqrt_le; lra).
  rewrite E1, E2, psi_hi, psi_lo, <- E1, <- E2. lra.
Qed.

(** * The beginning of the second region *)
Definition pi_dn : R := 31415926535897 / 10000000000000.
Lemma PI_dn : pi_dn <= PI.
Proof.
  destruct (PI_2_3_7_ineq 8) as [H _]. unfold pi_dn.
  cbn [Nat.mul Nat.add] in H. unfold tg_alt, PI_2_3_7_tg, Ratan_seq in H. cbn [sum_f_R0 Nat.mul Nat.add pow INR] in H.
  lra.
Qed.
Lemma sin_dn b v : 0 <= b <= 1 / 2 -> v <= sin_approx (b * pi_dn) 7 -> v <= sin (b * PI).
Proof.
  intros Hb Hv. pose proof PI_RGT_0. pose proof PI_dn. assert (P : 0 < pi_dn) by (unfold pi_dn; lra).
  assert (H1 : 0 <= b * pi_dn) by (apply Rmult_le_pos; lra).
  assert (H2 : b * pi_dn <= b * PI) by (apply Rmult_le_compat_l; lra).
  assert (H5 : b * PI <= PI / 2) by nra.
  assert (H3 : sin (b * pi_dn) <= sin (b * PI)) by (apply sin_incr_1; lra).
  destruct (pre_sin_bound (b * pi_dn) 3) as [H4 _]; [lra|pose proof PI_4; lra|]. change (2 * 3 + 1)%nat with 7%nat in H4. lra.
Qed.
Lemma cos_up a v : 0 <= a <= 1 / 2 -> cos_approx (a * pi_dn) 6 <= v -> cos (a * PI) <= v.
Proof.
  intros Ha Hv. pose proof PI_RGT_0. pose proof PI_dn. assert (P : 0 < pi_dn) by (unfold pi_dn; lra).
  assert (H1 : 0 <= a * pi_dn) by (apply Rmult_le_pos; lra).
  assert (H2 : a * pi_dn <= a * PI) by (apply Rmult_le_compat_l; lra).
  assert (H5 : a * PI <= PI / 2) by nra.
  assert (H3 : cos (a * PI) <= cos (a * pi_dn)) by (apply cos_decr_1; lra).
  destruct (pre_cos_bound (a * pi_dn) 2) as [_ H4]; [lra|pose proof PI_4; lra|]. change (2 * (2 + 1))%nat with 6%nat in H4. lra.
Qed.
Ltac series := rewrite !INR_fact, !INR_fact0; cbn [INR pow]; lra.
Definition hh : R := 0.0830015349.
Definition tt0 : R := 0.18222875.
Lemma sin_h_bounds : 508999909912 / 1000000000000 <= sin (0.169984651 * PI) <= 508999909917 / 1000000000000.
Proof.
  pose proof pi_low. split.
  - apply sin_dn; [lra|]. unfold sin_approx, sin_term, pi_dn. cbn [sum_f_R0 Nat.mul Nat.add]. series.
  - apply sin_up; [lra|unfold pi_up; lra|]. unfold sin_approx, sin_term, pi_up. cbn [sum_f_R0 Nat.mul Nat.add]. series.
Qed.
Lemma cos_h_bounds : 860766572133 / 1000000000000 <= cos (0.169984651 * PI) <= 860766572138 / 1000000000000.
Proof.
  split.
  - apply cos_low; [lra|unfold pi_up; lra|]. unfold cos_approx, cos_term, pi_up. cbn [sum_f_R0 Nat.mul Nat.add]. series.
  - apply cos_up; [lra|]. unfold cos_approx, cos_term, pi_dn. cbn [sum_f_R0 Nat.mul Nat.add]. series.
Qed.
Lemma sin_t_up : sin (0.1777125 * PI) <= 529745338624 / 1000000000000.
Proof.
  pose proof pi_low. apply sin_up; [lra|unfold pi_up; lra|]. unfold sin_approx, sin_term, pi_up. cbn [sum_f_R0 Nat.mul Nat.add]. series.
Qed.
Lemma sqrt_h_bounds : 288099869661 / 1000000000000 <= sqrt hh <= 288099869666 / 1000000000000.
Proof. unfold hh. split; [apply sqrt_ge|apply sqrt_le]; lra. Qed.
Lemma sqrt_t_dn : 426882595098 / 1000000000000 <= sqrt tt0.
Proof. unfold tt0. apply sqrt_ge; lra. Qed.
Lemma psi_h : psi hh = 1 - sqrt hh - hh * sin (0.169984651 * PI).
Proof.
  unfold psi. f_equal. f_equal. replace (10 * PI * hh) with (PI - 0.169984651 * PI) by (unfold hh; lra). rewrite sin_PI_x. reflexivity.
Qed.
Lemma psi_t : psi tt0 = 1 - sqrt tt0 + tt0 * sin (0.1777125 * PI).
Proof.
  unfold psi. replace (10 * PI * tt0) with (- (0.1777125 * PI) + 2 * INR 1 * PI) by (unfold tt0; simpl; lra). rewrite sin_period, sin_neg. ring.
Qed.
Lemma psi_t_h : psi tt0 < psi hh - 1 / 100000000.
Proof.
  rewrite psi_t, psi_h. pose proof sin_h_bounds. pose proof sin_t_up. pose proof sqrt_h_bounds. pose proof sqrt_t_dn. unfold hh, tt0 in *. lra.
Qed.
