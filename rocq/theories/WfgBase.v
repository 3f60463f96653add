From Coq Require Import List Arith Bool ZArith Lia Reals Lra Psatz.
From Verif Require Import ListAux ProbModel NewtonModel BenchModel BenchBase BenchTrig WfgModel.
Import ListNotations.
Open Scope R_scope.

Definition unit (a : R) : Prop := 0 <= a <= 1.

(** ** floor, power, correction *)
Lemma flr_eq x z : IZR z <= x < IZR z + 1 -> flr x = IZR z.
Proof. intros H. unfold flr. f_equal. destruct (base_Int_part x) as (H1 & H2).
  assert (A : IZR (Int_part x) < IZR (z + 1)) by (rewrite plus_IZR; lra). assert (B : IZR z < IZR (Int_part x + 1)) by (rewrite plus_IZR; lra). apply lt_IZR in A, B. lia. Qed.
Lemma flr_0 x : 0 <= x < 1 -> flr x = 0.
Proof. intros. apply (flr_eq x 0). lra. Qed.
Lemma flr_m1 x : -1 <= x < 0 -> flr x = -1.
Proof. intros. apply (flr_eq x (-1)). lra. Qed.
Lemma correct01_id x : unit x -> correct01 x = x.
Proof.
  intros (H0 & H1). unfold correct01. cbv zeta. replace (rltb x 0) with false by (symmetry; apply rltb_false; auto). cbn [andb].
  replace (rltb 1 x) with false by (symmetry; apply rltb_false; auto). reflexivity.
Qed.
Lemma div_some a b : b <> 0 -> div a b = Some (a / b).
Proof. intros H. unfold div. replace (reqb b 0) with false; auto. symmetry. apply reqb_false; auto. Qed.
Lemma pow_zero e : 0 < e -> pow_pos 0 e = Some 0.
Proof.
  intros H. unfold pow_pos. replace (rltb 0 0) with false by (symmetry; apply rltb_false; lra). replace (reqb 0 0) with true by (symmetry; apply reqb_true; auto).
  replace (rltb 0 e) with true by (symmetry; apply rltb_true; auto). reflexivity.
Qed.
Lemma pow_some a e : 0 < a -> pow_pos a e = Some (Rpower a e).
Proof.
  intros H. unfold pow_pos. replace (rltb a 0) with false by (symmetry; apply rltb_false; lra). replace (reqb a 0) with false by (symmetry; apply reqb_false; lra). reflexivity.
Qed.
Lemma Rpower_unit a e : 0 < a <= 1 -> 0 < e -> 0 < Rpower a e <= 1.
Proof.
  intros Ha He. split; [apply exp_pos|]. unfold Rpower. rewrite <- exp_0. assert (ln a <= 0). { destruct (Rle_lt_or_eq_dec a 1 ltac:(lra)) as [H| ->]; [|rewrite ln_1; lra]. left. rewrite <- ln_1. apply ln_increasing; lra. }
  destruct (Rle_lt_or_eq_dec (e * ln a) 0) as [H1|H1]; [nra| |]. left. apply exp_increasing; auto. right. rewrite H1; auto.
Qed.
Lemma pow_unit a e : unit a -> 0 < e -> exists r, pow_pos a e = Some r /\ unit r.
Proof.
  intros (H0 & H1) He. destruct H0 as [H0|<-].
  - exists (Rpower a e). split; [apply pow_some; auto|]. pose proof (Rpower_unit a e (conj H0 H1) He). split; lra.
  - exists 0. split; [apply pow_zero; auto|]. split; lra.
Qed.
(** the inverse of a power *)
Definition root (a e : R) : R := if Rlt_dec 0 a then Rpower a (/ e) else 0.
Lemma root_unit a e : unit a -> 0 < e -> unit (root a e).
Proof.
  intros (H0 & H1) He. unfold root. destruct (Rlt_dec 0 a); [|split; lra]. pose proof (Rpower_unit a (/ e) (conj r H1) (Rinv_0_lt_compat _ He)). split; lra.
Qed.
Lemma root_pow a e : unit a -> 0 < e -> pow_pos (root a e) e = Some a.
Proof.
  intros (H0 & H1) He. unfold root. destruct (Rlt_dec 0 a).
  - rewrite pow_some by apply exp_pos. f_equal. rewrite Rpower_mult, Rinv_l by lra. apply Rpower_1; auto.
  - replace a with 0 by lra. apply pow_zero; auto.
Qed.

(** ** shifts *)
Lemma shift_linear_spec v : unit v -> shift_linear 0.35 v = Some (if Rle_dec v 0.35 then (0.35 - v) / 0.35 else (v - 0.35) / 0.65).
Proof.
  intros (H0 & H1). unfold shift_linear. destruct (Rle_dec v 0.35).
  - rewrite flr_0 by lra. rewrite (Rabs_left1 (v - 0.35)) by lra. rewrite (Rabs_right (0 + 0.35)) by lra. replace (0 + 0.35) with 0.35 by lra. rewrite div_some by lra. rewrite correct01_id; [f_equal; lra|split; lra].
  - rewrite flr_m1 by lra. rewrite (Rabs_right (v - 0.35)) by lra. rewrite (Rabs_left (-1 + 0.35)) by lra. replace (- (-1 + 0.35)) with 0.65 by lra. rewrite div_some by lra. rewrite correct01_id; [f_equal; lra|split; lra].
Qed.
Lemma shift_linear_unit v : unit v -> exists r, shift_linear 0.35 v = Some r /\ unit r.
Proof.
  intros H. eexists. split; [apply shift_linear_spec; auto|]. destruct H. destruct (Rle_dec v 0.35); split; lra.
Qed.
Lemma shift_linear_opt : shift_linear 0.35 0.35 = Some 0.
Proof. rewrite shift_linear_spec by (split; lra). destruct (Rle_dec 0.35 0.35); [|lra]. f_equal. lra. Qed.

Definition dec_val (y : R) : R :=
  if Rlt_dec y 0.349 then 1 - 0.95 * ((0.349 - y) / 0.349) else if Rle_dec y 0.351 then Rabs (y - 0.35) * 1000 else 1 - 0.95 * ((y - 0.351) / 0.649).
Lemma dec_val_unit y : unit y -> unit (dec_val y).
Proof.
  intros (H0 & H1). unfold dec_val. destruct (Rlt_dec y 0.349); [split; lra|]. destruct (Rle_dec y 0.351); [|split; lra].
  pose proof (Rabs_pos (y - 0.35)). split; [lra|]. assert (Rabs (y - 0.35) <= 0.001) by (apply Rabs_le; lra). lra.
Qed.
Lemma shift_deceptive_spec y : unit y -> shift_deceptive 0.35 0.001 0.05 y = Some (dec_val y).
Proof.
  intros H. pose proof H as (H0 & H1). unfold shift_deceptive. replace (1 - 0.35 - 0.001) with 0.649 by lra. replace (0.35 - 0.001) with 0.349 by lra. rewrite !div_some by lra. f_equal. rewrite <- (correct01_id (dec_val y)) by (apply dec_val_unit; auto). f_equal.
  unfold dec_val. destruct (Rlt_dec y 0.349); [|destruct (Rle_dec y 0.351)].
  - rewrite flr_m1, flr_0 by lra. rewrite Rabs_left by lra. lra.
  - rewrite !flr_0 by lra. lra.
  - rewrite flr_0, flr_m1 by lra. rewrite Rabs_right by lra. lra.
Qed.
Lemma deceptive_onto p : unit p -> exists y, unit y /\ shift_deceptive 0.35 0.001 0.05 y = Some p.
Proof.
  intros (H0 & H1). exists (0.35 + p / 1000). assert (U : unit (0.35 + p / 1000)) by (split; lra). split; auto. rewrite shift_deceptive_spec by auto. f_equal.
  unfold dec_val. destruct (Rlt_dec (0.35 + p / 1000) 0.349); [lra|]. destruct (Rle_dec (0.35 + p / 1000) 0.351); [|lra]. rewrite Rabs_right by lra. lra.
Qed.
Lemma deceptive_opt : shift_deceptive 0.35 0.001 0.05 0.35 = Some 0.
Proof.
  rewrite shift_deceptive_spec by (split; lra). f_equal. unfold dec_val. destruct (Rlt_dec 0.35 0.349); [lra|]. destruct (Rle_dec 0.35 0.351); [|lra].
  replace (0.35 - 0.35) with 0 by lra. rewrite Rabs_R0. lra.
Qed.

Definition mm_val (B s : R) : R := (1 + cos (122 * PI * (/ 2 - s)) + 4 * B * (s * s)) / (B + 2).
Lemma mm_val_unit B s : 0 <= B -> - / 2 <= s <= / 2 -> unit (mm_val B s).
Proof.
  intros HB Hs. unfold mm_val. pose proof (COS_bound (122 * PI * (/ 2 - s))). assert (Hq : 0 <= s * s <= / 4) by nra. assert (Hp : 0 < / (B + 2)) by (apply Rinv_0_lt_compat; lra). split.
  - apply Rmult_le_pos; [nra|lra].
  - apply Rmult_le_reg_r with (B + 2); [lra|]. unfold Rdiv. rewrite Rmult_assoc, Rinv_l by lra. nra.
Qed.
Lemma shift_multi_spec B y : 0 <= B -> unit y ->
  shift_multi_modal 30 B 0.35 y = Some (mm_val B (if Rle_dec y 0.35 then (0.35 - y) / 0.7 else - ((y - 0.35) / 1.3))).
Proof.
  intros HB (H0 & H1). unfold shift_multi_modal. assert (E : (4 * 30 + 2) * PI = 122 * PI) by lra. destruct (Rle_dec y 0.35).
  - rewrite flr_0 by lra. rewrite div_some by lra. rewrite div_some by lra. cbv zeta. rewrite E, Rabs_left1 by lra. replace (2 * (0 + 0.35)) with 0.7 by lra. replace (- (y - 0.35) / 0.7) with ((0.35 - y) / 0.7) by lra.
    fold (mm_val B ((0.35 - y) / 0.7)). rewrite correct01_id; auto. apply mm_val_unit; auto. split; lra.
  - rewrite flr_m1 by lra. rewrite div_some by lra. rewrite div_some by lra. cbv zeta. rewrite E, Rabs_right by lra. replace (2 * (-1 + 0.35)) with (- (1.3)) by lra. replace ((y - 0.35) / - (1.3)) with (- ((y - 0.35) / 1.3)) by (unfold Rdiv; rewrite <- Ropp_inv_permute by lra; lra).
    fold (mm_val B (- ((y - 0.35) / 1.3))). rewrite correct01_id; auto. apply mm_val_unit; auto. split; lra.
Qed.
Lemma shift_multi_unit B y : 0 <= B -> unit y -> exists r, shift_multi_modal 30 B 0.35 y = Some r /\ unit r.
Proof.
  intros HB H. eexists. split; [apply shift_multi_spec; auto|]. apply mm_val_unit; auto. destruct H. destruct (Rle_dec y 0.35); split; lra.
Qed.
Lemma cos_61PI : cos (122 * PI * (/ 2)) = -1.
Proof. replace (122 * PI * (/ 2)) with (PI + 2 * INR 30 * PI). rewrite cos_period. apply cos_PI. rewrite INR_IZR_INZ. change (IZR (Z.of_nat 30)) with 30. field. Qed.
Lemma shift_multi_opt B : 0 <= B -> shift_multi_modal 30 B 0.35 0.35 = Some 0.
Proof.
  intros HB. rewrite shift_multi_spec by (auto; split; lra). f_equal. destruct (Rle_dec 0.35 0.35); [|lra]. unfold mm_val. replace ((0.35 - 0.35) / 0.7) with 0 by lra.
  rewrite Rminus_0_r, cos_61PI. field. lra.
Qed.
Lemma multi_onto B p : 0 <= B -> unit p -> exists y, unit y /\ shift_multi_modal 30 B 0.35 y = Some p.
Proof.
  intros HB (H0 & H1). set (h := fun s => mm_val B s - p).
  assert (E0 : mm_val B 0 = 0) by (unfold mm_val; rewrite Rminus_0_r, cos_61PI; field; lra).
  assert (E1 : mm_val B (/ 2) = 1) by (unfold mm_val; replace (122 * PI * (/ 2 - / 2)) with 0 by ring; rewrite cos_0; field; lra).
  assert (Hc : continuity h). { unfold h, mm_val. reg. }
  destruct (IVT_cor h 0 (/ 2) Hc ltac:(lra)) as (s & Hs & Es). { unfold h. rewrite E0, E1. nra. }
  exists (0.35 - 0.7 * s). assert (U : unit (0.35 - 0.7 * s)) by (split; lra). split; auto. rewrite shift_multi_spec by auto. f_equal.
  destruct (Rle_dec (0.35 - 0.7 * s) 0.35); [|lra]. replace ((0.35 - (0.35 - 0.7 * s)) / 0.7) with s by lra. unfold h in Es. lra.
Qed.

(** ** biases *)
Lemma bias_flat_unit y : unit y -> exists r, bias_flat 0.8 0.75 0.85 y = Some r /\ unit r /\ (y = 0 -> r = 0).
Proof.
  intros (H0 & H1). unfold bias_flat. replace (1 - 0.85) with 0.15 by lra. rewrite !div_some by lra.
  assert (E : exists r, 0.8 + Rmin 0 (flr (y - 0.75)) * (0.8 * (0.75 - y) / 0.75) - Rmin 0 (flr (0.85 - y)) * ((1 - 0.8) * (y - 0.85) / 0.15) = r /\ unit r /\ (y = 0 -> r = 0)).
  { destruct (Rlt_dec y 0.75); [|destruct (Rle_dec y 0.85)]; eexists; (split; [reflexivity|]).
    - rewrite flr_m1, flr_0 by lra. rewrite Rmin_right, Rmin_left by lra. split; [split; lra|]. intros ->. lra.
    - rewrite !flr_0 by lra. rewrite Rmin_left by lra. split; [split; lra|]. lra.
    - rewrite flr_0, flr_m1 by lra. rewrite Rmin_left, Rmin_right by lra. split; [split; lra|]. lra. }
  destruct E as (r & -> & U & Z). exists r. rewrite correct01_id by auto. auto.
Qed.
Lemma bias_flat_opt : bias_flat 0.8 0.75 0.85 0 = Some 0.
Proof. destruct (bias_flat_unit 0) as (r & E & _ & H); [split; lra|]. rewrite E, H; auto. Qed.
Lemma bias_poly_unit y : unit y -> exists r, bias_poly 0.02 y = Some r /\ unit r.
Proof. intros H. unfold bias_poly. destruct (pow_unit y 0.02 H ltac:(lra)) as (r & -> & U). exists r. rewrite correct01_id by auto. auto. Qed.
Lemma bias_poly_0 : bias_poly 0.02 0 = Some 0.
Proof. unfold bias_poly. rewrite pow_zero by lra. rewrite correct01_id by (split; lra). reflexivity. Qed.
Lemma bias_poly_root p : unit p -> bias_poly 0.02 (root p 0.02) = Some p.
Proof. intros H. unfold bias_poly. rewrite root_pow by (auto; lra). rewrite correct01_id by auto. reflexivity. Qed.
Lemma pd_exponent_low u : 0 <= u <= / 2 -> pd_exponent u = 0.02 + 1.96 * u.
Proof. intros H. unfold pd_exponent. cbv zeta. rewrite flr_0 by lra. rewrite Rabs_right by lra. lra. Qed.
Lemma pd_exponent_pos u : unit u -> 0.02 <= pd_exponent u.
Proof.
  intros (H0 & H1). destruct (Rle_dec u (/ 2)); [rewrite pd_exponent_low by lra; lra|]. unfold pd_exponent. cbv zeta. rewrite flr_m1 by lra. rewrite Rabs_left by lra. lra.
Qed.
Lemma param_dependent_unit y u : unit y -> unit u -> exists r, param_dependent y u = Some r /\ unit r.
Proof.
  intros Hy Hu. unfold param_dependent. pose proof (pd_exponent_pos u Hu). destruct (pow_unit y (pd_exponent u) Hy ltac:(lra)) as (r & -> & U). exists r. rewrite correct01_id by auto. auto.
Qed.
Lemma param_dependent_root p u : unit p -> unit u -> param_dependent (root p (pd_exponent u)) u = Some p.
Proof. intros Hp Hu. unfold param_dependent. pose proof (pd_exponent_pos u Hu). rewrite root_pow by (auto; lra). rewrite correct01_id by auto. reflexivity. Qed.

(** ** sums *)
Lemma vsum_app a b : vsum (a ++ b) = vsum a + vsum b.
Proof. unfold vsum. induction a; cbn; lra. Qed.
Lemma vsum_repeat a n : vsum (repeat a n) = INR n * a.
Proof. induction n; [cbn; lra|]. rewrite S_INR. change (vsum (repeat a (S n))) with (a + vsum (repeat a n)). rewrite IHn. ring. Qed.
Lemma mean_unit l : l <> [] -> Forall unit l -> exists m, mean l = Some m /\ unit m.
Proof.
  intros Hl H. destruct (mean_nonneg l Hl) as (m & E & Hm). { eapply Forall_impl; [|exact H]. intros a Ha; apply Ha. }
  destruct (mean_le l 1 Hl) as (m' & E' & Hm'). { eapply Forall_impl; [|exact H]. intros a Ha; apply Ha. }
  rewrite E in E'. injection E' as <-. exists m. split; auto. split; auto.
Qed.
Lemma uniform_unit l : l <> [] -> Forall unit l -> exists m, mean l = Some m /\ uniform_sum l = Some m /\ unit m.
Proof. intros Hl H. destruct (mean_unit l Hl H) as (m & E & U). exists m. unfold uniform_sum. rewrite E, correct01_id by auto. auto. Qed.
Lemma uniform_const a n : (1 <= n)%nat -> unit a -> uniform_sum (repeat a n) = Some a.
Proof.
  intros Hn Ha. assert (E : mean (repeat a n) = Some a).
  { destruct n; [lia|]. unfold mean. cbn [repeat]. change (a :: repeat a n) with (repeat a (S n)). rewrite vsum_repeat, repeat_length. f_equal. field. apply not_0_INR. lia. }
  unfold uniform_sum. rewrite E, correct01_id by auto. reflexivity.
Qed.
Lemma wsum_bounds y w : length y = length w -> Forall unit y -> Forall (fun b => 0 < b) w -> 0 <= vsum (zip_with Rmult y w) <= vsum w.
Proof.
  revert w. unfold vsum. induction y as [|a y IH]; intros [|b w] Hl Hy Hw; try discriminate; cbn; [lra|]. inversion Hy as [|? ? Ha Hy']; subst. inversion Hw as [|? ? Hb Hw']; subst. injection Hl as Hl.
  destruct (IH w Hl Hy' Hw'). destruct Ha. split; nra.
Qed.
Lemma vsum_pos w : w <> [] -> Forall (fun b => 0 < b) w -> 0 < vsum w.
Proof. intros Hn H. destruct H as [|b w Hb Hw]; [contradiction|]. unfold vsum. cbn. assert (0 <= vsum w) by (apply vsum_nonneg; eapply Forall_impl; [|exact Hw]; cbn; intros; lra). unfold vsum in H. lra. Qed.
Lemma weighted_unit y w : w <> [] -> length y = length w -> Forall unit y -> Forall (fun b => 0 < b) w -> exists r, weighted_sum y w = Some r /\ unit r.
Proof.
  intros Hn Hl Hy Hw. pose proof (vsum_pos w Hn Hw). destruct (wsum_bounds y w Hl Hy Hw). unfold weighted_sum. rewrite div_some by lra.
  assert (U : unit (vsum (zip_with Rmult y w) / vsum w)).
  { split; [apply Rmult_le_pos; auto; left; apply Rinv_0_lt_compat; auto|]. apply Rmult_le_reg_r with (vsum w); auto. unfold Rdiv. rewrite Rmult_assoc, Rinv_l by lra. lra. }
  rewrite correct01_id by auto. eauto.
Qed.
Lemma weighted_const a w : w <> [] -> unit a -> Forall (fun b => 0 < b) w -> weighted_sum (repeat a (length w)) w = Some a.
Proof.
  intros Hn Ha Hw. pose proof (vsum_pos w Hn Hw). unfold weighted_sum. rewrite div_some by lra.
  assert (E : vsum (zip_with Rmult (repeat a (length w)) w) = a * vsum w). { clear. unfold vsum. induction w; cbn; [ring|]. rewrite IHw. ring. }
  rewrite E. replace (a * vsum w / vsum w) with a by (field; lra). rewrite correct01_id by auto. reflexivity.
Qed.
