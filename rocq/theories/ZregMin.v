(** A point of the second region of ZDT3 that comes before the reported beginning. *)
From Coq Require Import Reals Lra Lia.
From Coquelicot Require Import Coquelicot.
From Coq Require Import List Arith Bool.
From Verif Require Import BenchModel BenchSpec BenchBase BenchZDT ZregModel ZregProof.
Import ListNotations.
Open Scope R_scope.

Definition dpsi (c : R) : R := - / (2 * sqrt c) - sin (10 * PI * c) - 10 * PI * c * cos (10 * PI * c).
Lemma psi_derive c : 0 < c -> derivable_pt_lim psi c (dpsi c).
Proof.
  intros Hc. apply is_derive_Reals. unfold psi, dpsi. auto_derive; [lra|].
  assert (sqrt c <> 0) by (apply Rgt_not_eq, sqrt_lt_R0; auto). field. auto.
Qed.
Lemma psi_mvt a b : 0 < a -> a < b -> exists c, a < c < b /\ psi b - psi a = dpsi c * (b - a).
Proof.
  intros Ha Hab. destruct (MVT_cor2 psi dpsi a b Hab) as (c & E & Hc); [intros c Hc; apply psi_derive; lra|]. exists c. auto.
Qed.
(** on the second half of the first wave the derivative grows *)
Lemma dpsi_incr a b : 0.05 <= a -> a < b -> b <= 0.1 -> dpsi a <= dpsi b.
Proof.
  intros Ha Hab Hb. pose proof PI_RGT_0 as HP. unfold dpsi.
  assert (A1 : PI / 2 <= 10 * PI * a) by nra. assert (A2 : 10 * PI * a < 10 * PI * b) by nra. assert (A3 : 10 * PI * b <= PI) by nra.
  assert (S : sin (10 * PI * b) <= sin (10 * PI * a)) by (apply sin_decr_1; lra).
  assert (C : cos (10 * PI * b) <= cos (10 * PI * a)) by (apply cos_decr_1; lra).
  assert (C0 : cos (10 * PI * a) <= 0) by (apply cos_le_0; lra).
  assert (Q : / (2 * sqrt b) <= / (2 * sqrt a)).
  { assert (0 < sqrt a) by (apply sqrt_lt_R0; lra). assert (sqrt a <= sqrt b) by (apply sqrt_le_1_alt; lra). apply Rinv_le_contravar; lra. }
  assert (M : 10 * PI * a * (- cos (10 * PI * a)) <= 10 * PI * b * (- cos (10 * PI * b))) by (apply Rmult_le_compat; lra). lra.
Qed.
Lemma dpsi_h : Rabs (dpsi hh) <= 1 / 10000000.
Proof.
  assert (E : dpsi hh = - / (2 * sqrt hh) - sin (0.169984651 * PI) + 10 * PI * hh * cos (0.169984651 * PI)).
  { unfold dpsi. replace (10 * PI * hh) with (PI - 0.169984651 * PI) by (unfold hh; lra).
    rewrite sin_PI_x. replace (PI - 0.169984651 * PI) with (- (0.169984651 * PI - PI)) by ring.
    rewrite cos_neg. rewrite cos_minus, cos_PI, sin_PI. ring. }
  rewrite E. pose proof sin_h_bounds as HS. pose proof cos_h_bounds as HC. pose proof sqrt_h_bounds as HQ. pose proof PI_up as U. pose proof PI_dn as D.
  set (S := sin _) in *. set (C := cos _) in *. unfold pi_up, pi_dn in *.
  match type of HQ with ?l <= _ <= ?u => assert (I1 : / (2 * sqrt hh) <= / (2 * l)) by (apply Rinv_le_contravar; lra); assert (I2 : / (2 * u) <= / (2 * sqrt hh)) by (apply Rinv_le_contravar; lra) end.
  match type of HC with ?l <= _ <= ?u =>
    assert (M1 : 31415926535897 / 10000000000000 * l <= PI * C) by (apply Rmult_le_compat; lra);
    assert (M2 : PI * C <= 31415926535898 / 10000000000000 * u) by (apply Rmult_le_compat; lra) end.
  replace (10 * PI * hh * C) with (10 * hh * (PI * C)) by ring. unfold hh in *. apply Rabs_le. lra.
Qed.
Lemma psi_wave s : 0.05 <= s <= 0.1 -> psi hh - 1 / 100000000 <= psi s.
Proof.
  intros Hs. pose proof dpsi_h as HD. apply Rabs_le_between in HD. assert (Hh : 0.083 < hh < 0.084) by (unfold hh; lra).
  destruct (Rtotal_order s hh) as [L|[->|G]]; [|lra|].
  - destruct (psi_mvt s hh ltac:(lra) L) as (c & Hc & E). assert (I := dpsi_incr c hh ltac:(lra) ltac:(lra) ltac:(lra)).
    assert (dpsi c * (hh - s) <= 1 / 10000000 * (hh - s)) by (apply Rmult_le_compat_r; lra). lra.
  - destruct (psi_mvt hh s ltac:(lra) G) as (c & Hc & E). assert (I := dpsi_incr hh c ltac:(lra) ltac:(lra) ltac:(lra)).
    assert (- (1 / 10000000) * (s - hh) <= dpsi c * (s - hh)) by (apply Rmult_le_compat_r; lra). lra.
Qed.
Lemma psi_h_up : psi hh < 0.6697.
Proof. rewrite psi_h. pose proof sin_h_bounds. pose proof sqrt_h_bounds. unfold hh in *. lra. Qed.
Lemma psi_gap s : 0.1 <= s <= 0.15 -> 0.67 <= psi s.
Proof.
  intros Hs. pose proof PI_RGT_0 as HP. unfold psi.
  assert (E : sin (10 * PI * s) = - sin ((10 * s - 1) * PI)).
  { replace (10 * PI * s) with ((10 * s - 1) * PI + PI) by ring. rewrite neg_sin. reflexivity. }
  rewrite E. pose proof pi_low as P3.
  assert (B : forall b x v, 0 <= x <= 1 -> x <= 3 * b -> b <= 1 / 2 -> v <= x - x * x * x / 6 -> b <= 10 * s - 1 -> v <= sin ((10 * s - 1) * PI)).
  { intros b x v Hx Hb Hb2 Hv Hbs. destruct (pre_sin_bound x 0) as [H1 _]; [lra|lra|].
    unfold sin_approx, sin_term in H1. cbn [Nat.mul Nat.add sum_f_R0] in H1. rewrite !INR_fact, !INR_fact0 in H1. cbn [INR pow] in H1.
    assert (sin x <= sin ((10 * s - 1) * PI)) by (apply sin_incr_1; nra). lra. }
  destruct (Rle_dec s 0.106) as [L|N]; [|destruct (Rle_dec s 0.12) as [L2|N2]].
  - assert (S0 : 0 <= sin ((10 * s - 1) * PI)) by (apply sin_ge_0; nra).
    assert (Q : sqrt s <= 0.326) by (apply sqrt_le; lra). nra.
  - assert (S0 := B 0.06 0.18 0.179 ltac:(lra) ltac:(lra) ltac:(lra) ltac:(lra) ltac:(lra)).
    assert (Q : sqrt s <= 0.3465) by (apply sqrt_le; lra).
    assert (0.106 * 0.179 <= s * sin ((10 * s - 1) * PI)) by (apply Rmult_le_compat; lra). lra.
  - assert (S0 := B 0.2 0.6 0.56 ltac:(lra) ltac:(lra) ltac:(lra) ltac:(lra) ltac:(lra)).
    assert (Q : sqrt s <= 0.388) by (apply sqrt_le; lra).
    assert (0.12 * 0.56 <= s * sin ((10 * s - 1) * PI)) by (apply Rmult_le_compat; lra). lra.
Qed.
Lemma psi_fall s : 0.15 <= s -> s < tt0 -> psi tt0 < psi s.
Proof.
  intros Hs Ht. pose proof PI_RGT_0 as HP. assert (T : tt0 < 0.19) by (unfold tt0; lra).
  destruct (psi_mvt s tt0 ltac:(lra) Ht) as (c & Hc & E).
  assert (D : dpsi c < 0).
  { unfold dpsi. assert (C : 0 <= cos (10 * PI * c)).
    { replace (10 * PI * c) with (- (2 * PI - 10 * PI * c) + 2 * INR 1 * PI) by (simpl; ring). rewrite cos_period, cos_neg. apply cos_ge_0; nra. }
    assert (S := SIN_bound (10 * PI * c)). assert (M : 0 <= 10 * PI * c * cos (10 * PI * c)) by (apply Rmult_le_pos; nra).
    assert (Q0 : 0 < sqrt c) by (apply sqrt_lt_R0; lra). assert (Q : sqrt c <= 0.45) by (apply sqrt_le; lra).
    assert (I : / 0.9 <= / (2 * sqrt c)) by (apply Rinv_le_contravar; lra). lra. }
  assert (dpsi c * (tt0 - s) < 0) by nra. lra.
Qed.
Lemma phi_psi t : eps <= t -> zdt3_phi t = psi t.
Proof. intros H. unfold zdt3_phi, psi. rewrite Rmax_left by lra. reflexivity. Qed.
Lemma tt0_min s : 0 <= s < tt0 -> zdt3_phi tt0 < zdt3_phi s.
Proof.
  intros Hs. assert (He : eps < 0.01) by (unfold eps; lra). rewrite (phi_psi tt0) by (unfold tt0; lra).
  pose proof psi_t_h as HT. pose proof psi_h_up as HU. destruct (Rlt_dec s 0.05) as [L|N].
  - unfold zdt3_phi. assert (Q : sqrt (Rmax s eps) <= 0.23) by (apply sqrt_le; [lra|apply Rmax_lub; lra]).
    assert (S := SIN_bound (10 * PI * s)). assert (s * sin (10 * PI * s) <= s * 1) by (apply Rmult_le_compat_l; lra). lra.
  - rewrite phi_psi by lra. destruct (Rle_dec s 0.1) as [L1|N1]; [pose proof (psi_wave s ltac:(lra)); lra|].
    destruct (Rle_dec s 0.15) as [L2|N2]; [pose proof (psi_gap s ltac:(lra)); lra|]. apply psi_fall; lra.
Qed.
