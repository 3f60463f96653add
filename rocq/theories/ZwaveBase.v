(** The waves of the function behind ZDT3. *)
From Coq Require Import Reals Lra Lia.
From Coquelicot Require Import Coquelicot.
From Coq Require Import List Arith Bool.
From Verif Require Import BenchModel BenchSpec BenchBase BenchZDT ZregModel ZregProof ZregMin.
Import ListNotations.
Open Scope R_scope.

Lemma wave_sin k c : sin (10 * PI * c) = sin (10 * PI * (c - INR k / 5)).
Proof. replace (10 * PI * c) with (10 * PI * (c - INR k / 5) + 2 * INR k * PI) by field. apply sin_period. Qed.
Lemma wave_cos k c : cos (10 * PI * c) = cos (10 * PI * (c - INR k / 5)).
Proof. replace (10 * PI * c) with (10 * PI * (c - INR k / 5) + 2 * INR k * PI) by field. apply cos_period. Qed.

(** first quarter: falling *)
Lemma q1_neg k c : 0 < c -> 0 <= c - INR k / 5 <= 0.05 -> dpsi c < 0.
Proof.
  intros Hc Hr. pose proof PI_RGT_0 as HP. unfold dpsi. rewrite (wave_sin k c), (wave_cos k c). set (r := c - INR k / 5) in *.
  assert (A1 : 0 <= 10 * PI * r) by nra. assert (A2 : 10 * PI * r <= PI / 2) by nra.
  assert (S : 0 <= sin (10 * PI * r)) by (apply sin_ge_0; lra). assert (C : 0 <= cos (10 * PI * r)) by (apply cos_ge_0; lra).
  assert (M : 0 <= 10 * PI * c * cos (10 * PI * r)) by (apply Rmult_le_pos; [|auto]; nra).
  assert (Q : 0 < / (2 * sqrt c)) by (apply Rinv_0_lt_compat; pose proof (sqrt_lt_R0 c Hc); lra). lra.
Qed.
(** second quarter: the derivative grows *)
Lemma q2_incr k a b : 0.05 <= a - INR k / 5 -> a < b -> b - INR k / 5 <= 0.1 -> dpsi a <= dpsi b.
Proof.
  intros Ha Hab Hb. pose proof PI_RGT_0 as HP. pose proof (pos_INR k) as Hk. unfold dpsi.
  rewrite (wave_sin k a), (wave_cos k a), (wave_sin k b), (wave_cos k b).
  set (ra := a - INR k / 5) in *. set (rb := b - INR k / 5) in *. assert (Hr : ra < rb) by (unfold ra, rb; lra).
  assert (Pa : 0 < a) by (unfold ra in Ha; lra).
  assert (A1 : PI / 2 <= 10 * PI * ra) by nra. assert (A2 : 10 * PI * ra < 10 * PI * rb) by nra. assert (A3 : 10 * PI * rb <= PI) by nra.
  assert (S : sin (10 * PI * rb) <= sin (10 * PI * ra)) by (apply sin_decr_1; lra).
  assert (C : cos (10 * PI * rb) <= cos (10 * PI * ra)) by (apply cos_decr_1; lra).
  assert (C0 : cos (10 * PI * ra) <= 0) by (apply cos_le_0; lra).
  assert (Q : / (2 * sqrt b) <= / (2 * sqrt a)).
  { assert (0 < sqrt a) by (apply sqrt_lt_R0; lra). assert (sqrt a <= sqrt b) by (apply sqrt_le_1_alt; lra). apply Rinv_le_contravar; lra. }
  assert (M : 10 * PI * a * (- cos (10 * PI * ra)) <= 10 * PI * b * (- cos (10 * PI * rb))) by (apply Rmult_le_compat; nra). lra.
Qed.
(** second half: the sine is not positive *)
Lemma half_low k c : 0.1 <= c - INR k / 5 <= 0.2 -> 1 - sqrt c <= psi c.
Proof.
  intros Hr. pose proof PI_RGT_0 as HP. pose proof (pos_INR k) as Hk. unfold psi. rewrite (wave_sin k c).
  assert (S : sin (10 * PI * (c - INR k / 5)) <= 0) by (apply sin_le_0; nra). set (S0 := sin _) in *. nra.
Qed.
(** falling between two points where the derivative is negative *)
Lemma falls a b : 0 < a -> a < b -> (forall c, a < c < b -> dpsi c < 0) -> psi b < psi a.
Proof.
  intros Ha Hab Hd. destruct (psi_mvt a b Ha Hab) as (c & Hc & E). specialize (Hd c Hc). assert (dpsi c * (b - a) < 0) by nra. lra.
Qed.
Lemma rises a b : 0 < a -> a < b -> (forall c, a < c < b -> 0 < dpsi c) -> psi a < psi b.
Proof.
  intros Ha Hab Hd. destruct (psi_mvt a b Ha Hab) as (c & Hc & E). specialize (Hd c Hc). assert (0 < dpsi c * (b - a)) by nra. lra.
Qed.
Definition dd : R := 1 / 100000000.
(** the minimum of a wave is at [h] up to [dd] *)
Record lowest (k : nat) (h : R) : Prop := mkLowest {
  lw_pos : 0.05 < h - dd - INR k / 5; lw_top : h + dd - INR k / 5 < 0.1;
  lw_neg : - (1 / 100000) <= dpsi (h - dd) < 0; lw_pos2 : 0 < dpsi (h + dd) <= 1 / 100000 }.
Lemma wave_fall k h a b : lowest k h -> 0 < a -> 0 <= a - INR k / 5 -> a < b -> b <= h - dd -> psi b < psi a.
Proof.
  intros [L1 L2 L3 L4] Ha Hk Hab Hb. apply falls; auto. intros c Hc. pose proof PI_RGT_0.
  destruct (Rle_dec (c - INR k / 5) 0.05) as [L|N]; [apply (q1_neg k); lra|].
  assert (D : 0 < dd) by (unfold dd; lra). assert (dpsi c <= dpsi (h - dd)) by (apply (q2_incr k); lra). lra.
Qed.
Lemma wave_rise k h a b : lowest k h -> h + dd <= a -> a < b -> b - INR k / 5 <= 0.1 -> psi a < psi b.
Proof.
  intros [L1 L2 L3 L4] Ha Hab Hb. pose proof (pos_INR k). assert (D : 0 < dd) by (unfold dd; lra). apply rises; [lra|auto|]. intros c Hc.
  assert (dpsi (h + dd) <= dpsi c) by (apply (q2_incr k); lra). lra.
Qed.
Lemma wave_near k h s : lowest k h -> h - dd <= s <= h + dd -> psi h - 1 / 1000000000000 <= psi s.
Proof.
  intros [L1 L2 L3 L4] Hs. pose proof (pos_INR k). assert (D : 0 < dd) by (unfold dd; lra).
  assert (B : forall c, h - dd < c < h + dd -> - (1 / 100000) <= dpsi c <= 1 / 100000).
  { intros c Hc. assert (dpsi (h - dd) <= dpsi c) by (apply (q2_incr k); lra). assert (dpsi c <= dpsi (h + dd)) by (apply (q2_incr k); lra). lra. }
  destruct (Rtotal_order s h) as [L|[->|G]]; [|lra|].
  - destruct (psi_mvt s h ltac:(lra) L) as (c & Hc & E). specialize (B c ltac:(lra)).
    assert (dpsi c * (h - s) <= 1 / 100000 * (h - s)) by (apply Rmult_le_compat_r; lra). unfold dd in *. lra.
  - destruct (psi_mvt h s ltac:(lra) G) as (c & Hc & E). specialize (B c ltac:(lra)).
    assert (- (1 / 100000) * (s - h) <= dpsi c * (s - h)) by (apply Rmult_le_compat_r; lra). unfold dd in *. lra.
Qed.
(** the first half of a wave stays above its minimum *)
Lemma wave_above k h s : lowest k h -> 0 < s -> 0 <= s - INR k / 5 <= 0.1 -> psi h - 1 / 1000000000000 <= psi s.
Proof.
  intros L Hs Hr. pose proof (pos_INR k). assert (D : 0 < dd) by (unfold dd; lra). pose proof L as [L1 L2 L3 L4].
  destruct (Rlt_dec s (h - dd)) as [A|A].
  - pose proof (wave_fall k h s (h - dd) L Hs ltac:(lra) A ltac:(lra)). pose proof (wave_near k h (h - dd) L ltac:(lra)). lra.
  - destruct (Rle_dec s (h + dd)) as [B|B]; [apply (wave_near k); auto; lra|].
    pose proof (wave_rise k h (h + dd) s L ltac:(lra) ltac:(lra) ltac:(lra)). pose proof (wave_near k h (h + dd) L ltac:(lra)). lra.
Qed.
(** the derivative in terms of small angles *)
Lemma dpsi_small a (m : nat) : dpsi ((2 * INR m + 1 / 2 + a) / 10) =
  - / (2 * sqrt ((2 * INR m + 1 / 2 + a) / 10)) - cos (a * PI) + (2 * INR m + 1 / 2 + a) * (PI * sin (a * PI)).
Proof.
  unfold dpsi. replace (10 * PI * ((2 * INR m + 1 / 2 + a) / 10)) with ((PI / 2 + a * PI) + 2 * INR m * PI) by field.
  rewrite sin_period, cos_period. rewrite <- cos_sin. replace (cos (PI / 2 + a * PI)) with (- sin (a * PI)) by (rewrite sin_cos; ring).
  set (Q := / (2 * sqrt _)). set (S := sin _). set (C := cos _). replace ((2 * INR m + 1 / 2 + a) * (PI * S)) with (- ((PI / 2 + a * PI + 2 * INR m * PI) * - S)) by field. ring.
Qed.
