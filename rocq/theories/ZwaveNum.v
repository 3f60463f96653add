(** Numbers for the waves of ZDT3. *)
From Coq Require Import Reals Lra Lia.
From Coq Require Import List Arith Bool.
From Verif Require Import BenchModel BenchSpec BenchBase BenchZDT ZregModel ZregProof ZregMin ZwaveBase ZwaveQ.
Import ListNotations.
Open Scope R_scope.

Lemma w0m_trig : (860766407226 / 1000000000000 <= sin (0.330015249 * PI) <= 860766417231 / 1000000000000) /\ (509000175330 / 1000000000000 <= cos (0.330015249 * PI) <= 509000185335 / 1000000000000).
Proof.
  pose proof pi_low. split; split.
  - apply sin_dn; [lra|]. apply (ge_s_ok _ 10367734818309755893353 10000000000000000000000); [unfold pi_dn; lra|vm_compute; reflexivity].
  - apply sin_up; [lra|unfold pi_up; lra|]. apply (le_s_ok _ 10367734818310085908602 10000000000000000000000); [unfold pi_up; lra|vm_compute; reflexivity].
  - apply cos_low; [lra|unfold pi_up; lra|]. apply (ge_c_ok _ 10367734818310085908602 10000000000000000000000); [unfold pi_up; lra|vm_compute; reflexivity].
  - apply cos_up; [lra|]. apply (le_c_ok _ 10367734818309755893353 10000000000000000000000); [unfold pi_dn; lra|vm_compute; reflexivity].
Qed.
Lemma w0m_sqrt : 288099852306 / 1000000000000 <= sqrt 0.0830015249 <= 288099852311 / 1000000000000.
Proof. split; [apply sqrt_ge|apply sqrt_le]; lra. Qed.
Lemma w0m_slope : - (1 / 100000) <= dpsi 0.0830015249 < 0.
Proof.
  assert (E : 0.0830015249 = (2 * INR 0 + 1 / 2 + 0.330015249) / 10) by (simpl; lra).
  rewrite E, dpsi_small, <- E. replace (2 * INR 0 + 1 / 2 + 0.330015249) with (10 * 0.0830015249) by (simpl; lra).
  destruct w0m_trig as [HS HC]. pose proof w0m_sqrt as HQ. pose proof PI_up as U. pose proof PI_dn as Dn. unfold pi_up, pi_dn in *.
  set (S := sin _) in *. set (C := cos _) in *. set (q := sqrt _) in *.
  match type of HQ with ?l <= _ <= ?u => assert (I1 : / (2 * q) <= / (2 * l)) by (apply Rinv_le_contravar; lra); assert (I2 : / (2 * u) <= / (2 * q)) by (apply Rinv_le_contravar; lra) end.
  match type of HS with ?l <= _ <= ?u =>
    assert (M1 : 31415926535897 / 10000000000000 * l <= PI * S) by (apply Rmult_le_compat; lra);
    assert (M2 : PI * S <= 31415926535898 / 10000000000000 * u) by (apply Rmult_le_compat; lra) end.
  lra.
Qed.
Lemma w0p_trig : (860766727040 / 1000000000000 <= sin (0.330015449 * PI) <= 860766737045 / 1000000000000) /\ (508999634495 / 1000000000000 <= cos (0.330015449 * PI) <= 508999644500 / 1000000000000).
Proof.
  pose proof pi_low. split; split.
  - apply sin_dn; [lra|]. apply (ge_s_ok _ 10367741101495063072753 10000000000000000000000); [unfold pi_dn; lra|vm_compute; reflexivity].
  - apply sin_up; [lra|unfold pi_up; lra|]. apply (le_s_ok _ 10367741101495393088202 10000000000000000000000); [unfold pi_up; lra|vm_compute; reflexivity].
  - apply cos_low; [lra|unfold pi_up; lra|]. apply (ge_c_ok _ 10367741101495393088202 10000000000000000000000); [unfold pi_up; lra|vm_compute; reflexivity].
  - apply cos_up; [lra|]. apply (le_c_ok _ 10367741101495063072753 10000000000000000000000); [unfold pi_dn; lra|vm_compute; reflexivity].
Qed.
Lemma w0p_sqrt : 288099887016 / 1000000000000 <= sqrt 0.0830015449 <= 288099887021 / 1000000000000.
Proof. split; [apply sqrt_ge|apply sqrt_le]; lra. Qed.
Lemma w0p_slope : 0 < dpsi 0.0830015449 <= 1 / 100000.
Proof.
  assert (E : 0.0830015449 = (2 * INR 0 + 1 / 2 + 0.330015449) / 10) by (simpl; lra).
  rewrite E, dpsi_small, <- E. replace (2 * INR 0 + 1 / 2 + 0.330015449) with (10 * 0.0830015449) by (simpl; lra).
  destruct w0p_trig as [HS HC]. pose proof w0p_sqrt as HQ. pose proof PI_up as U. pose proof PI_dn as Dn. unfold pi_up, pi_dn in *.
  set (S := sin _) in *. set (C := cos _) in *. set (q := sqrt _) in *.
  match type of HQ with ?l <= _ <= ?u => assert (I1 : / (2 * q) <= / (2 * l)) by (apply Rinv_le_contravar; lra); assert (I2 : / (2 * u) <= / (2 * q)) by (apply Rinv_le_contravar; lra) end.
  match type of HS with ?l <= _ <= ?u =>
    assert (M1 : 31415926535897 / 10000000000000 * l <= PI * S) by (apply Rmult_le_compat; lra);
    assert (M2 : PI * S <= 31415926535898 / 10000000000000 * u) by (apply Rmult_le_compat; lra) end.
  lra.
Qed.
Lemma lowest0 : lowest 0 0.0830015349.
Proof.
  assert (E1 : 0.0830015349 - dd = 0.0830015249) by (unfold dd; lra). assert (E2 : 0.0830015349 + dd = 0.0830015449) by (unfold dd; lra).
  constructor; rewrite ?E1, ?E2; [simpl; lra|simpl; lra|apply w0m_slope|apply w0p_slope].
Qed.
Lemma v0_trig : (860766567133 / 1000000000000 <= sin (0.330015349 * PI) <= 860766577138 / 1000000000000) /\ (508999904912 / 1000000000000 <= cos (0.330015349 * PI) <= 508999914917 / 1000000000000).
Proof.
  pose proof pi_low. split; split.
  - apply sin_dn; [lra|]. apply (ge_s_ok _ 10367737959902409483053 10000000000000000000000); [unfold pi_dn; lra|vm_compute; reflexivity].
  - apply sin_up; [lra|unfold pi_up; lra|]. apply (le_s_ok _ 10367737959902739498402 10000000000000000000000); [unfold pi_up; lra|vm_compute; reflexivity].
  - apply cos_low; [lra|unfold pi_up; lra|]. apply (ge_c_ok _ 10367737959902739498402 10000000000000000000000); [unfold pi_up; lra|vm_compute; reflexivity].
  - apply cos_up; [lra|]. apply (le_c_ok _ 10367737959902409483053 10000000000000000000000); [unfold pi_dn; lra|vm_compute; reflexivity].
Qed.
Lemma v0_sqrt : 288099869661 / 1000000000000 <= sqrt 0.0830015349 <= 288099869666 / 1000000000000.
Proof. split; [apply sqrt_ge|apply sqrt_le]; lra. Qed.
Lemma val0 : 0.65 < psi 0.0830015349 < 0.67.
Proof.
  assert (E : 0.0830015349 = (2 * INR 0 + 1 / 2 + 0.330015349) / 10) by (simpl; lra). rewrite E, psi_hi, <- E.
  destruct v0_trig as [_ HC]. pose proof v0_sqrt. set (C := cos _) in *. lra.
Qed.
Lemma w1m_trig : (241451689927 / 1000000000000 <= sin (0.077623534 * PI) <= 241451689932 / 1000000000000) /\ (970412840715 / 1000000000000 <= cos (0.077623534 * PI) <= 970412840720 / 1000000000000).
Proof.
  pose proof pi_low. split; split.
  - apply sin_dn; [lra|]. apply (ge_s_ok _ 2438615241600702999998 10000000000000000000000); [unfold pi_dn; lra|vm_compute; reflexivity].
  - apply sin_up; [lra|unfold pi_up; lra|]. apply (le_s_ok _ 2438615241600780623532 10000000000000000000000); [unfold pi_up; lra|vm_compute; reflexivity].
  - apply cos_low; [lra|unfold pi_up; lra|]. apply (ge_c_ok _ 2438615241600780623532 10000000000000000000000); [unfold pi_up; lra|vm_compute; reflexivity].
  - apply cos_up; [lra|]. apply (le_c_ok _ 2438615241600702999998 10000000000000000000000); [unfold pi_dn; lra|vm_compute; reflexivity].
Qed.
Lemma w1m_sqrt : 507703016928 / 1000000000000 <= sqrt 0.2577623534 <= 507703016933 / 1000000000000.
Proof. split; [apply sqrt_ge|apply sqrt_le]; lra. Qed.
Lemma w1m_slope : - (1 / 100000) <= dpsi 0.2577623534 < 0.
Proof.
  assert (E : 0.2577623534 = (2 * INR 1 + 1 / 2 + 0.077623534) / 10) by (simpl; lra).
  rewrite E, dpsi_small, <- E. replace (2 * INR 1 + 1 / 2 + 0.077623534) with (10 * 0.2577623534) by (simpl; lra).
  destruct w1m_trig as [HS HC]. pose proof w1m_sqrt as HQ. pose proof PI_up as U. pose proof PI_dn as Dn. unfold pi_up, pi_dn in *.
  set (S := sin _) in *. set (C := cos _) in *. set (q := sqrt _) in *.
  match type of HQ with ?l <= _ <= ?u => assert (I1 : / (2 * q) <= / (2 * l)) by (apply Rinv_le_contravar; lra); assert (I2 : / (2 * u) <= / (2 * q)) by (apply Rinv_le_contravar; lra) end.
  match type of HS with ?l <= _ <= ?u =>
    assert (M1 : 31415926535897 / 10000000000000 * l <= PI * S) by (apply Rmult_le_compat; lra);
    assert (M2 : PI * S <= 31415926535898 / 10000000000000 * u) by (apply Rmult_le_compat; lra) end.
  lra.
Qed.
Lemma w1p_trig : (241452299655 / 1000000000000 <= sin (0.077623734 * PI) <= 241452299660 / 1000000000000) /\ (970412689007 / 1000000000000 <= cos (0.077623734 * PI) <= 970412689012 / 1000000000000).
Proof.
  pose proof pi_low. split; split.
  - apply sin_dn; [lra|]. apply (ge_s_ok _ 2438621524786010179398 10000000000000000000000); [unfold pi_dn; lra|vm_compute; reflexivity].
  - apply sin_up; [lra|unfold pi_up; lra|]. apply (le_s_ok _ 2438621524786087803132 10000000000000000000000); [unfold pi_up; lra|vm_compute; reflexivity].
  - apply cos_low; [lra|unfold pi_up; lra|]. apply (ge_c_ok _ 2438621524786087803132 10000000000000000000000); [unfold pi_up; lra|vm_compute; reflexivity].
  - apply cos_up; [lra|]. apply (le_c_ok _ 2438621524786010179398 10000000000000000000000); [unfold pi_dn; lra|vm_compute; reflexivity].
Qed.
Lemma w1p_sqrt : 507703036624 / 1000000000000 <= sqrt 0.2577623734 <= 507703036629 / 1000000000000.
Proof. split; [apply sqrt_ge|apply sqrt_le]; lra. Qed.
Lemma w1p_slope : 0 < dpsi 0.2577623734 <= 1 / 100000.
Proof.
  assert (E : 0.2577623734 = (2 * INR 1 + 1 / 2 + 0.077623734) / 10) by (simpl; lra).
  rewrite E, dpsi_small, <- E. replace (2 * INR 1 + 1 / 2 + 0.077623734) with (10 * 0.2577623734) by (simpl; lra).
  destruct w1p_trig as [HS HC]. pose proof w1p_sqrt as HQ. pose proof PI_up as U. pose proof PI_dn as Dn. unfold pi_up, pi_dn in *.
  set (S := sin _) in *. set (C := cos _) in *. set (q := sqrt _) in *.
  match type of HQ with ?l <= _ <= ?u => assert (I1 : / (2 * q) <= / (2 * l)) by (apply Rinv_le_contravar; lra); assert (I2 : / (2 * u) <= / (2 * q)) by (apply Rinv_le_contravar; lra) end.
  match type of HS with ?l <= _ <= ?u =>
    assert (M1 : 31415926535897 / 10000000000000 * l <= PI * S) by (apply Rmult_le_compat; lra);
    assert (M2 : PI * S <= 31415926535898 / 10000000000000 * u) by (apply Rmult_le_compat; lra) end.
  lra.
Qed.
Lemma lowest1 : lowest 1 0.2577623634.
Proof.
  assert (E1 : 0.2577623634 - dd = 0.2577623534) by (unfold dd; lra). assert (E2 : 0.2577623634 + dd = 0.2577623734) by (unfold dd; lra).
  constructor; rewrite ?E1, ?E2; [simpl; lra|simpl; lra|apply w1m_slope|apply w1p_slope].
Qed.
Lemma v1_trig : (241451994791 / 1000000000000 <= sin (0.077623634 * PI) <= 241451994796 / 1000000000000) /\ (970412764861 / 1000000000000 <= cos (0.077623634 * PI) <= 970412764866 / 1000000000000).
Proof.
  pose proof pi_low. split; split.
  - apply sin_dn; [lra|]. apply (ge_s_ok _ 2438618383193356589698 10000000000000000000000); [unfold pi_dn; lra|vm_compute; reflexivity].
  - apply sin_up; [lra|unfold pi_up; lra|]. apply (le_s_ok _ 2438618383193434213332 10000000000000000000000); [unfold pi_up; lra|vm_compute; reflexivity].
  - apply cos_low; [lra|unfold pi_up; lra|]. apply (ge_c_ok _ 2438618383193434213332 10000000000000000000000); [unfold pi_up; lra|vm_compute; reflexivity].
  - apply cos_up; [lra|]. apply (le_c_ok _ 2438618383193356589698 10000000000000000000000); [unfold pi_dn; lra|vm_compute; reflexivity].
Qed.
Lemma v1_sqrt : 507703026776 / 1000000000000 <= sqrt 0.2577623634 <= 507703026781 / 1000000000000.
Proof. split; [apply sqrt_ge|apply sqrt_le]; lra. Qed.
Lemma val1 : 0.23 < psi 0.2577623634 < 0.25.
Proof.
  assert (E : 0.2577623634 = (2 * INR 1 + 1 / 2 + 0.077623634) / 10) by (simpl; lra). rewrite E, psi_hi, <- E.
  destruct v1_trig as [_ HC]. pose proof v1_sqrt. set (C := cos _) in *. lra.
Qed.
Lemma w2m_trig : (121657467172 / 1000000000000 <= sin (0.038820941 * PI) <= 121657467177 / 1000000000000) /\ (992572143814 / 1000000000000 <= cos (0.038820941 * PI) <= 992572143819 / 1000000000000).
Proof.
  pose proof pi_low. split; split.
  - apply sin_dn; [lra|]. apply (ge_s_ok _ 1219595830510391819077 10000000000000000000000); [unfold pi_dn; lra|vm_compute; reflexivity].
  - apply sin_up; [lra|unfold pi_up; lra|]. apply (le_s_ok _ 1219595830510430640018 10000000000000000000000); [unfold pi_up; lra|vm_compute; reflexivity].
  - apply cos_low; [lra|unfold pi_up; lra|]. apply (ge_c_ok _ 1219595830510430640018 10000000000000000000000); [unfold pi_up; lra|vm_compute; reflexivity].
  - apply cos_up; [lra|]. apply (le_c_ok _ 1219595830510391819077 10000000000000000000000); [unfold pi_dn; lra|vm_compute; reflexivity].
Qed.
Lemma w2m_sqrt : 673707721565 / 1000000000000 <= sqrt 0.4538820941 <= 673707721570 / 1000000000000.
Proof. split; [apply sqrt_ge|apply sqrt_le]; lra. Qed.
Lemma w2m_slope : - (1 / 100000) <= dpsi 0.4538820941 < 0.
Proof.
  assert (E : 0.4538820941 = (2 * INR 2 + 1 / 2 + 0.038820941) / 10) by (simpl; lra).
  rewrite E, dpsi_small, <- E. replace (2 * INR 2 + 1 / 2 + 0.038820941) with (10 * 0.4538820941) by (simpl; lra).
  destruct w2m_trig as [HS HC]. pose proof w2m_sqrt as HQ. pose proof PI_up as U. pose proof PI_dn as Dn. unfold pi_up, pi_dn in *.
  set (S := sin _) in *. set (C := cos _) in *. set (q := sqrt _) in *.
  match type of HQ with ?l <= _ <= ?u => assert (I1 : / (2 * q) <= / (2 * l)) by (apply Rinv_le_contravar; lra); assert (I2 : / (2 * u) <= / (2 * q)) by (apply Rinv_le_contravar; lra) end.
  match type of HS with ?l <= _ <= ?u =>
    assert (M1 : 31415926535897 / 10000000000000 * l <= PI * S) by (apply Rmult_le_compat; lra);
    assert (M2 : PI * S <= 31415926535898 / 10000000000000 * u) by (apply Rmult_le_compat; lra) end.
  lra.
Qed.
Lemma w2p_trig : (121658090823 / 1000000000000 <= sin (0.038821141 * PI) <= 121658090828 / 1000000000000) /\ (992572067374 / 1000000000000 <= cos (0.038821141 * PI) <= 992572067379 / 1000000000000).
Proof.
  pose proof pi_low. split; split.
  - apply sin_dn; [lra|]. apply (ge_s_ok _ 1219602113695698998477 10000000000000000000000); [unfold pi_dn; lra|vm_compute; reflexivity].
  - apply sin_up; [lra|unfold pi_up; lra|]. apply (le_s_ok _ 1219602113695737819618 10000000000000000000000); [unfold pi_up; lra|vm_compute; reflexivity].
  - apply cos_low; [lra|unfold pi_up; lra|]. apply (ge_c_ok _ 1219602113695737819618 10000000000000000000000); [unfold pi_up; lra|vm_compute; reflexivity].
  - apply cos_up; [lra|]. apply (le_c_ok _ 1219602113695698998477 10000000000000000000000); [unfold pi_dn; lra|vm_compute; reflexivity].
Qed.
Lemma w2p_sqrt : 673707736408 / 1000000000000 <= sqrt 0.4538821141 <= 673707736413 / 1000000000000.
Proof. split; [apply sqrt_ge|apply sqrt_le]; lra. Qed.
Lemma w2p_slope : 0 < dpsi 0.4538821141 <= 1 / 100000.
Proof.
  assert (E : 0.4538821141 = (2 * INR 2 + 1 / 2 + 0.038821141) / 10) by (simpl; lra).
  rewrite E, dpsi_small, <- E. replace (2 * INR 2 + 1 / 2 + 0.038821141) with (10 * 0.4538821141) by (simpl; lra).
  destruct w2p_trig as [HS HC]. pose proof w2p_sqrt as HQ. pose proof PI_up as U. pose proof PI_dn as Dn. unfold pi_up, pi_dn in *.
  set (S := sin _) in *. set (C := cos _) in *. set (q := sqrt _) in *.
  match type of HQ with ?l <= _ <= ?u => assert (I1 : / (2 * q) <= / (2 * l)) by (apply Rinv_le_contravar; lra); assert (I2 : / (2 * u) <= / (2 * q)) by (apply Rinv_le_contravar; lra) end.
  match type of HS with ?l <= _ <= ?u =>
    assert (M1 : 31415926535897 / 10000000000000 * l <= PI * S) by (apply Rmult_le_compat; lra);
    assert (M2 : PI * S <= 31415926535898 / 10000000000000 * u) by (apply Rmult_le_compat; lra) end.
  lra.
Qed.
Lemma lowest2 : lowest 2 0.4538821041.
Proof.
  assert (E1 : 0.4538821041 - dd = 0.4538820941) by (unfold dd; lra). assert (E2 : 0.4538821041 + dd = 0.4538821141) by (unfold dd; lra).
  constructor; rewrite ?E1, ?E2; [simpl; lra|simpl; lra|apply w2m_slope|apply w2p_slope].
Qed.
Lemma v2_trig : (121657778997 / 1000000000000 <= sin (0.038821041 * PI) <= 121657779002 / 1000000000000) /\ (992572105594 / 1000000000000 <= cos (0.038821041 * PI) <= 992572105599 / 1000000000000).
Proof.
  pose proof pi_low. split; split.
  - apply sin_dn; [lra|]. apply (ge_s_ok _ 1219598972103045408777 10000000000000000000000); [unfold pi_dn; lra|vm_compute; reflexivity].
  - apply sin_up; [lra|unfold pi_up; lra|]. apply (le_s_ok _ 1219598972103084229818 10000000000000000000000); [unfold pi_up; lra|vm_compute; reflexivity].
  - apply cos_low; [lra|unfold pi_up; lra|]. apply (ge_c_ok _ 1219598972103084229818 10000000000000000000000); [unfold pi_up; lra|vm_compute; reflexivity].
  - apply cos_up; [lra|]. apply (le_c_ok _ 1219598972103045408777 10000000000000000000000); [unfold pi_dn; lra|vm_compute; reflexivity].
Qed.
Lemma v2_sqrt : 673707728987 / 1000000000000 <= sqrt 0.4538821041 <= 673707728992 / 1000000000000.
Proof. split; [apply sqrt_ge|apply sqrt_le]; lra. Qed.
Lemma val2 : -0.13 < psi 0.4538821041 < -0.11.
Proof.
  assert (E : 0.4538821041 = (2 * INR 2 + 1 / 2 + 0.038821041) / 10) by (simpl; lra). rewrite E, psi_hi, <- E.
  destruct v2_trig as [_ HC]. pose proof v2_sqrt. set (C := cos _) in *. lra.
Qed.
Lemma w3m_trig : (78825329500 / 1000000000000 <= sin (0.025116938 * PI) <= 78825329505 / 1000000000000) /\ (996888442818 / 1000000000000 <= cos (0.025116938 * PI) <= 996888442823 / 1000000000000).
Proof.
  pose proof pi_low. split; split.
  - apply sin_dn; [lra|]. apply (ge_s_ok _ 789071879014679723386 10000000000000000000000); [unfold pi_dn; lra|vm_compute; reflexivity].
  - apply sin_up; [lra|unfold pi_up; lra|]. apply (le_s_ok _ 789071879014704840324 10000000000000000000000); [unfold pi_up; lra|vm_compute; reflexivity].
  - apply cos_low; [lra|unfold pi_up; lra|]. apply (ge_c_ok _ 789071879014704840324 10000000000000000000000); [unfold pi_up; lra|vm_compute; reflexivity].
  - apply cos_up; [lra|]. apply (le_c_ok _ 789071879014679723386 10000000000000000000000); [unfold pi_dn; lra|vm_compute; reflexivity].
Qed.
Lemma w3m_sqrt : 807781959316 / 1000000000000 <= sqrt 0.6525116938 <= 807781959321 / 1000000000000.
Proof. split; [apply sqrt_ge|apply sqrt_le]; lra. Qed.
Lemma w3m_slope : - (1 / 100000) <= dpsi 0.6525116938 < 0.
Proof.
  assert (E : 0.6525116938 = (2 * INR 3 + 1 / 2 + 0.025116938) / 10) by (simpl; lra).
  rewrite E, dpsi_small, <- E. replace (2 * INR 3 + 1 / 2 + 0.025116938) with (10 * 0.6525116938) by (simpl; lra).
  destruct w3m_trig as [HS HC]. pose proof w3m_sqrt as HQ. pose proof PI_up as U. pose proof PI_dn as Dn. unfold pi_up, pi_dn in *.
  set (S := sin _) in *. set (C := cos _) in *. set (q := sqrt _) in *.
  match type of HQ with ?l <= _ <= ?u => assert (I1 : / (2 * q) <= / (2 * l)) by (apply Rinv_le_contravar; lra); assert (I2 : / (2 * u) <= / (2 * q)) by (apply Rinv_le_contravar; lra) end.
  match type of HS with ?l <= _ <= ?u =>
    assert (M1 : 31415926535897 / 10000000000000 * l <= PI * S) by (apply Rmult_le_compat; lra);
    assert (M2 : PI * S <= 31415926535898 / 10000000000000 * u) by (apply Rmult_le_compat; lra) end.
  lra.
Qed.
Lemma w3p_trig : (78825955864 / 1000000000000 <= sin (0.025117138 * PI) <= 78825955869 / 1000000000000) /\ (996888393290 / 1000000000000 <= cos (0.025117138 * PI) <= 996888393295 / 1000000000000).
Proof.
  pose proof pi_low. split; split.
  - apply sin_dn; [lra|]. apply (ge_s_ok _ 789078162199986902786 10000000000000000000000); [unfold pi_dn; lra|vm_compute; reflexivity].
  - apply sin_up; [lra|unfold pi_up; lra|]. apply (le_s_ok _ 789078162200012019924 10000000000000000000000); [unfold pi_up; lra|vm_compute; reflexivity].
  - apply cos_low; [lra|unfold pi_up; lra|]. apply (ge_c_ok _ 789078162200012019924 10000000000000000000000); [unfold pi_up; lra|vm_compute; reflexivity].
  - apply cos_up; [lra|]. apply (le_c_ok _ 789078162199986902786 10000000000000000000000); [unfold pi_dn; lra|vm_compute; reflexivity].
Qed.
Lemma w3p_sqrt : 807781971695 / 1000000000000 <= sqrt 0.6525117138 <= 807781971700 / 1000000000000.
Proof. split; [apply sqrt_ge|apply sqrt_le]; lra. Qed.
Lemma w3p_slope : 0 < dpsi 0.6525117138 <= 1 / 100000.
Proof.
  assert (E : 0.6525117138 = (2 * INR 3 + 1 / 2 + 0.025117138) / 10) by (simpl; lra).
  rewrite E, dpsi_small, <- E. replace (2 * INR 3 + 1 / 2 + 0.025117138) with (10 * 0.6525117138) by (simpl; lra).
  destruct w3p_trig as [HS HC]. pose proof w3p_sqrt as HQ. pose proof PI_up as U. pose proof PI_dn as Dn. unfold pi_up, pi_dn in *.
  set (S := sin _) in *. set (C := cos _) in *. set (q := sqrt _) in *.
  match type of HQ with ?l <= _ <= ?u => assert (I1 : / (2 * q) <= / (2 * l)) by (apply Rinv_le_contravar; lra); assert (I2 : / (2 * u) <= / (2 * q)) by (apply Rinv_le_contravar; lra) end.
  match type of HS with ?l <= _ <= ?u =>
    assert (M1 : 31415926535897 / 10000000000000 * l <= PI * S) by (apply Rmult_le_compat; lra);
    assert (M2 : PI * S <= 31415926535898 / 10000000000000 * u) by (apply Rmult_le_compat; lra) end.
  lra.
Qed.
Lemma lowest3 : lowest 3 0.6525117038.
Proof.
  assert (E1 : 0.6525117038 - dd = 0.6525116938) by (unfold dd; lra). assert (E2 : 0.6525117038 + dd = 0.6525117138) by (unfold dd; lra).
  constructor; rewrite ?E1, ?E2; [simpl; lra|simpl; lra|apply w3m_slope|apply w3p_slope].
Qed.
Lemma v3_trig : (78825642682 / 1000000000000 <= sin (0.025117038 * PI) <= 78825642687 / 1000000000000) /\ (996888418054 / 1000000000000 <= cos (0.025117038 * PI) <= 996888418059 / 1000000000000).
Proof.
  pose proof pi_low. split; split.
  - apply sin_dn; [lra|]. apply (ge_s_ok _ 789075020607333313086 10000000000000000000000); [unfold pi_dn; lra|vm_compute; reflexivity].
  - apply sin_up; [lra|unfold pi_up; lra|]. apply (le_s_ok _ 789075020607358430124 10000000000000000000000); [unfold pi_up; lra|vm_compute; reflexivity].
  - apply cos_low; [lra|unfold pi_up; lra|]. apply (ge_c_ok _ 789075020607358430124 10000000000000000000000); [unfold pi_up; lra|vm_compute; reflexivity].
  - apply cos_up; [lra|]. apply (le_c_ok _ 789075020607333313086 10000000000000000000000); [unfold pi_dn; lra|vm_compute; reflexivity].
Qed.
Lemma v3_sqrt : 807781965506 / 1000000000000 <= sqrt 0.6525117038 <= 807781965511 / 1000000000000.
Proof. split; [apply sqrt_ge|apply sqrt_le]; lra. Qed.
Lemma val3 : -0.46 < psi 0.6525117038 < -0.44.
Proof.
  assert (E : 0.6525117038 = (2 * INR 3 + 1 / 2 + 0.025117038) / 10) by (simpl; lra). rewrite E, psi_hi, <- E.
  destruct v3_trig as [_ HC]. pose proof v3_sqrt. set (C := cos _) in *. lra.
Qed.
Lemma w4m_trig : (57549037129 / 1000000000000 <= sin (0.018328554 * PI) <= 57549037134 / 1000000000000) /\ (998342680807 / 1000000000000 <= cos (0.018328554 * PI) <= 998342680812 / 1000000000000).
Proof.
  pose proof pi_low. split; split.
  - apply sin_dn; [lra|]. apply (ge_s_ok _ 575808505973221102938 10000000000000000000000); [unfold pi_dn; lra|vm_compute; reflexivity].
  - apply sin_up; [lra|unfold pi_up; lra|]. apply (le_s_ok _ 575808505973239431492 10000000000000000000000); [unfold pi_up; lra|vm_compute; reflexivity].
  - apply cos_low; [lra|unfold pi_up; lra|]. apply (ge_c_ok _ 575808505973239431492 10000000000000000000000); [unfold pi_up; lra|vm_compute; reflexivity].
  - apply cos_up; [lra|]. apply (le_c_ok _ 575808505973221102938 10000000000000000000000); [unfold pi_dn; lra|vm_compute; reflexivity].
Qed.
Lemma w4m_sqrt : 922947915863 / 1000000000000 <= sqrt 0.8518328554 <= 922947915868 / 1000000000000.
Proof. split; [apply sqrt_ge|apply sqrt_le]; lra. Qed.
Lemma w4m_slope : - (1 / 100000) <= dpsi 0.8518328554 < 0.
Proof.
  assert (E : 0.8518328554 = (2 * INR 4 + 1 / 2 + 0.018328554) / 10) by (simpl; lra).
  rewrite E, dpsi_small, <- E. replace (2 * INR 4 + 1 / 2 + 0.018328554) with (10 * 0.8518328554) by (simpl; lra).
  destruct w4m_trig as [HS HC]. pose proof w4m_sqrt as HQ. pose proof PI_up as U. pose proof PI_dn as Dn. unfold pi_up, pi_dn in *.
  set (S := sin _) in *. set (C := cos _) in *. set (q := sqrt _) in *.
  match type of HQ with ?l <= _ <= ?u => assert (I1 : / (2 * q) <= / (2 * l)) by (apply Rinv_le_contravar; lra); assert (I2 : / (2 * u) <= / (2 * q)) by (apply Rinv_le_contravar; lra) end.
  match type of HS with ?l <= _ <= ?u =>
    assert (M1 : 31415926535897 / 10000000000000 * l <= PI * S) by (apply Rmult_le_compat; lra);
    assert (M2 : PI * S <= 31415926535898 / 10000000000000 * u) by (apply Rmult_le_compat; lra) end.
  lra.
Qed.
Lemma w4p_trig : (57549664406 / 1000000000000 <= sin (0.018328754 * PI) <= 57549664411 / 1000000000000) /\ (998342644647 / 1000000000000 <= cos (0.018328754 * PI) <= 998342644652 / 1000000000000).
Proof.
  pose proof pi_low. split; split.
  - apply sin_dn; [lra|]. apply (ge_s_ok _ 575814789158528282338 10000000000000000000000); [unfold pi_dn; lra|vm_compute; reflexivity].
  - apply sin_up; [lra|unfold pi_up; lra|]. apply (le_s_ok _ 575814789158546611092 10000000000000000000000); [unfold pi_up; lra|vm_compute; reflexivity].
  - apply cos_low; [lra|unfold pi_up; lra|]. apply (ge_c_ok _ 575814789158546611092 10000000000000000000000); [unfold pi_up; lra|vm_compute; reflexivity].
  - apply cos_up; [lra|]. apply (le_c_ok _ 575814789158528282338 10000000000000000000000); [unfold pi_dn; lra|vm_compute; reflexivity].
Qed.
Lemma w4p_sqrt : 922947926698 / 1000000000000 <= sqrt 0.8518328754 <= 922947926703 / 1000000000000.
Proof. split; [apply sqrt_ge|apply sqrt_le]; lra. Qed.
Lemma w4p_slope : 0 < dpsi 0.8518328754 <= 1 / 100000.
Proof.
  assert (E : 0.8518328754 = (2 * INR 4 + 1 / 2 + 0.018328754) / 10) by (simpl; lra).
  rewrite E, dpsi_small, <- E. replace (2 * INR 4 + 1 / 2 + 0.018328754) with (10 * 0.8518328754) by (simpl; lra).
  destruct w4p_trig as [HS HC]. pose proof w4p_sqrt as HQ. pose proof PI_up as U. pose proof PI_dn as Dn. unfold pi_up, pi_dn in *.
  set (S := sin _) in *. set (C := cos _) in *. set (q := sqrt _) in *.
  match type of HQ with ?l <= _ <= ?u => assert (I1 : / (2 * q) <= / (2 * l)) by (apply Rinv_le_contravar; lra); assert (I2 : / (2 * u) <= / (2 * q)) by (apply Rinv_le_contravar; lra) end.
  match type of HS with ?l <= _ <= ?u =>
    assert (M1 : 31415926535897 / 10000000000000 * l <= PI * S) by (apply Rmult_le_compat; lra);
    assert (M2 : PI * S <= 31415926535898 / 10000000000000 * u) by (apply Rmult_le_compat; lra) end.
  lra.
Qed.
Lemma lowest4 : lowest 4 0.8518328654.
Proof.
  assert (E1 : 0.8518328654 - dd = 0.8518328554) by (unfold dd; lra). assert (E2 : 0.8518328654 + dd = 0.8518328754) by (unfold dd; lra).
  constructor; rewrite ?E1, ?E2; [simpl; lra|simpl; lra|apply w4m_slope|apply w4p_slope].
Qed.
Lemma v4_trig : (57549350768 / 1000000000000 <= sin (0.018328654 * PI) <= 57549350773 / 1000000000000) /\ (998342662727 / 1000000000000 <= cos (0.018328654 * PI) <= 998342662732 / 1000000000000).
Proof.
  pose proof pi_low. split; split.
  - apply sin_dn; [lra|]. apply (ge_s_ok _ 575811647565874692638 10000000000000000000000); [unfold pi_dn; lra|vm_compute; reflexivity].
  - apply sin_up; [lra|unfold pi_up; lra|]. apply (le_s_ok _ 575811647565893021292 10000000000000000000000); [unfold pi_up; lra|vm_compute; reflexivity].
  - apply cos_low; [lra|unfold pi_up; lra|]. apply (ge_c_ok _ 575811647565893021292 10000000000000000000000); [unfold pi_up; lra|vm_compute; reflexivity].
  - apply cos_up; [lra|]. apply (le_c_ok _ 575811647565874692638 10000000000000000000000); [unfold pi_dn; lra|vm_compute; reflexivity].
Qed.
Lemma v4_sqrt : 922947921280 / 1000000000000 <= sqrt 0.8518328654 <= 922947921285 / 1000000000000.
Proof. split; [apply sqrt_ge|apply sqrt_le]; lra. Qed.
Lemma val4 : -0.78 < psi 0.8518328654 < -0.76.
Proof.
  assert (E : 0.8518328654 = (2 * INR 4 + 1 / 2 + 0.018328654) / 10) by (simpl; lra). rewrite E, psi_hi, <- E.
  destruct v4_trig as [_ HC]. pose proof v4_sqrt. set (C := cos _) in *. lra.
Qed.
Lemma drop2 : psi 0.4093136848 < psi 0.2577623634 - 1 / 100000000.
Proof.
  assert (E1 : 0.2577623634 = (2 * INR 1 + 1 / 2 + 0.077623634) / 10) by (simpl; lra).
  assert (E2 : 0.4093136848 = (2 * INR 2 + 0.093136848) / 10) by (simpl; lra).
  assert (S : 288440810722 / 1000000000000 <= sin (0.093136848 * PI)).
  { apply sin_dn; [lra|]. apply (ge_s_ok _ 2925980374553005432656 10000000000000000000000); [unfold pi_dn; lra|vm_compute; reflexivity]. }
  assert (Q : 639776277144 / 1000000000000 <= sqrt 0.4093136848) by (apply sqrt_ge; lra).
  destruct v1_trig as [_ HC]. pose proof v1_sqrt.
  rewrite E1, E2, psi_hi, psi_lo, <- E1, <- E2. set (C := cos _) in *. set (S1 := sin _) in *. lra.
Qed.
Lemma drop3 : psi 0.6183968044 < psi 0.4538821041 - 1 / 100000000.
Proof.
  assert (E1 : 0.4538821041 = (2 * INR 2 + 1 / 2 + 0.038821041) / 10) by (simpl; lra).
  assert (E2 : 0.6183968044 = (2 * INR 3 + 0.183968044) / 10) by (simpl; lra).
  assert (S : 546310262248 / 1000000000000 <= sin (0.183968044 * PI)).
  { apply sin_dn; [lra|]. apply (ge_s_ok _ 5779526555256666875468 10000000000000000000000); [unfold pi_dn; lra|vm_compute; reflexivity]. }
  assert (Q : 786382098217 / 1000000000000 <= sqrt 0.6183968044) by (apply sqrt_ge; lra).
  destruct v2_trig as [_ HC]. pose proof v2_sqrt.
  rewrite E1, E2, psi_hi, psi_lo, <- E1, <- E2. set (C := cos _) in *. set (S1 := sin _) in *. lra.
Qed.
Lemma drop4 : psi 0.8233318083 < psi 0.6525117038 - 1 / 100000000.
Proof.
  assert (E1 : 0.6525117038 = (2 * INR 3 + 1 / 2 + 0.025117038) / 10) by (simpl; lra).
  assert (E2 : 0.8233318083 = (2 * INR 4 + 0.233318083) / 10) by (simpl; lra).
  assert (S : 669095001271 / 1000000000000 <= sin (0.233318083 * PI)).
  { apply sin_dn; [lra|]. apply (ge_s_ok _ 7329903755024318725451 10000000000000000000000); [unfold pi_dn; lra|vm_compute; reflexivity]. }
  assert (Q : 907376332232 / 1000000000000 <= sqrt 0.8233318083) by (apply sqrt_ge; lra).
  destruct v3_trig as [_ HC]. pose proof v3_sqrt.
  rewrite E1, E2, psi_hi, psi_lo, <- E1, <- E2. set (C := cos _) in *. set (S1 := sin _) in *. lra.
Qed.
Lemma before2 : psi hh < psi 0.18222872.
Proof.
  assert (E : psi 0.18222872 = 1 - sqrt 0.18222872 + 0.18222872 * sin (0.1777128 * PI)).
  { unfold psi. replace (10 * PI * 0.18222872) with (- (0.1777128 * PI) + 2 * INR 1 * PI) by (simpl; lra). rewrite sin_period, sin_neg. lra. }
  assert (S : 529746137987 / 1000000000000 <= sin (0.1777128 * PI)).
  { apply sin_dn; [lra|]. apply (ge_s_ok _ 55830122692885563816 100000000000000000000); [unfold pi_dn; lra|vm_compute; reflexivity]. }
  assert (Q : sqrt 0.18222872 <= 426882559965 / 1000000000000) by (apply sqrt_le; lra).
  rewrite E, psi_h. pose proof sin_h_bounds. pose proof sqrt_h_bounds. set (S1 := sin (0.1777128 * PI)) in *. unfold hh in *. lra.
Qed.
