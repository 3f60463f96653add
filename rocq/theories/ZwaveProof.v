(** The optimal first objectives of ZDT3, up to [dd]. *)
From Coq Require Import Reals Lra Lia.
From Coq Require Import List Arith Bool.
From Verif Require Import BenchModel BenchSpec BenchBase BenchZDT ZregModel ZregProof ZregMin ZwaveBase ZwaveNum.
Import ListNotations.
Open Scope R_scope.

Definition h1 : R := 0.2577623634.
Definition h2 : R := 0.4538821041.
Definition h3 : R := 0.6525117038.
Definition h4 : R := 0.8518328654.
Lemma lw0 : lowest 0 hh. Proof. exact lowest0. Qed.
Lemma lw1 : lowest 1 h1. Proof. exact lowest1. Qed.
Lemma lw2 : lowest 2 h2. Proof. exact lowest2. Qed.
Lemma lw3 : lowest 3 h3. Proof. exact lowest3. Qed.
Lemma lw4 : lowest 4 h4. Proof. exact lowest4. Qed.
Lemma vl0 : 0.65 < psi hh < 0.67. Proof. exact val0. Qed.
Lemma vl1 : 0.23 < psi h1 < 0.25. Proof. exact val1. Qed.
Lemma vl2 : -0.13 < psi h2 < -0.11. Proof. exact val2. Qed.
Lemma vl3 : -0.46 < psi h3 < -0.44. Proof. exact val3. Qed.
Lemma vl4 : -0.78 < psi h4 < -0.76. Proof. exact val4. Qed.
Lemma dd_pos : 0 < dd < 0.0001. Proof. unfold dd. lra. Qed.
Lemma eps_pos : 0 < eps < 0.01. Proof. unfold eps. lra. Qed.
Definition tiny : R := 1 / 1000000000000.

(** the last quarter of the first wave falls *)
Lemma q4_neg c : 0.15 <= c <= 0.2 -> dpsi c < 0.
Proof.
  intros Hc. pose proof PI_RGT_0 as HP. unfold dpsi. rewrite (wave_sin 1 c), (wave_cos 1 c). replace (c - INR 1 / 5) with (c - 0.2) by (simpl; lra).
  assert (A1 : - (PI / 2) <= 10 * PI * (c - 0.2)) by nra. assert (A2 : 10 * PI * (c - 0.2) <= 0) by nra.
  assert (C : 0 <= cos (10 * PI * (c - 0.2))) by (apply cos_ge_0; lra). pose proof (SIN_bound (10 * PI * (c - 0.2))) as S.
  assert (M : 0 <= 10 * PI * c * cos (10 * PI * (c - 0.2))) by (apply Rmult_le_pos; [|auto]; nra).
  assert (Q : sqrt c <= 0.45) by (apply sqrt_le; lra). assert (Q0 : 0 < sqrt c) by (apply sqrt_lt_R0; lra).
  assert (I : / 0.9 <= / (2 * sqrt c)) by (apply Rinv_le_contravar; lra). lra.
Qed.
Lemma fall2 a b : 0.15 <= a -> a < b -> b <= h1 - dd -> psi b < psi a.
Proof.
  intros Ha Hab Hb. pose proof lw1 as [L1 L2 L3 L4]. pose proof dd_pos. simpl INR in L1, L2. apply falls; [lra|auto|]. intros c Hc.
  destruct (Rle_dec c 0.2) as [L|N]; [apply q4_neg; lra|]. destruct (Rle_dec c 0.25) as [L'|N']; [apply (q1_neg 1); simpl; lra|].
  assert (dpsi c <= dpsi (h1 - dd)) by (apply (q2_incr 1); simpl; lra). lra.
Qed.
(** very small arguments *)
Lemma phi_small s : 0 <= s -> s < eps -> 0.9 <= zdt3_phi s.
Proof.
  intros Hs He. pose proof eps_pos. pose proof (SIN_bound (10 * PI * s)). unfold zdt3_phi. rewrite Rmax_right by lra.
  assert (sqrt eps <= 0.05) by (apply sqrt_le; unfold eps; lra). set (S := sin _) in *. nra.
Qed.
Lemma phi_tiny s t : 0 <= s < t -> t <= eps -> zdt3_phi t < zdt3_phi s.
Proof.
  intros Hs He. pose proof eps_pos. pose proof PI_RGT_0. pose proof PI_4. unfold zdt3_phi. rewrite !Rmax_right by lra.
  assert (A1 : 0 <= 10 * PI * s) by nra. assert (A2 : 10 * PI * s < 10 * PI * t) by nra. assert (A3 : 10 * PI * t <= PI / 2) by nra.
  assert (S : sin (10 * PI * s) < sin (10 * PI * t)) by (apply sin_increasing_1; lra).
  assert (S0 : 0 <= sin (10 * PI * s)) by (apply sin_ge_0; lra). set (a := sin _) in *. set (b := sin _) in *. nra.
Qed.

(** below the first 0.15 *)
Lemma low0 s : 0 <= s <= 0.15 -> psi hh - tiny <= zdt3_phi s.
Proof.
  intros Hs. pose proof eps_pos. pose proof vl0. unfold tiny. destruct (Rlt_dec s eps) as [L|N]; [pose proof (phi_small s ltac:(lra) L); lra|].
  rewrite phi_psi by lra. destruct (Rle_dec s 0.1) as [A|A].
  - apply (wave_above 0 hh s lw0); simpl; lra.
  - pose proof (psi_gap s ltac:(lra)). lra.
Qed.
Lemma low1 s : 0 <= s <= 0.4 -> psi h1 - tiny <= zdt3_phi s.
Proof.
  intros Hs. pose proof eps_pos. pose proof vl0. pose proof vl1. pose proof dd_pos. pose proof lw1 as [L1 L2 _ _]. simpl INR in L1, L2.
  destruct (Rle_dec s 0.15) as [A|A]; [pose proof (low0 s ltac:(lra)); unfold tiny in *; lra|]. rewrite phi_psi by lra. unfold tiny.
  destruct (Rle_dec s 0.2) as [B|B]; [|destruct (Rle_dec s 0.3) as [C|C]].
  - pose proof (fall2 s (h1 - dd) ltac:(lra) ltac:(lra) ltac:(lra)). pose proof (wave_near 1 h1 (h1 - dd) lw1 ltac:(lra)). lra.
  - apply (wave_above 1 h1 s lw1); simpl; lra.
  - pose proof (half_low 1 s ltac:(simpl; lra)). assert (sqrt s <= 0.65) by (apply sqrt_le; lra). lra.
Qed.
Lemma low_step k h M : (0 < k)%nat -> lowest k h -> (forall s, 0 <= s <= INR k / 5 -> M <= zdt3_phi s) -> psi h <= M -> (INR k + 1) / 5 <= 1 -> psi h <= 0 ->
  forall s, 0 <= s <= (INR k + 1) / 5 -> psi h - tiny <= zdt3_phi s.
Proof.
  intros K L Hm H1 H2 H3 s Hs. pose proof eps_pos. assert (HK : 1 <= INR k) by (apply (le_INR 1); lia). unfold tiny.
  destruct (Rle_dec s (INR k / 5)) as [A|A]; [specialize (Hm s ltac:(lra)); lra|]. rewrite phi_psi by lra.
  destruct (Rle_dec (s - INR k / 5) 0.1) as [B|B].
  - apply (wave_above k h s L); lra.
  - pose proof (half_low k s ltac:(lra)). assert (sqrt s <= 1) by (apply sqrt_le; lra). lra.
Qed.
Lemma good_step k h lo M : (0 < k)%nat -> lowest k h -> (forall s, 0 <= s <= INR k / 5 -> M <= zdt3_phi s) -> INR k / 5 < lo -> psi lo < M ->
  forall t, lo <= t <= h - dd -> forall s, 0 <= s < t -> zdt3_phi t < zdt3_phi s.
Proof.
  intros K L Hm H1 H2 t Ht s Hs. pose proof eps_pos. assert (HK : 1 <= INR k) by (apply (le_INR 1); lia). rewrite (phi_psi t) by lra.
  destruct (Rle_dec s (INR k / 5)) as [A|A].
  - specialize (Hm s ltac:(lra)). destruct (Req_dec t lo) as [->|N]; [lra|].
    pose proof (wave_fall k h lo t L ltac:(lra) ltac:(lra) ltac:(lra) ltac:(lra)). lra.
  - rewrite phi_psi by lra. apply (wave_fall k h s t L); lra.
Qed.
Lemma low2 s : 0 <= s <= 0.6 -> psi h2 - tiny <= zdt3_phi s.
Proof.
  intros Hs. pose proof vl1. pose proof vl2. apply (low_step 2 h2 (psi h1 - tiny)); [lia|exact lw2| |unfold tiny; lra|simpl; lra|lra|simpl; lra].
  intros r Hr. apply low1. simpl in Hr. lra.
Qed.
Lemma low3 s : 0 <= s <= 0.8 -> psi h3 - tiny <= zdt3_phi s.
Proof.
  intros Hs. pose proof vl2. pose proof vl3. apply (low_step 3 h3 (psi h2 - tiny)); [lia|exact lw3| |unfold tiny; lra|simpl; lra|lra|simpl; lra].
  intros r Hr. apply low2. simpl in Hr. lra.
Qed.

(** the five regions *)
Definition inner : list (R * R) := [(0, hh - dd); (0.18222875, h1 - dd); (0.4093136748 + dd, h2 - dd); (0.6183967944 + dd, h3 - dd); (0.8233317983 + dd, h4 - dd)].
Lemma good0 t : 0 <= t <= hh - dd -> forall s, 0 <= s < t -> zdt3_phi t < zdt3_phi s.
Proof.
  intros Ht s Hs. pose proof eps_pos. destruct (Rle_dec t eps) as [A|A]; [apply phi_tiny; auto|].
  destruct (Rlt_dec s eps) as [B|B].
  - assert (zdt3_phi eps < zdt3_phi s) by (apply phi_tiny; lra). rewrite (phi_psi eps) in H0 by lra. rewrite (phi_psi t) by lra.
    pose proof (wave_fall 0 hh eps t lw0 ltac:(lra) ltac:(simpl; lra) ltac:(lra) ltac:(lra)). lra.
  - rewrite !phi_psi by lra. apply (wave_fall 0 hh s t lw0); simpl; lra.
Qed.
Lemma good1 t : 0.18222875 <= t <= h1 - dd -> forall s, 0 <= s < t -> zdt3_phi t < zdt3_phi s.
Proof.
  intros Ht s Hs. pose proof eps_pos. rewrite (phi_psi t) by lra. destruct (Rle_dec s 0.15) as [A|A].
  - pose proof (low0 s ltac:(lra)) as B. pose proof psi_t_h as C. unfold tt0, tiny in *. destruct (Req_dec t 0.18222875) as [->|N]; [lra|].
    pose proof (fall2 0.18222875 t ltac:(lra) ltac:(lra) ltac:(lra)). lra.
  - rewrite phi_psi by lra. apply fall2; lra.
Qed.
Lemma inner_good lo hi t : In (lo, hi) inner -> lo <= t <= hi -> zdt3_dom t.
Proof.
  intros Hin Ht. unfold zdt3_dom. unfold inner in Hin.
  destruct Hin as [E|[E|[E|[E|[E|[]]]]]]; injection E as <- <-; (split; [unfold dd, hh, h1, h2, h3, h4 in *; lra|]).
  - apply good0; auto.
  - apply good1; auto.
  - apply (good_step 2 h2 (0.4093136748 + dd) (psi h1 - tiny)); [lia|exact lw2|intros r Hr; apply low1; simpl in Hr; lra|unfold dd; simpl; lra| |auto].
    pose proof drop2 as D. replace (0.4093136748 + dd) with 0.4093136848 by (unfold dd; lra). unfold tiny, h1 in *. lra.
  - apply (good_step 3 h3 (0.6183967944 + dd) (psi h2 - tiny)); [lia|exact lw3|intros r Hr; apply low2; simpl in Hr; lra|unfold dd; simpl; lra| |auto].
    pose proof drop3 as D. replace (0.6183967944 + dd) with 0.6183968044 by (unfold dd; lra). unfold tiny, h2 in *. lra.
  - apply (good_step 4 h4 (0.8233317983 + dd) (psi h3 - tiny)); [lia|exact lw4|intros r Hr; apply low3; simpl in Hr; lra|unfold dd; simpl; lra| |auto].
    pose proof drop4 as D. replace (0.8233317983 + dd) with 0.8233318083 by (unfold dd; lra). unfold tiny, h3 in *. lra.
Qed.

(** between the regions *)
Definition outer : list (R * R) := [(0, hh + dd); (0.18222872, h1 + dd); (0.4093136748, h2 + dd); (0.6183967944, h3 + dd); (0.8233317983, h4 + dd)].
Lemma bad_step k h t : (0 < k)%nat -> lowest k h -> psi h <= 1 - sqrt ((INR k + 1) / 5) -> h + dd < t <= (INR k + 1) / 5 -> ~ zdt3_dom t.
Proof.
  intros K L H1 Ht [_ Hd]. pose proof L as [L1 L2 _ _]. pose proof dd_pos. pose proof eps_pos. assert (HK : 1 <= INR k) by (apply (le_INR 1); lia).
  destruct (Rle_dec (t - INR k / 5) 0.1) as [A|A].
  - specialize (Hd (h + dd) ltac:(lra)). rewrite !phi_psi in Hd by lra. pose proof (wave_rise k h (h + dd) t L ltac:(lra) ltac:(lra) A). lra.
  - specialize (Hd h ltac:(lra)). rewrite !phi_psi in Hd by lra. pose proof (half_low k t ltac:(lra)).
    assert (sqrt t <= sqrt ((INR k + 1) / 5)) by (apply sqrt_le_1_alt; lra). lra.
Qed.
Lemma bad_fall k h lo h' t : (0 < k)%nat -> lowest k h -> INR k / 5 <= t < lo -> lo <= h - dd -> 0.05 < h' -> h' < INR k / 5 -> psi h' < psi lo -> ~ zdt3_dom t.
Proof.
  intros K L Ht Hl H1 H2 H3 [_ Hd]. pose proof eps_pos. specialize (Hd h' ltac:(lra)). rewrite !phi_psi in Hd by lra.
  pose proof (wave_fall k h t lo L ltac:(lra) ltac:(lra) ltac:(lra) Hl). lra.
Qed.
Lemma bad0 t : hh + dd < t < 0.18222872 -> ~ zdt3_dom t.
Proof.
  intros Ht Hd0. pose proof Hd0 as [_ Hd]. pose proof dd_pos. pose proof eps_pos. assert (Hh : 0.08 < hh < 0.09) by (unfold hh; lra).
  destruct (Rle_dec t 0.1) as [A|A].
  - specialize (Hd (hh + dd) ltac:(lra)). rewrite !phi_psi in Hd by lra. pose proof (wave_rise 0 hh (hh + dd) t lw0 ltac:(lra) ltac:(lra) ltac:(simpl; lra)). lra.
  - specialize (Hd hh ltac:(lra)). rewrite !phi_psi in Hd by lra. pose proof vl0. destruct (Rle_dec t 0.15) as [B|B].
    + pose proof (psi_gap t ltac:(lra)). lra.
    + pose proof before2. pose proof (fall2 t 0.18222872 ltac:(lra) ltac:(lra) ltac:(unfold h1, dd; lra)). lra.
Qed.
Lemma outer_bad t : zdt3_dom t -> exists lo hi, In (lo, hi) outer /\ lo <= t <= hi.
Proof.
  intros Hd. pose proof Hd as [H01 _]. pose proof dd_pos. pose proof vl1. pose proof vl2. pose proof vl3. pose proof vl4.
  assert (Q4 : sqrt 0.4 <= 0.7) by (apply sqrt_le; lra). assert (Q6 : sqrt 0.6 <= 0.8) by (apply sqrt_le; lra).
  assert (Q8 : sqrt 0.8 <= 0.9) by (apply sqrt_le; lra). assert (Q1 : sqrt 1 <= 1) by (apply sqrt_le; lra).
  unfold outer. destruct (Rle_dec t (hh + dd)) as [A0|A0]; [exists 0, (hh + dd); split; [left; reflexivity|lra]|].
  destruct (Rlt_dec t 0.18222872) as [B1|B1]; [exfalso; apply (bad0 t); [lra|auto]|].
  destruct (Rle_dec t (h1 + dd)) as [A1|A1]; [exists 0.18222872, (h1 + dd); split; [right; left; reflexivity|lra]|].
  destruct (Rle_dec t 0.4) as [C1|C1].
  { exfalso. apply (bad_step 1 h1 t); [lia|exact lw1| |simpl; lra|auto]. replace ((INR 1 + 1) / 5) with 0.4 by (simpl; lra). lra. }
  destruct (Rlt_dec t 0.4093136748) as [B2|B2].
  { exfalso. apply (bad_fall 2 h2 0.4093136748 h1 t); [lia|exact lw2|simpl; lra|unfold h2, dd; lra|unfold h1; lra|unfold h1; simpl; lra|exact pair2|auto]. }
  destruct (Rle_dec t (h2 + dd)) as [A2|A2]; [exists 0.4093136748, (h2 + dd); split; [right; right; left; reflexivity|lra]|].
  destruct (Rle_dec t 0.6) as [C2|C2].
  { exfalso. apply (bad_step 2 h2 t); [lia|exact lw2| |simpl; lra|auto]. replace ((INR 2 + 1) / 5) with 0.6 by (simpl; lra). lra. }
  destruct (Rlt_dec t 0.6183967944) as [B3|B3].
  { exfalso. apply (bad_fall 3 h3 0.6183967944 h2 t); [lia|exact lw3|simpl; lra|unfold h3, dd; lra|unfold h2; lra|unfold h2; simpl; lra|exact pair3|auto]. }
  destruct (Rle_dec t (h3 + dd)) as [A3|A3]; [exists 0.6183967944, (h3 + dd); split; [right; right; right; left; reflexivity|lra]|].
  destruct (Rle_dec t 0.8) as [C3|C3].
  { exfalso. apply (bad_step 3 h3 t); [lia|exact lw3| |simpl; lra|auto]. replace ((INR 3 + 1) / 5) with 0.8 by (simpl; lra). lra. }
  destruct (Rlt_dec t 0.8233317983) as [B4|B4].
  { exfalso. apply (bad_fall 4 h4 0.8233317983 h3 t); [lia|exact lw4|simpl; lra|unfold h4, dd; lra|unfold h3; lra|unfold h3; simpl; lra|exact pair4|auto]. }
  destruct (Rle_dec t (h4 + dd)) as [A4|A4]; [exists 0.8233317983, (h4 + dd); split; [right; right; right; right; left; reflexivity|lra]|].
  exfalso. apply (bad_step 4 h4 t); [lia|exact lw4| |simpl; lra|auto]. replace ((INR 4 + 1) / 5) with 1 by (simpl; lra). lra.
Qed.
