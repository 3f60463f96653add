(** Proofs about the analytical pieces. *)
From Coq Require Import Reals Lra Lia ZArith.
From Coquelicot Require Import Coquelicot.
From Coq Require Import List.
From Verif Require Import Exn ExModel CompModel ExProof.
Import ListNotations.
Open Scope R_scope.

(** exponent times logarithm *)
Definition ge (s : R) : R := (1 + 10 * (s - s ^ 2)) * ln s.

Lemma exp_double x b : 0 <= b -> b <= exp x -> b * b <= exp (2 * x).
Proof. intros Hb H. replace (2 * x) with (x + x) by ring. rewrite exp_plus. apply Rmult_le_compat; auto. Qed.
Lemma exp_step x b c : b <= exp x -> 0 <= b /\ c <= b * b -> c <= exp (2 * x).
Proof. intros H [Hb Hc]. pose proof (exp_double x b Hb H). lra. Qed.
Lemma exp_52 : 1000 / 85 <= exp (5 / 2).
Proof.
  assert (H0 : 1019531 / 1000000 <= exp (5 / 256)) by (pose proof (exp_ineq1_le (5 / 256)); lra).
  assert (H1 : 1039443 / 1000000 <= exp (2 * (5 / 256))) by (apply (exp_step _ _ _ H0); split; lra).
  assert (H2 : 1080441 / 1000000 <= exp (2 * (2 * (5 / 256)))) by (apply (exp_step _ _ _ H1); split; lra).
  assert (H3 : 1167352 / 1000000 <= exp (2 * (2 * (2 * (5 / 256))))) by (apply (exp_step _ _ _ H2); split; lra).
  assert (H4 : 1362710 / 1000000 <= exp (2 * (2 * (2 * (2 * (5 / 256)))))) by (apply (exp_step _ _ _ H3); split; lra).
  assert (H5 : 1856978 / 1000000 <= exp (2 * (2 * (2 * (2 * (2 * (5 / 256))))))) by (apply (exp_step _ _ _ H4); split; lra).
  assert (H6 : 3448367 / 1000000 <= exp (2 * (2 * (2 * (2 * (2 * (2 * (5 / 256)))))))) by (apply (exp_step _ _ _ H5); split; lra).
  assert (H7 : 1189123 / 100000 <= exp (2 * (2 * (2 * (2 * (2 * (2 * (2 * (5 / 256))))))))) by (apply (exp_step _ _ _ H6); split; lra).
  replace (2 * (2 * (2 * (2 * (2 * (2 * (2 * (5 / 256)))))))) with (5 / 2) in H7 by field. lra.
Qed.
Lemma ln_up y : 0 < y -> ln y <= y - 1.
Proof.
  intros Hy. destruct (Req_dec y 1) as [->|Hn]; [rewrite ln_1; lra|].
  rewrite <- (ln_exp (y - 1)). apply Rlt_le, ln_increasing; auto. pose proof (exp_ineq1 (y - 1)) as HH. assert (y - 1 <> 0) by lra. specialize (HH H). lra.
Qed.
Lemma ln_low s : 0 < s -> - 5 / 2 + 1 - 85 / 1000 / s <= ln s.
Proof.
  intros Hs. assert (E : ln s = ln (85 / 1000) - ln (85 / 1000 / s)).
  { rewrite (ln_div (85 / 1000) s) by lra. ring. }
  assert (H1 : - 5 / 2 <= ln (85 / 1000)).
  { replace (85 / 1000) with (/ (1000 / 85)) by field. rewrite ln_Rinv by lra.
    assert (ln (1000 / 85) <= 5 / 2); [|lra]. rewrite <- (ln_exp (5 / 2)). destruct (Rle_lt_or_eq_dec _ _ exp_52) as [L|E2].
    - apply Rlt_le, ln_increasing; lra.
    - rewrite E2. lra. }
  assert (H2 := ln_up (85 / 1000 / s) ltac:(apply Rdiv_lt_0_compat; lra)). lra.
Qed.
Definition dge (s : R) : R := 10 * (1 - 2 * s) * ln s + (1 + 10 * (s - s ^ 2)) / s.
Lemma ge_derive s : 0 < s -> is_derive ge s (dge s).
Proof. intros Hs. unfold ge, dge. auto_derive; [lra|]. field. lra. Qed.
Lemma dge_pos s : 0 < s < 1 -> 0 < dge s.
Proof.
  intros [Hs H1]. unfold dge. destruct (Rle_dec s (1 / 2)) as [Hh|Hh].
  - assert (L := ln_low s Hs).
    assert (M : 10 * (1 - 2 * s) * (- 5 / 2 + 1 - 85 / 1000 / s) <= 10 * (1 - 2 * s) * ln s) by (apply Rmult_le_compat_l; lra).
    apply Rlt_le_trans with (10 * (1 - 2 * s) * (- 5 / 2 + 1 - 85 / 1000 / s) + (1 + 10 * (s - s ^ 2)) / s); [|lra].
    replace (10 * (1 - 2 * s) * (- 5 / 2 + 1 - 85 / 1000 / s) + (1 + 10 * (s - s ^ 2)) / s)
      with ((15 / 100 - 33 / 10 * s + 20 * s ^ 2) / s) by (field; lra).
    apply Rdiv_lt_0_compat; auto. assert (Q := pow2_ge_0 (s - 33 / 400)). nra.
  - assert (Hl : ln s < 0) by (rewrite <- ln_1; apply ln_increasing; lra).
    assert (A : 0 <= 10 * (1 - 2 * s) * ln s) by nra.
    assert (B : 0 < (1 + 10 * (s - s ^ 2)) / s) by (apply Rdiv_lt_0_compat; [nra|lra]). lra.
Qed.
Lemma ge_incr s u : 0 < s -> s < u -> u < 1 -> ge s < ge u.
Proof.
  intros Hs Hsu Hu. destruct (MVT_cor2 ge dge s u Hsu) as (c & E & Hc).
  - intros c Hc. apply is_derive_Reals, ge_derive. lra.
  - assert (D := dge_pos c ltac:(lra)). assert (0 < dge c * (u - s)) by (apply Rmult_lt_0_compat; lra). lra.
Qed.
Definition sc (t : R) : R := t * (9 / 10) + 5 / 100.
Lemma flat_eq t : flat_convex t = [exp (ge (sc t)); exp (ge (1 - sc t))].
Proof.
  unfold flat_convex, Rpower, ge. fold (sc t). f_equal. f_equal. f_equal. f_equal. ring.
Qed.

(** the end of the first piece against the beginning of the second *)
Lemma pow_div a b n : b <> 0 -> (a / b) ^ n = a ^ n / b ^ n.
Proof. intros Hb. unfold Rdiv. rewrite Rpow_mult_distr, pow_inv. reflexivity. Qed.
Lemma frac_lt a b c d : (0 < b)%Z -> (0 < d)%Z -> (a * d < c * b)%Z -> IZR a / IZR b < IZR c / IZR d.
Proof.
  intros Hb Hd H. apply IZR_lt in Hb, Hd, H. rewrite !mult_IZR in H.
  apply (Rmult_lt_reg_r (IZR b * IZR d)); [apply Rmult_lt_0_compat; auto|].
  replace (IZR a / IZR b * (IZR b * IZR d)) with (IZR a * IZR d) by (field; lra).
  replace (IZR c / IZR d * (IZR b * IZR d)) with (IZR c * IZR b) by (field; lra). auto.
Qed.
Lemma end_pow : exp (ge (95 / 100)) ^ 40 = (95 / 100) ^ 59.
Proof.
  rewrite <- (Rpower_pow 40) by apply exp_pos. rewrite <- (Rpower_pow 59) by lra. unfold Rpower. rewrite ln_exp. f_equal. unfold ge.
  replace (INR 40) with 40 by (simpl; lra). replace (INR 59) with 59 by (simpl; lra). field.
Qed.
Lemma pow_lt_inv a b n : 0 <= b -> a ^ n < b ^ n -> a < b.
Proof.
  intros Hb H. destruct (Rlt_dec a b) as [L|N]; auto. exfalso. apply Rnot_lt_le in N. pose proof (pow_incr b a n ltac:(lra)). lra.
Qed.
Lemma end_above : 92713359 / 100000000 < exp (ge (95 / 100)).
Proof.
  apply (pow_lt_inv _ _ 40); [apply Rlt_le, exp_pos|]. rewrite end_pow, !pow_div by lra. rewrite !pow_IZR. apply frac_lt; vm_compute; reflexivity.
Qed.
Lemma end_below : exp (ge (95 / 100)) < 927133595 / 1000000000.
Proof.
  apply (pow_lt_inv _ _ 40); [lra|]. rewrite end_pow, !pow_div by lra. rewrite !pow_IZR. apply frac_lt; vm_compute; reflexivity.
Qed.
(** already before the end *)
Lemma near_end : exists s, 5 / 100 < s < 95 / 100 /\ 92713359 / 100000000 < exp (ge s).
Proof.
  assert (C : continuity_pt (fun s => exp (ge s)) (95 / 100)).
  { apply (continuity_pt_comp ge exp); [|apply derivable_continuous_pt, derivable_pt_exp].
    apply derivable_continuous_pt. exists (dge (95 / 100)). apply is_derive_Reals, ge_derive. lra. }
  assert (He : 0 < exp (ge (95 / 100)) - 92713359 / 100000000) by (pose proof end_above; lra).
  destruct (C _ He) as (al & Hal & Hc).
  exists (95 / 100 - Rmin (al / 2) (1 / 2)). assert (M1 := Rmin_l (al / 2) (1 / 2)). assert (M2 := Rmin_r (al / 2) (1 / 2)).
  assert (M3 : 0 < Rmin (al / 2) (1 / 2)) by (apply Rmin_glb_lt; lra).
  split; [lra|]. specialize (Hc (95 / 100 - Rmin (al / 2) (1 / 2))). unfold dist, R_met, Base, R_dist in Hc. simpl in Hc. unfold R_dist in Hc.
  assert (Hd : Rabs (exp (ge (95 / 100 - Rmin (al / 2) (1 / 2))) - exp (ge (95 / 100))) < exp (ge (95 / 100)) - 92713359 / 100000000).
  { apply Hc. split; [split; [exact I|lra]|]. replace (95 / 100 - Rmin (al / 2) (1 / 2) - 95 / 100) with (- Rmin (al / 2) (1 / 2)) by ring.
    rewrite Rabs_Ropp, Rabs_pos_eq; lra. }
  apply Rabs_def2 in Hd. lra.
Qed.
