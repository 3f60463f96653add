(** Drawing a point in a box with doubles: the rounding never leaves the box. *)
From Coq Require Import List Arith Bool Reals ZArith Lra Lia.
From Flocq Require Import Core IEEE754.BinarySingleNaN Plus_error.
From Verif Require Import Num NewtonModel StartModel StartSpec DblModel DblSpec DblRel.
Import ListNotations.
Open Scope R_scope.

#[local] Instance vfexp : Valid_exp (SpecFloat.fexp 53 1024) := fexp_correct 53 1024 dprec.
#[local] Instance mfexp : Monotone_exp (SpecFloat.fexp 53 1024) := fexp_monotone 53 1024.
Lemma rnd_le x y : x <= y -> rnd x <= rnd y.
Proof. apply round_le; apply valid_rnd_N || exact vfexp. Qed.
Lemma rnd_B2R (x : double) : rnd (B2R x) = B2R x.
Proof. apply round_generic; [apply valid_rnd_N|apply generic_format_B2R]. Qed.
Lemma rnd_0 : rnd 0 = 0.
Proof. apply round_0. apply valid_rnd_N. Qed.
Lemma rnd_le_fmt x y : fmt y -> x <= y -> rnd x <= y.
Proof. intros F H. apply round_le_generic; auto; apply vfexp || apply valid_rnd_N. Qed.

(** the rounded product stays below the exact width of the box *)
Lemma prod_width (xl xu : double) (u : R) : let e := B2R xu - B2R xl in
  0 <= e -> 0 <= u <= 1 - bpow radix2 (-53) -> rnd (u * rnd e) <= e.
Proof.
  intros e He Hu. set (d := rnd e).
  assert (Fd : fmt d) by (apply generic_format_round; apply vfexp || apply valid_rnd_N).
  assert (Hd : 0 <= d) by (unfold d; rewrite <- rnd_0; apply rnd_le; auto).
  assert (Hud : u * d <= d) by (assert (0 < bpow radix2 (-53)) by apply bpow_gt_0; nra).
  destruct (Rle_or_lt d e) as [L|L].
  { apply Rle_trans with d; auto. apply rnd_le_fmt; auto. }
  (* the width was rounded up, so it is normal *)
  assert (Dn : bpow radix2 (-1021) < d).
  { destruct (Rle_or_lt d (bpow radix2 (-1021))) as [H|H]; auto. exfalso.
    assert (X : fmt e).
    { unfold e, Rminus. change (SpecFloat.fexp 53 1024) with (FLT_exp (-1074) 53). apply FLT_format_plus_small.
      - exact dprec.
      - apply (generic_format_B2R 53 1024 xu).
      - apply generic_format_opp. apply (generic_format_B2R 53 1024 xl).
      - change (53 + -1074)%Z with (-1021)%Z. rewrite Rabs_pos_eq; unfold e, Rminus in *; lra. }
    unfold d in L. rewrite round_generic in L; [lra|apply valid_rnd_N|exact X]. }
  assert (D0 : 0 < d) by (eapply Rle_lt_trans; [apply bpow_ge_0|exact Dn]).
  assert (P : pred radix2 (SpecFloat.fexp 53 1024) d <= e) by (apply pred_round_le_id; apply vfexp || apply valid_rnd_N).
  apply Rle_trans with (2 := P).
  assert (Fp : fmt (pred radix2 (SpecFloat.fexp 53 1024) d)) by (apply generic_format_pred; auto; apply vfexp).
  assert (Mg : (-1021 <= mag radix2 d - 1)%Z).
  { apply Z.lt_succ_r. replace (Z.succ (mag radix2 d - 1)) with (mag_val radix2 d (mag radix2 d)) by lia.
    apply (lt_bpow radix2). apply Rlt_trans with d; auto. pose proof (bpow_mag_gt radix2 d) as B. rewrite Rabs_pos_eq in B; lra. }
  assert (Fe : SpecFloat.fexp 53 1024 (mag radix2 d) = (mag radix2 d - 53)%Z) by (unfold SpecFloat.fexp, SpecFloat.emin; lia).
  assert (Bd : bpow radix2 (mag radix2 d - 1) <= d).
  { pose proof (bpow_mag_le radix2 d) as B. rewrite Rabs_pos_eq in B by lra. apply B. lra. }
  assert (HM : u * d <= d - d * bpow radix2 (-53)) by nra.
  rewrite pred_eq_pos in * by lra. unfold pred_pos in *.
  destruct (Req_bool_spec d (bpow radix2 (mag radix2 d - 1))) as [E|E].
  - apply rnd_le_fmt; auto. apply Rle_trans with (1 := HM).
    replace (d * bpow radix2 (-53)) with (bpow radix2 (SpecFloat.fexp 53 1024 (mag radix2 d - 1))). lra.
    replace (SpecFloat.fexp 53 1024 (mag radix2 d - 1)) with ((mag radix2 d - 1) + -53)%Z by (unfold SpecFloat.fexp, SpecFloat.emin; lia).
    rewrite bpow_plus. rewrite <- E. reflexivity.
  - set (p := d - ulp radix2 (SpecFloat.fexp 53 1024) d) in *.
    assert (S : succ radix2 (SpecFloat.fexp 53 1024) p = d).
    { transitivity (succ radix2 (SpecFloat.fexp 53 1024) (pred radix2 (SpecFloat.fexp 53 1024) d)); [|apply succ_pred; auto; apply vfexp]. f_equal. rewrite pred_eq_pos by lra. unfold pred_pos. rewrite Req_bool_false by auto. reflexivity. }
    apply round_N_le_midp. apply vfexp. apply mfexp || exact Fp. rewrite S. apply Rle_lt_trans with (1 := HM). unfold p.
    rewrite ulp_neq_0 by lra. unfold cexp. rewrite Fe.
    assert (B2 : bpow radix2 (mag radix2 d - 1) < d) by (destruct Bd as [B|B]; auto; congruence).
    assert (B3 : bpow radix2 (mag radix2 d - 53) = 2 * (bpow radix2 (mag radix2 d - 1) * bpow radix2 (-53))).
    { rewrite <- bpow_plus. replace (mag radix2 d - 53)%Z with (1 + (mag radix2 d - 1 + -53))%Z by lia. rewrite (bpow_plus radix2 1). reflexivity. }
    rewrite B3. assert (0 < bpow radix2 (-53)) by apply bpow_gt_0. nra.
Qed.

(** one coordinate *)
Lemma sample_dbl (xl xu u : double) : is_finite xl = true -> is_finite xu = true -> random_double u ->
  B2R xl <= B2R xu -> is_finite (nsub xu xl) = true ->
  let x := nadd (nmul u (nsub xu xl)) xl in is_finite x = true /\ B2R xl <= B2R x <= B2R xu.
Proof.
  intros Hl Hh (Hu & k & Hk & Eu) Hle Hf.
  assert (Ku : 0 <= B2R u <= 1 - bpow radix2 (-53)).
  { rewrite Eu. assert (P : 0 < bpow radix2 (-53)) by apply bpow_gt_0. assert (E1 : 1 = IZR (2 ^ 53) * bpow radix2 (-53)).
    { change (IZR (2 ^ 53)) with (bpow radix2 53). rewrite <- bpow_plus. reflexivity. }
    split. apply Rmult_le_pos; [apply IZR_le; lia|lra]. assert (IZR k <= IZR (2 ^ 53) - 1) by (rewrite <- minus_IZR; apply IZR_le; lia). nra. }
  assert (Lim : forall z : double, Rabs (B2R z) < bpow radix2 1024) by (intros z; apply abs_B2R_lt_emax).
  assert (Ed : B2R (nsub xu xl) = rnd (B2R xu - B2R xl)).
  { destruct (Rlt_or_le (Rabs (rnd (B2R xu - B2R xl))) (bpow radix2 1024)) as [H|H]; [apply dminus_ok; auto|].
    exfalso. pose proof (Bminus_correct 53 1024 _ _ mode_NE xu xl Hh Hl) as C. simpl round_mode in C. rewrite Rlt_bool_false in C by exact H.
    destruct C as [C _]. change (is_finite (Bminus mode_NE xu xl) = true) in Hf. destruct (Bminus mode_NE xu xl); cbn in C, Hf; try discriminate. 
  }
  set (d := nsub xu xl) in *.
  assert (D0 : 0 <= B2R d) by (rewrite Ed, <- rnd_0; apply rnd_le; lra).
  assert (Pw : rnd (B2R u * B2R d) <= B2R xu - B2R xl) by (rewrite Ed; apply prod_width; lra).
  assert (P0 : 0 <= rnd (B2R u * B2R d)) by (rewrite <- rnd_0 at 1; apply rnd_le; apply Rmult_le_pos; lra).
  assert (Pd : rnd (B2R u * B2R d) <= B2R d) by (apply rnd_le_fmt; [apply generic_format_B2R|assert (0 < bpow radix2 (-53)) by apply bpow_gt_0; nra]).
  destruct (dmult_ok u d Hu Hf) as [Mf Mv].
  { rewrite Rabs_pos_eq by lra. pose proof (Lim d) as H. rewrite Rabs_pos_eq in H; lra. }
  assert (S1 : B2R xl <= rnd (B2R (nmul u d) + B2R xl)) by (rewrite <- (rnd_B2R xl) at 1; apply rnd_le; lra).
  assert (S2 : rnd (B2R (nmul u d) + B2R xl) <= B2R xu) by (rewrite <- (rnd_B2R xu) at 1; apply rnd_le; lra).
  destruct (dplus_ok (nmul u d) xl Mf Hl) as [Af Av].
  { pose proof (Lim xl) as H1. pose proof (Lim xu) as H2. apply Rabs_def2 in H1. apply Rabs_def2 in H2. apply Rabs_def1; lra. }
  cbn zeta. split; [exact Af|]. rewrite Av. lra.
Qed.
