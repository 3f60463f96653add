(** The relative error of the hypervolume computed with doubles. *)
From Coq Require Import ZArith Reals Lra List Arith Lia Bool Permutation Sorted FunctionalExtensionality.
From Flocq Require Import Core Relative IEEE754.BinarySingleNaN.
From Verif Require Import Num Exn ListAux NDSSpec HVSpec HVModel HVTheory HVLinks HVProof HVTop HVHom HVExtra DblModel DblSpec DblNDS DblSim DblTop DblRel.
Import ListNotations.
Open Scope nat_scope.

Definition uu : R := bpow radix2 (-53).
Lemma uu_pos : (0 < uu < 1)%R.
Proof. split; [apply bpow_gt_0|]. change 1%R with (bpow radix2 0). apply bpow_lt. lia. Qed.

(** * Powers of [1 - u] and [1 + u] *)
Lemma pow_lo j : (0 < (1 - uu) ^ j <= 1)%R.
Proof.
  pose proof uu_pos. split; [apply pow_lt; lra|]. induction j as [|j IH]; simpl; [lra|].
  assert (0 < (1 - uu) ^ j)%R by (apply pow_lt; lra). nra.
Qed.
Lemma pow_hi j : (1 <= (1 + uu) ^ j)%R.
Proof. pose proof uu_pos. induction j as [|j IH]; simpl; [lra|]. nra. Qed.
Lemma pow_lo_le i j : i <= j -> ((1 - uu) ^ j <= (1 - uu) ^ i)%R.
Proof.
  intros H. replace j with (i + (j - i)) by lia. rewrite pow_add.
  pose proof (pow_lo i). pose proof (pow_lo (j - i)). nra.
Qed.
Lemma pow_hi_le i j : i <= j -> ((1 + uu) ^ i <= (1 + uu) ^ j)%R.
Proof.
  intros H. replace j with (i + (j - i)) by lia. rewrite pow_add.
  pose proof (pow_hi i). pose proof (pow_hi (j - i)). nra.
Qed.
Lemma bern j : (1 - INR j * uu <= (1 - uu) ^ j)%R.
Proof.
  pose proof uu_pos. induction j as [|j IH]; [simpl; lra|]. rewrite S_INR. simpl pow.
  pose proof (pos_INR j). assert (0 <= INR j * uu * uu)%R by (apply Rmult_le_pos; [apply Rmult_le_pos|]; lra). nra.
Qed.
Lemma pow_prod j : ((1 + uu) ^ j * (1 - uu) ^ j <= 1)%R.
Proof.
  rewrite <- Rpow_mult_distr. pose proof uu_pos.
  apply Rle_trans with (1 ^ j)%R; [apply pow_incr; split; [apply Rmult_le_pos; lra|nra]|rewrite pow1; lra].
Qed.
Lemma pow_hi_lin j : (INR j * uu <= / 2)%R -> ((1 + uu) ^ j <= 1 + 2 * (INR j * uu))%R.
Proof.
  intros H. pose proof (bern j). pose proof (pow_prod j). pose proof (pow_hi j). pose proof (pos_INR j). pose proof uu_pos.
  set (t := (INR j * uu)%R) in *. assert (0 <= t)%R by (unfold t; nra).
  assert ((1 + uu) ^ j * (1 - t) <= 1)%R by nra. nra.
Qed.

(** * Approximations of a nonnegative number with a relative error *)
Definition apx (j : nat) (g : Z) (x v : R) : Prop :=
  ((1 - uu) ^ j * v <= x <= (1 + uu) ^ j * v)%R /\ (0 <= v)%R /\ (v = 0 \/ bpow radix2 g <= x)%R.
Lemma apx_refl g v : (0 <= v)%R -> (v = 0 \/ bpow radix2 g <= v)%R -> apx 0 g v v.
Proof. intros H1 H2. split; [simpl; lra|auto]. Qed.
Lemma apx_zero j g : apx j g 0 0.
Proof. split; [lra|]. split; [lra|left; auto]. Qed.
Lemma apx_nonneg j g x v : apx j g x v -> (0 <= x)%R.
Proof. intros ((H1 & H2) & H3 & _). pose proof (pow_lo j). nra. Qed.
Lemma apx_mono i j g x v : i <= j -> apx i g x v -> apx j g x v.
Proof.
  intros Hij (H1 & H2 & H3). split; [|auto]. pose proof (pow_lo_le i j Hij). pose proof (pow_hi_le i j Hij). nra.
Qed.
Lemma apx_g j g g' x v : (g' <= g)%Z -> apx j g x v -> apx j g' x v.
Proof.
  intros Hg (H1 & H2 & H3). split; [auto|]. split; [auto|]. destruct H3; auto. right.
  apply Rle_trans with (bpow radix2 g); auto. apply bpow_le; auto.
Qed.
Lemma apx_add j g x v y w : apx j g x v -> apx j g y w -> apx j g (x + y) (v + w).
Proof.
  intros Hx Hy. pose proof (apx_nonneg _ _ _ _ Hx). pose proof (apx_nonneg _ _ _ _ Hy).
  destruct Hx as (H1 & H2 & H3), Hy as (G1 & G2 & G3). split; [lra|]. split; [lra|].
  destruct H3 as [->|H3], G3 as [->|G3]; try (right; lra). left; lra.
Qed.
Lemma apx_mul i j g h x v y w : apx i g x v -> apx j h y w -> apx (i + j) (g + h) (x * y) (v * w).
Proof.
  intros Hx Hy. pose proof (apx_nonneg _ _ _ _ Hx) as X0. pose proof (apx_nonneg _ _ _ _ Hy) as Y0.
  destruct Hx as ((H1 & H1') & H2 & H3), Hy as ((G1 & G1') & G2 & G3). unfold apx. rewrite !pow_add.
  pose proof (pow_lo i). pose proof (pow_lo j). pose proof (pow_hi i). pose proof (pow_hi j).
  split; [split|split].
  - replace ((1 - uu) ^ i * (1 - uu) ^ j * (v * w))%R with (((1 - uu) ^ i * v) * ((1 - uu) ^ j * w))%R by ring.
    apply Rmult_le_compat; auto; apply Rmult_le_pos; lra.
  - replace ((1 + uu) ^ i * (1 + uu) ^ j * (v * w))%R with (((1 + uu) ^ i * v) * ((1 + uu) ^ j * w))%R by ring.
    apply Rmult_le_compat; auto.
  - apply Rmult_le_pos; auto.
  - destruct H3 as [->|H3]; [left; ring|]. destruct G3 as [->|G3]; [left; ring|]. right. rewrite bpow_plus.
    apply Rmult_le_compat; auto; apply bpow_ge_0.
Qed.
Lemma rnd_rel x : (bpow radix2 (-1022) <= Rabs x)%R -> (Rabs (rnd x - x) <= uu * Rabs x)%R.
Proof.
  intros H. change (SpecFloat.fexp 53 1024) with (FLT_exp (-1074) 53).
  pose proof (relative_error_N_FLT radix2 (-1074) 53 eq_refl (fun x => negb (Z.even x)) x) as E.
  specialize (E H). unfold ZnearestE. replace uu with (/ 2 * bpow radix2 (- (53) + 1))%R; [exact E|].
  unfold uu. replace (/ 2)%R with (bpow radix2 (-1)) by reflexivity. rewrite <- bpow_plus. reflexivity.
Qed.
Lemma rnd_zero : rnd 0 = 0%R.
Proof. apply round_0. apply valid_rnd_N. Qed.
Lemma rnd_opp x : rnd (- x) = (- rnd x)%R.
Proof. apply round_NE_opp. Qed.
Lemma apx_rnd j g x v : (-1022 <= g <= 1000)%Z -> apx j g x v -> apx (S j) g (rnd x) v.
Proof.
  intros Hg Hx. pose proof (apx_nonneg _ _ _ _ Hx) as X0. destruct Hx as ((H1 & H1') & H2 & H3).
  destruct H3 as [->|H3].
  { assert (x = 0)%R by lra. subst x. rewrite rnd_zero. apply apx_zero. }
  assert (Hb : (bpow radix2 (-1022) <= x)%R) by (apply Rle_trans with (bpow radix2 g); auto; apply bpow_le; lia).
  pose proof (rnd_rel x) as HR. rewrite (Rabs_pos_eq x) in HR by auto. specialize (HR Hb).
  apply Rcomplements.Rabs_le_between in HR.
  pose proof uu_pos. pose proof (pow_lo j). pose proof (pow_hi j).
  split; [|split; [auto|right]].
  - simpl pow. split.
    + apply Rle_trans with ((1 - uu) * x)%R; [|lra]. rewrite Rmult_assoc. apply Rmult_le_compat_l; lra.
    + apply Rle_trans with ((1 + uu) * x)%R; [lra|]. rewrite Rmult_assoc. apply Rmult_le_compat_l; lra.
  - apply round_ge_generic; auto; [apply fexp_correct; reflexivity|apply valid_rnd_N|].
    apply generic_format_bpow. unfold SpecFloat.fexp, SpecFloat.emin. lia.
Qed.
Lemma apx_bound j g x v M : (INR j * uu <= / 2)%R -> apx j g x v -> (v <= M)%R -> (Rabs x <= 2 * M)%R.
Proof.
  intros Hj Hx HM. pose proof (apx_nonneg _ _ _ _ Hx). destruct Hx as ((_ & H1) & H2 & _).
  pose proof (pow_hi_lin j Hj). rewrite Rabs_pos_eq by auto. nra.
Qed.
Lemma apx_fin j g x v : (INR j * uu <= / 2)%R -> apx j g x v -> (v <= bpow radix2 1000)%R -> (Rabs x < bpow radix2 1024)%R.
Proof.
  intros Hj Hx Hv. apply Rle_lt_trans with (2 * bpow radix2 1000)%R; [eapply apx_bound; eauto|].
  change 2%R with (bpow radix2 1). rewrite <- bpow_plus. apply bpow_lt. lia.
Qed.

(** * Doubles are multiples of a power of two *)
Lemma mult_of (x : double) g : (-1000 <= g)%Z -> (B2R x = 0 \/ bpow radix2 g <= Rabs (B2R x))%R ->
  exists z, B2R x = (IZR z * bpow radix2 (g - 52))%R.
Proof.
  intros Hg [H|H]; [exists 0%Z; rewrite H; ring|].
  assert (G : fmt (B2R x)) by apply generic_format_B2R. unfold generic_format, F2R in G. simpl in G.
  set (ce := cexp radix2 (SpecFloat.fexp 53 1024) (B2R x)) in *.
  assert (Hce : (g - 52 <= ce)%Z).
  { assert (Hm : (g < mag radix2 (B2R x))%Z) by (apply mag_gt_bpow; auto).
    unfold ce, cexp, SpecFloat.fexp, SpecFloat.emin. lia. }
  rewrite G. exists (Ztrunc (scaled_mantissa radix2 (SpecFloat.fexp 53 1024) (B2R x)) * 2 ^ (ce - (g - 52)))%Z.
  rewrite mult_IZR, Rmult_assoc. f_equal. replace (IZR (2 ^ (ce - (g - 52)))) with (bpow radix2 (ce - (g - 52))).
  - rewrite <- bpow_plus. f_equal. lia.
  - symmetry. apply (IZR_Zpower radix2). lia.
Qed.
Lemma diff_low (x y : double) g : (-1000 <= g)%Z -> (B2R x = 0 \/ bpow radix2 g <= Rabs (B2R x))%R ->
  (B2R y = 0 \/ bpow radix2 g <= Rabs (B2R y))%R -> (B2R x - B2R y = 0 \/ bpow radix2 (g - 52) <= Rabs (B2R x - B2R y))%R.
Proof.
  intros Hg Hx Hy. destruct (mult_of x g Hg Hx) as (z & ->). destruct (mult_of y g Hg Hy) as (t & ->).
  destruct (Z.eq_dec z t) as [->|Hne]; [left; ring|right].
  rewrite <- Rmult_minus_distr_r, <- minus_IZR, Rabs_mult, (Rabs_pos_eq (bpow radix2 (g - 52))) by apply bpow_ge_0.
  rewrite <- abs_IZR. pose proof (bpow_gt_0 radix2 (g - 52)).
  assert (1 <= IZR (Z.abs (z - t)))%R by (apply IZR_le; lia). nra.
Qed.

(** * The two levels *)
Section Lev.
Variable n : nat.
Hypothesis Hn : (INR n <= bpow radix2 50)%R.

Definition KE (x : double) : Prop := is_finite x = true /\ (B2R x <= 0)%R /\
  (B2R x = 0 \/ bpow radix2 (-302) <= - B2R x)%R /\ (- B2R x <= bpow radix2 252)%R.
Definition AE (k : nat) (v : double) (v' : R) : Prop :=
  is_finite v = true /\ apx (k + 2) (-656) (B2R v) v' /\ (v' <= INR k * bpow radix2 504)%R.
Definition BE (k : nat) (v : double) (v' : R) : Prop :=
  is_finite v = true /\ apx (k + n + 5) (-1010) (B2R v) v' /\ (v' <= INR k * bpow radix2 756)%R.

Lemma small j : j <= 2 * n + 8 -> (INR j * uu <= / 2)%R.
Proof.
  intros Hj. apply le_INR in Hj. rewrite plus_INR, mult_INR in Hj. simpl (INR 2) in Hj. simpl (INR 8) in Hj.
  assert (INR j <= bpow radix2 52)%R.
  { replace (bpow radix2 52) with (4 * bpow radix2 50)%R by (simpl; lra).
    assert (8 <= bpow radix2 50)%R by (simpl; lra). lra. }
  unfold uu. replace (/ 2)%R with (bpow radix2 52 * bpow radix2 (-53))%R by (rewrite <- bpow_plus; reflexivity).
  apply Rmult_le_compat_r; [apply bpow_ge_0|auto].
Qed.
Lemma kn k g : k <= S n -> (g <= 900)%Z -> (INR k * bpow radix2 g <= bpow radix2 1000)%R.
Proof.
  intros Hk Hg. apply le_INR in Hk. rewrite S_INR in Hk.
  apply Rle_trans with (bpow radix2 51 * bpow radix2 900)%R.
  - apply Rmult_le_compat; [apply pos_INR|apply bpow_ge_0| |apply bpow_le; lia].
    replace (bpow radix2 51) with (bpow radix2 50 + bpow radix2 50)%R by (simpl; lra).
    assert (1 <= bpow radix2 50)%R by (simpl; lra). lra.
  - rewrite <- bpow_plus. apply bpow_le. lia.
Qed.

Lemma KE_apx x : KE x -> apx 0 (-302) (- B2R x) (- B2R x).
Proof. intros (_ & H1 & H2 & _). apply apx_refl; [lra|]. destruct H2; [left; lra|auto]. Qed.
Lemma KE_abs x : KE x -> (B2R x = 0 \/ bpow radix2 (-302) <= Rabs (B2R x))%R.
Proof. intros (_ & H1 & [H2|H2] & _); [auto|right]. rewrite Rabs_left1 by auto. auto. Qed.

(** the difference of two coordinates *)
Lemma KE_diff q p : KE q -> KE p -> (B2R q <= B2R p)%R ->
  apx 1 (-354) (rnd (B2R p - B2R q)) (B2R p - B2R q) /\ (B2R p - B2R q <= bpow radix2 252)%R /\
  (Rabs (rnd (B2R p - B2R q)) < bpow radix2 1024)%R.
Proof.
  intros Kq Kp Hle.
  assert (Hb : (B2R p - B2R q <= bpow radix2 252)%R) by (destruct Kq as (_ & _ & _ & H1), Kp as (_ & H2 & _); lra).
  assert (Ha : apx 1 (-354) (rnd (B2R p - B2R q)) (B2R p - B2R q)).
  { apply apx_rnd; [lia|]. apply apx_refl; [lra|].
    destruct (diff_low p q (-302) ltac:(lia) (KE_abs p Kp) (KE_abs q Kq)) as [H|H]; [auto|right].
    rewrite Rabs_pos_eq in H by lra. exact H. }
  split; [exact Ha|]. split; [exact Hb|].
  apply (apx_fin 1 (-354) _ (B2R p - B2R q)); [apply small; lia|exact Ha|].
  apply Rle_trans with (bpow radix2 252); auto. apply bpow_le. lia.
Qed.

Lemma AE_0 : AE 0 d0 0%R.
Proof. split; [reflexivity|]. split; [apply apx_zero|]. simpl. lra. Qed.
Lemma AE_mono k v v' : AE k v v' -> AE (S k) v v'.
Proof.
  intros (H1 & H2 & H3). split; auto. split; [eapply apx_mono; [|exact H2]; lia|].
  rewrite S_INR. pose proof (bpow_ge_0 radix2 504). lra.
Qed.

(** adding a nonnegative term *)
Lemma add_term k j g (v t : double) v' t' M : (-1022 <= g <= 0)%Z -> k <= n -> j + 1 <= 2 * n + 8 ->
  is_finite v = true -> is_finite t = true -> apx j g (B2R v) v' -> apx j g (B2R t) t' -> (M <= bpow radix2 900)%R ->
  (v' <= INR k * M)%R -> (t' <= M)%R -> (0 <= M)%R ->
  is_finite (nadd v t) = true /\ apx (S j) g (B2R (nadd v t)) (v' + t') /\ (v' + t' <= INR (S k) * M)%R.
Proof.
  intros Hg Hk Hj F1 F2 Av At HM Hv Ht HM0.
  assert (Hs : (v' + t' <= INR (S k) * M)%R) by (rewrite S_INR; lra).
  assert (Hg' : (-1022 <= g <= 1000)%Z) by lia.
  pose proof (apx_rnd _ _ _ _ Hg' (apx_add _ _ _ _ _ _ Av At)) as Ar.
  destruct (dplus_ok v t F1 F2) as [P1 P2].
  { eapply apx_fin; [|exact Ar|]; [apply small; lia|]. eapply Rle_trans; [exact Hs|].
    eapply Rle_trans; [apply Rmult_le_compat_l; [apply pos_INR|exact HM]|]. apply kn; lia. }
  rewrite P2. auto.
Qed.

Lemma prod_le a b x y : (0 <= a)%R -> (0 <= b)%R -> (a <= bpow radix2 x)%R -> (b <= bpow radix2 y)%R -> (a * b <= bpow radix2 (x + y))%R.
Proof. intros. rewrite bpow_plus. apply Rmult_le_compat; auto. Qed.

(** [h * (q - p)] for coordinates *)
Lemma area_term h q p : KE h -> KE q -> KE p -> (B2R q <= B2R p)%R ->
  is_finite (nmul h (nsub q p)) = true /\ apx 2 (-656) (B2R (nmul h (nsub q p))) (B2R h * (B2R q - B2R p)) /\
  (B2R h * (B2R q - B2R p) <= bpow radix2 504)%R.
Proof.
  intros Kh Kq Kp Hle. destruct (KE_diff q p Kq Kp Hle) as (D1 & D2 & D3).
  assert (Ed : rnd (B2R q - B2R p) = (- rnd (B2R p - B2R q))%R) by (rewrite <- rnd_opp; f_equal; ring).
  destruct (dminus_ok q p (proj1 Kq) (proj1 Kp)) as [S1 S2]; [rewrite Ed, Rabs_Ropp; exact D3|].
  pose proof (apx_mul _ _ _ _ _ _ _ _ (KE_apx h Kh) D1) as Am. simpl in Am.
  replace (- B2R h * rnd (B2R p - B2R q))%R with (B2R h * B2R (nsub q p))%R in Am by (rewrite S2, Ed; ring).
  replace (- B2R h * (B2R p - B2R q))%R with (B2R h * (B2R q - B2R p))%R in Am by ring.
  assert (Hb : (B2R h * (B2R q - B2R p) <= bpow radix2 504)%R).
  { replace (B2R h * (B2R q - B2R p))%R with ((- B2R h) * (B2R p - B2R q))%R by ring.
    apply (prod_le _ _ 252 252); try lra; destruct Kh as (_ & ? & _ & ?); lra. }
  pose proof (apx_rnd 1 (-656) _ _ ltac:(lia) Am) as Ar.
  destruct (dmult_ok h (nsub q p) (proj1 Kh) S1) as [P1 P2].
  { eapply apx_fin; [|exact Ar|]; [apply small; lia|]. eapply Rle_trans; [exact Hb|]. apply bpow_le; lia. }
  rewrite P2. auto.
Qed.
Lemma area_last h q : KE h -> KE q ->
  is_finite (nmul h q) = true /\ apx 2 (-656) (B2R (nmul h q)) (B2R h * B2R q) /\ (B2R h * B2R q <= bpow radix2 504)%R.
Proof.
  intros Kh Kq.
  pose proof (apx_mul _ _ _ _ _ _ _ _ (KE_apx h Kh) (KE_apx q Kq)) as Am. simpl in Am.
  replace (- B2R h * - B2R q)%R with (B2R h * B2R q)%R in Am by ring.
  assert (Hb : (B2R h * B2R q <= bpow radix2 504)%R).
  { replace (B2R h * B2R q)%R with ((- B2R h) * (- B2R q))%R by ring.
    apply (prod_le _ _ 252 252); destruct Kh as (_ & ? & _ & ?), Kq as (_ & ? & _ & ?); lra. }
  pose proof (apx_rnd 0 (-604) _ _ ltac:(lia) Am) as Ar.
  destruct (dmult_ok h q (proj1 Kh) (proj1 Kq)) as [P1 P2].
  { eapply apx_fin; [|exact Ar|]; [apply small; lia|]. eapply Rle_trans; [exact Hb|]. apply bpow_le; lia. }
  rewrite P2. split; auto. split; auto. apply (apx_g 2 (-604)); [lia|]. apply (apx_mono 1); [lia|auto].
Qed.

Lemma AE_step k v v' h q p : S k <= S n -> AE k v v' -> KE h -> KE q -> KE p -> (B2R q <= B2R p)%R ->
  AE (S k) (nadd v (nmul h (nsub q p))) (v' + B2R h * (B2R q - B2R p))%R.
Proof.
  intros Hk (V1 & V2 & V3) Kh Kq Kp Hle. destruct (area_term h q p Kh Kq Kp Hle) as (T1 & T2 & T3).
  apply (add_term k (k + 2) (-656) v _ v' _ (bpow radix2 504)); auto; try lia.
  - apply (apx_mono 2); [lia|auto].
  - apply bpow_le; lia.
  - apply bpow_ge_0.
Qed.
Lemma AE_last k v v' h q : S k <= S n -> AE k v v' -> KE h -> KE q ->
  AE (S k) (nadd v (nmul h q)) (v' + B2R h * B2R q)%R.
Proof.
  intros Hk (V1 & V2 & V3) Kh Kq. destruct (area_last h q Kh Kq) as (T1 & T2 & T3).
  apply (add_term k (k + 2) (-656) v _ v' _ (bpow radix2 504)); auto; try lia.
  - apply (apx_mono 2); [lia|auto].
  - apply bpow_le; lia.
  - apply bpow_ge_0.
Qed.

Lemma BE_0 : BE 0 d0 0%R.
Proof. split; [reflexivity|]. split; [apply apx_zero|]. simpl. lra. Qed.
Lemma W2 a' : (a' <= bpow radix2 252 * bpow radix2 252)%R -> (a' <= bpow radix2 504)%R.
Proof. rewrite <- bpow_plus. auto. Qed.

(** area times height *)
Lemma vol_term a a' q p : AE (S n) a a' -> (a' <= bpow radix2 252 * bpow radix2 252)%R -> KE q -> KE p -> (B2R q <= B2R p)%R ->
  is_finite (nmul a (nsub p q)) = true /\ apx (n + 5) (-1010) (B2R (nmul a (nsub p q))) (a' * (B2R p - B2R q)) /\
  (a' * (B2R p - B2R q) <= bpow radix2 756)%R.
Proof.
  intros (A1 & A2 & _) Ha Kq Kp Hle. apply W2 in Ha. destruct (KE_diff q p Kq Kp Hle) as (D1 & D2 & D3).
  destruct (dminus_ok p q (proj1 Kp) (proj1 Kq)) as [S1 S2]; [exact D3|].
  pose proof (apx_mul _ _ _ _ _ _ _ _ A2 D1) as Am. simpl (-656 + -354)%Z in Am. rewrite <- S2 in Am.
  assert (Hb : (a' * (B2R p - B2R q) <= bpow radix2 756)%R).
  { apply (prod_le _ _ 504 252); try lra. apply A2. }
  pose proof (apx_rnd _ (-1010) _ _ ltac:(lia) Am) as Ar.
  destruct (dmult_ok a (nsub p q) A1 S1) as [P1 P2].
  { eapply apx_fin; [|exact Ar|]; [apply small; lia|]. eapply Rle_trans; [exact Hb|]. apply bpow_le; lia. }
  rewrite P2. split; auto. split; auto. eapply apx_mono; [|exact Ar]. lia.
Qed.
Lemma vol_last a a' q : AE (S n) a a' -> (a' <= bpow radix2 252 * bpow radix2 252)%R -> KE q ->
  is_finite (nmul a q) = true /\ apx (n + 5) (-1010) (- B2R (nmul a q)) (a' * - B2R q) /\ (a' * - B2R q <= bpow radix2 756)%R.
Proof.
  intros (A1 & A2 & _) Ha Kq. apply W2 in Ha.
  pose proof (apx_mul _ _ _ _ _ _ _ _ A2 (KE_apx q Kq)) as Am. simpl (-656 + -302)%Z in Am.
  assert (Hb : (a' * - B2R q <= bpow radix2 756)%R).
  { apply (prod_le _ _ 504 252); try (destruct Kq as (_ & ? & _ & ?); lra). apply A2. }
  pose proof (apx_rnd _ (-958) _ _ ltac:(lia) Am) as Ar.
  replace (B2R a * - B2R q)%R with (- (B2R a * B2R q))%R in Ar by ring. rewrite rnd_opp in Ar.
  destruct (dmult_ok a q A1 (proj1 Kq)) as [P1 P2].
  { rewrite <- Rabs_Ropp. eapply apx_fin; [|exact Ar|]; [apply small; lia|]. eapply Rle_trans; [exact Hb|]. apply bpow_le; lia. }
  rewrite P2. split; auto. split; auto. apply (apx_g _ (-958)); [lia|]. eapply apx_mono; [|exact Ar]. lia.
Qed.

Lemma BE_step k v v' a a' q p : S k <= n -> BE k v v' -> AE (S n) a a' -> (a' <= bpow radix2 252 * bpow radix2 252)%R ->
  KE q -> KE p -> (B2R q <= B2R p)%R -> BE (S k) (nadd v (nmul a (nsub p q))) (v' + a' * (B2R p - B2R q))%R.
Proof.
  intros Hk (V1 & V2 & V3) HA Ha Kq Kp Hle. destruct (vol_term a a' q p HA Ha Kq Kp Hle) as (T1 & T2 & T3).
  apply (add_term k (k + n + 5) (-1010) v _ v' _ (bpow radix2 756)); auto; try lia.
  - apply (apx_mono (n + 5)); [lia|auto].
  - apply bpow_le; lia.
  - apply bpow_ge_0.
Qed.
Lemma BE_last k v v' a a' q : S k <= n -> BE k v v' -> AE (S n) a a' -> (a' <= bpow radix2 252 * bpow radix2 252)%R ->
  KE q -> BE (S k) (nsub v (nmul a q)) (v' - a' * B2R q)%R.
Proof.
  intros Hk (V1 & V2 & V3) HA Ha Kq. destruct (vol_last a a' q HA Ha Kq) as (T1 & T2 & T3).
  assert (Hs : (v' + a' * - B2R q <= INR (S k) * bpow radix2 756)%R) by (rewrite S_INR; lra).
  apply (apx_mono _ (k + n + 5)) in T2; [|lia].
  assert (Hg' : (-1022 <= -1010 <= 1000)%Z) by lia.
  pose proof (apx_rnd _ _ _ _ Hg' (apx_add _ _ _ _ _ _ V2 T2)) as Ar.
  replace (B2R v + - B2R (nmul a q))%R with (B2R v - B2R (nmul a q))%R in Ar by ring.
  replace (v' + a' * - B2R q)%R with (v' - a' * B2R q)%R in * by ring.
  destruct (dminus_ok v (nmul a q) V1 T1) as [P1 P2].
  { eapply apx_fin; [|exact Ar|]; [apply small; lia|]. eapply Rle_trans; [exact Hs|]. apply kn; lia. }
  split; auto. rewrite P2. split; auto.
Qed.
End Lev.

Section Main.
Variables (minf : double) (argsort : list double -> list nat) (front : list (list double)) (ref : list double).
Hypothesis Hargs : dargsort_ok argsort.
Hypothesis Hm : 1 <= length ref <= 3.
Hypothesis Hrows : forall p, In p front -> length p = length ref.
Definition moderate0 (x : double) : Prop := is_finite x = true /\
  (B2R x = 0 \/ bpow radix2 (-250) <= Rabs (B2R x) <= bpow radix2 250)%R.
Hypothesis Hmod : forall p x, In p front -> In x p -> moderate0 x.
Hypothesis Hmodr : forall x, In x ref -> moderate0 x.
Hypothesis Hminf : is_finite minf = true.
Hypothesis Hminf' : (B2R minf < - bpow radix2 252)%R.
Hypothesis Hn : (INR (length front) <= bpow radix2 50)%R.

Notation rel := (filter (fun p => weakly_dom p ref) front).
Notation pts := (relevant_points front ref).
Notation n := (length pts).

Lemma er_fin p x : In p front -> In x p -> is_finite x = true.
Proof. intros H1 H2. apply (Hmod p x H1 H2). Qed.
Lemma er_finr x : In x ref -> is_finite x = true.
Proof. intros H1. apply (Hmodr x H1). Qed.
Lemma mod_abs x : moderate0 x -> (B2R x = 0 \/ bpow radix2 (-250) <= Rabs (B2R x))%R /\ (Rabs (B2R x) <= bpow radix2 250)%R.
Proof.
  intros [_ [H|H]]; split; auto; try tauto.
  rewrite H, Rabs_R0. apply bpow_ge_0.
Qed.

Lemma er_diff p k : In p front -> weakly_dominates (map dR p) (map dR ref) -> k < length ref ->
  let s := (B2R (nth k p d0) - B2R (nth k ref d0))%R in
  apx 1 (-302) (- rnd s) (- s) /\ (- rnd s <= bpow radix2 252)%R /\ (Rabs (rnd s) < bpow radix2 1024)%R.
Proof.
  intros Hp [Hl Hw] Hk s. rewrite !map_length in Hl.
  destruct (mod_abs (nth k p d0)) as [P1 P2]; [apply (Hmod p); [auto|apply nth_In; lia]|].
  destruct (mod_abs (nth k ref d0)) as [R1 R2]; [apply Hmodr, nth_In; auto|].
  specialize (Hw k). rewrite map_length, !nth_dR in Hw. specialize (Hw ltac:(lia)).
  assert (Hs : (0 <= - s)%R) by (unfold s; lra).
  assert (Ha : apx 1 (-302) (rnd (- s)) (- s)).
  { apply apx_rnd; [lia|]. apply apx_refl; auto.
    destruct (diff_low (nth k p d0) (nth k ref d0) (-250) ltac:(lia) P1 R1) as [H|H]; fold s in H; [left; lra|right].
    rewrite Rabs_left1 in H by lra. exact H. }
  rewrite rnd_opp in Ha.
  assert (Hb : (- s <= bpow radix2 251)%R).
  { replace (bpow radix2 251) with (bpow radix2 250 + bpow radix2 250)%R
      by (change 251%Z with (250 + 1)%Z; rewrite bpow_plus; change (bpow radix2 1) with 2%R; ring).
    apply Rcomplements.Rabs_le_between in P2. apply Rcomplements.Rabs_le_between in R2. unfold s. lra. }
  pose proof (apx_bound 1 (-302) _ _ _ (small (length front) Hn 1 ltac:(lia)) Ha Hb) as HB. rewrite Rabs_Ropp in HB.
  replace (2 * bpow radix2 251)%R with (bpow radix2 252) in HB by (change 252%Z with (1 + 251)%Z; rewrite bpow_plus; reflexivity).
  split; [exact Ha|]. split.
  - apply Rcomplements.Rabs_le_between in HB. lra.
  - eapply Rle_lt_trans; [exact HB|]. apply bpow_lt. lia.
Qed.

Lemma err_main : exists v, hypervolume minf argsort front ref = Ok v /\ is_finite v = true /\
  forall w, is_hypervolume (map (map dR) front) (map dR ref) w ->
    ((1 - uu) ^ (2 * length front + 8) * w <= B2R v <= (1 + uu) ^ (2 * length front + 8) * w)%R.
Proof.
  destruct (relevant_double front ref Hrows er_fin er_finr) as [HL HP]; [intros; apply er_diff; auto|].
  assert (Hnl : n <= length front).
  { rewrite HL. clear. induction front as [|p l IH]; simpl; auto. destruct (weakly_dom p ref); simpl; lia. }
  assert (Hn' : (INR n <= bpow radix2 50)%R) by (eapply Rle_trans; [apply le_INR; exact Hnl|exact Hn]).
  assert (HK : forall p x, In p pts -> In x p -> KE x).
  { intros p x Hp Hx. apply (In_nth _ _ []) in Hp as (i & Hi & <-). rewrite HL in Hi.
    destruct (HP i Hi) as [Hl Hc]. apply (In_nth _ _ d0) in Hx as (k & Hk & <-). rewrite Hl in Hk.
    destruct (Hc k Hk) as [F1 F2]. destruct (rel_dom front ref Hrows er_fin er_finr (nth i rel []) (nth_In _ _ Hi)) as [D1 D2].
    destruct (er_diff _ k D1 D2 Hk) as (E1 & E2 & _). split; [exact F1|]. rewrite F2.
    pose proof (apx_nonneg _ _ _ _ E1). split; [lra|]. split; [|exact E2].
    destruct E1 as ((E11 & E12) & _ & [E3|E3]); [left|right; exact E3].
    rewrite E3, !Rmult_0_r in *. lra. }
  assert (Hlen : forall p, In p pts -> length p = length ref).
  { intros p Hp. apply (In_nth _ _ []) in Hp as (i & Hi & <-). rewrite HL in Hi. apply HP; auto. }
  assert (Hpt : ((1 - uu) ^ length ref * HVof (map (map dR) front) (map dR ref)
      <= hv (length ref) (fun _ => 0%R) (map co (map (map dR) pts))
      <= (1 + uu) ^ length ref * HVof (map (map dR) front) (map dR ref))%R).
  { apply (hv_perturb front ref Hrows er_fin er_finr uu); [pose proof uu_pos; lra| |exact HL].
    intros x k Hx Hk. destruct (HP x Hx) as [_ Hc]. destruct (Hc k Hk) as [_ ->].
    destruct (rel_dom front ref Hrows er_fin er_finr (nth x rel []) (nth_In _ _ Hx)) as [D1 D2].
    destruct (er_diff _ k D1 D2 Hk) as (((E1 & E2) & E3 & _) & _).
    set (s := (B2R (nth k (nth x rel []) d0) - B2R (nth k ref d0))%R) in *. simpl in E1, E2.
    rewrite (Rabs_left1 s) by lra. apply Rcomplements.Rabs_le_between. lra. }
  assert (Hval : forall w, is_hypervolume (map (map dR) pts) (repeat 0%R (length ref)) w ->
     w = hv (length ref) (fun _ => 0%R) (map co (map (map dR) pts))).
  { intros w Hw. apply is_hv_iff in Hw.
    - rewrite repeat_length in Hw.
      replace (co (repeat 0%R (length ref))) with (fun _ : nat => 0%R) in Hw; auto.
      extensionality k. unfold co. symmetry. apply nth_repeat.
    - intros p Hp. apply in_map_iff in Hp as (q & <- & Hq). rewrite map_length, repeat_length. auto. }
  assert (Hneg : forall p x, In p pts -> In x p -> (B2R minf < B2R x <= 0)%R).
  { intros p x Hp Hx. destruct (HK p x Hp Hx) as (_ & K1 & _ & K2). lra. }
  assert (Hpf : forall p x, In p pts -> In x p -> is_finite x = true) by (intros p x Hp Hx; apply (HK p x); auto).
  assert (Hrok : rows_ok (map (map dR) front) (map dR ref)).
  { intros p Hp. apply in_map_iff in Hp as (q & <- & Hq). rewrite !map_length. auto. }
  assert (Goal : forall (v : double) w j, is_hypervolume (map (map dR) pts) (repeat 0%R (length ref)) w ->
    j + length ref <= 2 * length front + 8 ->
    is_finite v = true -> ((1 - uu) ^ j * w <= B2R v <= (1 + uu) ^ j * w)%R ->
    is_finite v = true /\ forall w0, is_hypervolume (map (map dR) front) (map dR ref) w0 ->
      ((1 - uu) ^ (2 * length front + 8) * w0 <= B2R v <= (1 + uu) ^ (2 * length front + 8) * w0)%R).
  { intros v w j Hw Hj Fv Hv. split; auto. intros w0 Hw0. apply is_hv_iff in Hw0; auto. rewrite <- Hw0 in Hpt.
    rewrite <- (Hval w Hw) in Hpt.
    assert (W0 : (0 <= w0)%R) by (rewrite Hw0; apply hv_nonneg).
    pose proof (pow_lo j). pose proof (pow_hi j). pose proof (pow_lo_le _ _ Hj) as L1. pose proof (pow_hi_le _ _ Hj) as L2.
    rewrite (pow_add _ j (length ref)) in L1. rewrite (pow_add _ j (length ref)) in L2. destruct Hv as [Hv1 Hv2]. split.
    - apply Rle_trans with ((1 - uu) ^ j * ((1 - uu) ^ length ref * w0))%R; [|eapply Rle_trans; [|exact Hv1]; apply Rmult_le_compat_l; lra].
      rewrite <- Rmult_assoc. apply Rmult_le_compat_r; auto.
    - apply Rle_trans with ((1 + uu) ^ j * ((1 + uu) ^ length ref * w0))%R; [eapply Rle_trans; [exact Hv2|]; apply Rmult_le_compat_l; lra|].
      rewrite <- Rmult_assoc. apply Rmult_le_compat_r; auto. }
  clear Hval Hpt.
  assert (KEn : forall x, KE x -> (B2R x <= 0)%R) by (intros x Kx; apply Kx).
  assert (KEf : forall x, KE x -> is_finite x = true) by (intros x Kx; apply Kx).
  assert (KEW : forall x, KE x -> (- bpow radix2 252 <= B2R x)%R) by (intros x (_ & _ & _ & Kx); lra).
  unfold hypervolume. destruct (length ref) as [|D] eqn:ED; [lia|].
  destruct (top_run argsort Hargs pts Hpf minf Hminf Hneg D Hlen KE KEf HK KEn (bpow radix2 252) KEW
      AE AE_0 AE_mono (AE_step n Hn') (AE_last n Hn') (BE n) (BE_0 n) (BE_step n Hn') (BE_last n Hn'))
      as (v & w & H1 & H2 & H3); [lia|].
  exists v. split; [exact H1|]. unfold final in H3.
  destruct D as [|[|[|?]]]; [| | |lia].
  - destruct H3 as [V1 V2]. apply (Goal v w 0 H2); [lia|auto|]. simpl. lra.
  - destruct H3 as (V1 & (V2 & _) & _). apply (Goal v w (S n + 2) H2); auto. lia.
  - destruct H3 as (V1 & (V2 & _) & _). apply (Goal v w (n + n + 5) H2); auto. lia.
Qed.
End Main.
