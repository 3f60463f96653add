(** Taylor polynomials of sine and cosine at rational points, evaluated with integers. *)
From Coq Require Import Reals Lra Lia ZArith Bool.
From Verif Require Import ZregProof.
Open Scope R_scope.

Fixpoint st_s (P D : Z) (n : nat) : Z * Z * Z :=
  match n with
  | O => (P, P, D)
  | S m => let '(s, t, d) := st_s P D m in let k := (D * D * ((2 * Z.of_nat m + 2) * (2 * Z.of_nat m + 3)))%Z in let t' := (- (t * P * P))%Z in (s * k + t', t', d * k)%Z
  end.
Fixpoint st_c (P D : Z) (n : nat) : Z * Z * Z :=
  match n with
  | O => (1, 1, 1)%Z
  | S m => let '(s, t, d) := st_c P D m in let k := (D * D * ((2 * Z.of_nat m + 1) * (2 * Z.of_nat m + 2)))%Z in let t' := (- (t * P * P))%Z in (s * k + t', t', d * k)%Z
  end.
Lemma sin_term_S a m : sin_term a (S m) = - sin_term a m * (a * a) / ((2 * INR m + 2) * (2 * INR m + 3)).
Proof.
  unfold sin_term. replace (2 * S m + 1)%nat with (S (S (2 * m + 1))) by lia. rewrite !fact_simpl, !mult_INR. pose proof (INR_fact_neq_0 (2 * m + 1)) as F. pose proof (pos_INR m).
  replace (INR (S (S (2 * m + 1)))) with (2 * INR m + 3) by (rewrite !S_INR, plus_INR, mult_INR; simpl; ring). replace (INR (S (2 * m + 1))) with (2 * INR m + 2) by (rewrite !S_INR, plus_INR, mult_INR; simpl; ring).
  rewrite <- !tech_pow_Rmult. field. repeat split; auto; lra.
Qed.
Lemma cos_term_S a m : cos_term a (S m) = - cos_term a m * (a * a) / ((2 * INR m + 1) * (2 * INR m + 2)).
Proof.
  unfold cos_term. replace (2 * S m)%nat with (S (S (2 * m))) by lia. rewrite !fact_simpl, !mult_INR. pose proof (INR_fact_neq_0 (2 * m)) as F. pose proof (pos_INR m).
  replace (INR (S (S (2 * m)))) with (2 * INR m + 2) by (rewrite !S_INR, mult_INR; simpl; ring). replace (INR (S (2 * m))) with (2 * INR m + 1) by (rewrite !S_INR, mult_INR; simpl; ring).
  rewrite <- !tech_pow_Rmult. field. repeat split; auto; lra.
Qed.
Lemma st_s_spec P D n : (0 < D)%Z -> let '(s, t, d) := st_s P D n in (0 < d)%Z /\ IZR t / IZR d = sin_term (IZR P / IZR D) n /\ IZR s / IZR d = sin_approx (IZR P / IZR D) n.
Proof.
  intros HD. assert (RD : 0 < IZR D) by (apply IZR_lt; auto). induction n as [|m IH]; cbn [st_s].
  - split; [auto|]. unfold sin_approx, sin_term. cbn [sum_f_R0 Nat.mul Nat.add fact pow INR]. split; field; lra.
  - destruct (st_s P D m) as [[s t] d]. destruct IH as (Hd & Ht & Hs). assert (Rd : 0 < IZR d) by (apply IZR_lt; auto). pose proof (pos_INR m).
    split; [apply Z.mul_pos_pos; [auto|apply Z.mul_pos_pos; nia]|]. rewrite INR_IZR_INZ in *.
    assert (T : IZR (- (t * P * P)) / IZR (d * (D * D * ((2 * Z.of_nat m + 2) * (2 * Z.of_nat m + 3)))) = sin_term (IZR P / IZR D) (S m)).
    { rewrite sin_term_S, <- Ht, INR_IZR_INZ. rewrite opp_IZR, ?mult_IZR, !plus_IZR, !mult_IZR. field. repeat split; lra. }
    split; [exact T|]. unfold sin_approx. cbn [sum_f_R0]. fold (sin_approx (IZR P / IZR D) m). rewrite <- T, <- Hs. rewrite ?plus_IZR, ?opp_IZR, ?mult_IZR, !plus_IZR, !mult_IZR. field. repeat split; lra.
Qed.
Lemma st_c_spec P D n : (0 < D)%Z -> let '(s, t, d) := st_c P D n in (0 < d)%Z /\ IZR t / IZR d = cos_term (IZR P / IZR D) n /\ IZR s / IZR d = cos_approx (IZR P / IZR D) n.
Proof.
  intros HD. assert (RD : 0 < IZR D) by (apply IZR_lt; auto). induction n as [|m IH]; cbn [st_c].
  - split; [lia|]. unfold cos_approx, cos_term. cbn [sum_f_R0 Nat.mul Nat.add fact pow INR]. split; field; lra.
  - destruct (st_c P D m) as [[s t] d]. destruct IH as (Hd & Ht & Hs). assert (Rd : 0 < IZR d) by (apply IZR_lt; auto). pose proof (pos_INR m).
    split; [apply Z.mul_pos_pos; [auto|apply Z.mul_pos_pos; nia]|]. rewrite INR_IZR_INZ in *.
    assert (T : IZR (- (t * P * P)) / IZR (d * (D * D * ((2 * Z.of_nat m + 1) * (2 * Z.of_nat m + 2)))) = cos_term (IZR P / IZR D) (S m)).
    { rewrite cos_term_S, <- Ht, INR_IZR_INZ. rewrite opp_IZR, ?mult_IZR, !plus_IZR, !mult_IZR. field. repeat split; lra. }
    split; [exact T|]. unfold cos_approx. cbn [sum_f_R0]. fold (cos_approx (IZR P / IZR D) m). rewrite <- T, <- Hs. rewrite ?plus_IZR, ?opp_IZR, ?mult_IZR, !plus_IZR, !mult_IZR. field. repeat split; lra.
Qed.
Lemma frac_le a b c d : (0 < b)%Z -> (0 < d)%Z -> (a * d <=? c * b)%Z = true -> IZR a / IZR b <= IZR c / IZR d.
Proof.
  intros Hb Hd H. apply Z.leb_le, IZR_le in H. rewrite !mult_IZR in H. apply IZR_lt in Hb. apply IZR_lt in Hd.
  apply (Rmult_le_reg_r (IZR b * IZR d)); [apply Rmult_lt_0_compat; auto|]. replace (IZR a / IZR b * (IZR b * IZR d)) with (IZR a * IZR d) by (field; lra). replace (IZR c / IZR d * (IZR b * IZR d)) with (IZR c * IZR b) by (field; lra). exact H.
Qed.
Definition ge_s (P D : Z) (n : nat) (a b : Z) : bool := let '(s, _, d) := st_s P D n in ((0 <? D) && (0 <? b) && (a * d <=? s * b))%Z%bool.
Definition le_s (P D : Z) (n : nat) (a b : Z) : bool := let '(s, _, d) := st_s P D n in ((0 <? D) && (0 <? b) && (s * b <=? a * d))%Z%bool.
Definition ge_c (P D : Z) (n : nat) (a b : Z) : bool := let '(s, _, d) := st_c P D n in ((0 <? D) && (0 <? b) && (a * d <=? s * b))%Z%bool.
Definition le_c (P D : Z) (n : nat) (a b : Z) : bool := let '(s, _, d) := st_c P D n in ((0 <? D) && (0 <? b) && (s * b <=? a * d))%Z%bool.
Ltac chk f spec P D n := intros E H; rewrite E; unfold f in H; pose proof (spec P D n) as K; revert H K;
  match goal with |- context [?g P D n] => destruct (g P D n) as [[s t] d] end; intros H K;
  apply andb_prop in H; destruct H as [H H3]; apply andb_prop in H; destruct H as [H1 H2]; apply Z.ltb_lt in H1; apply Z.ltb_lt in H2; destruct (K H1) as (Hd & _ & <-); apply frac_le; auto.
Lemma ge_s_ok x P D n a b : x = IZR P / IZR D -> ge_s P D n a b = true -> IZR a / IZR b <= sin_approx x n. Proof. chk ge_s st_s_spec P D n. Qed.
Lemma le_s_ok x P D n a b : x = IZR P / IZR D -> le_s P D n a b = true -> sin_approx x n <= IZR a / IZR b. Proof. chk le_s st_s_spec P D n. Qed.
Lemma ge_c_ok x P D n a b : x = IZR P / IZR D -> ge_c P D n a b = true -> IZR a / IZR b <= cos_approx x n. Proof. chk ge_c st_c_spec P D n. Qed.
Lemma le_c_ok x P D n a b : x = IZR P / IZR D -> le_c P D n a b = true -> cos_approx x n <= IZR a / IZR b. Proof. chk le_c st_c_spec P D n. Qed.
