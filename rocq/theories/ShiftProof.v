(** The shift direction. *)
From Coq Require Import List Arith Bool Reals Lia Lra Permutation.
From Verif Require Import Num Exn ListAux StateModel StateProof NewtonModel NewtonProof RefModel RefProof RefSpec RefTop RefShift ShiftModel ShiftSpec.
Import ListNotations.
Open Scope R_scope.

(** ** finite sums *)
Lemma bigsum_ext n f g : (forall k, (k < n)%nat -> f k = g k) -> bigsum n f = bigsum n g.
Proof.
  intros H. unfold bigsum. assert (K : forall l, (forall k, In k l -> (k < n)%nat) -> fold_right Rplus 0 (map f l) = fold_right Rplus 0 (map g l)).
  { induction l as [|a l IH]; intros Hl; simpl; auto. rewrite H, IH; auto; intros; apply Hl; simpl; auto. }
  apply K. intros k Hk. apply in_seq in Hk. lia.
Qed.
Lemma bigsum_plus n f g : bigsum n (fun k => f k + g k) = bigsum n f + bigsum n g.
Proof. unfold bigsum. induction (seq 0 n) as [|a l IH]; simpl; lra. Qed.
Lemma bigsum_scal n c f : bigsum n (fun k => c * f k) = c * bigsum n f.
Proof. unfold bigsum. induction (seq 0 n) as [|a l IH]; simpl; lra. Qed.
Lemma bigsum_0 n : bigsum n (fun _ => 0) = 0.
Proof. unfold bigsum. induction (seq 0 n) as [|a l IH]; simpl; lra. Qed.
Lemma bigsum_swap n p (f : nat -> nat -> R) : bigsum n (fun k => bigsum p (f k)) = bigsum p (fun i => bigsum n (fun k => f k i)).
Proof.
  assert (K : forall l, fold_right Rplus 0 (map (fun k => bigsum p (f k)) l) = bigsum p (fun i => fold_right Rplus 0 (map (fun k => f k i) l))).
  { induction l as [|a l IH]; cbn [map fold_right]. symmetry. apply bigsum_0. rewrite IH. symmetry. apply bigsum_plus. }
  apply K.
Qed.
Lemma bigsum_delta n i f : (i < n)%nat -> bigsum n (fun k => f k * (if (k =? i)%nat then 1 else 0)) = f i.
Proof.
  intros H. unfold bigsum. assert (K : forall l, NoDup l -> In i l -> fold_right Rplus 0 (map (fun k => f k * (if (k =? i)%nat then 1 else 0)) l) = f i).
  { induction l as [|a l IH]; intros Hn Hin; [contradiction|]. simpl. inversion Hn; subst. destruct (Nat.eqb_spec a i) as [->|Hne].
    - replace (fold_right Rplus 0 _) with 0; [lra|]. symmetry. clear IH Hn Hin H3. induction l as [|b l IH]; simpl; auto. simpl in H2.
      destruct (Nat.eqb_spec b i); [subst; tauto|]. rewrite IH; [lra|tauto].
    - destruct Hin as [->|Hin]; [congruence|]. rewrite IH; auto. lra. }
  apply K. apply seq_NoDup. apply in_seq. lia.
Qed.

(** ** minimisers *)
Lemma argmin_from_min : forall l b k i (L : list R), L <> [] ->
  (forall q, (q < i)%nat -> b <= nth q L 0) -> nth k L 0 = b -> (forall q, nth q l 0 = nth (i + q)%nat L 0) ->
  (length L = i + length l)%nat -> forall q, (q < length L)%nat -> nth (argmin_from b k i l) L 0 <= nth q L 0.
Proof.
  induction l as [|a l IH]; intros b k i L HL Hb Hk Hl Hlen q Hq; simpl.
  - rewrite Hk. apply Hb. simpl in Hlen. lia.
  - assert (Ha : a = nth i L 0) by (specialize (Hl 0%nat); simpl in Hl; rewrite Nat.add_0_r in Hl; auto).
    destruct (rltb a b) eqn:E.
    + apply rltb_true in E. apply IH; auto. intros p Hp. destruct (Nat.eq_dec p i) as [->|]. lra. specialize (Hb p ltac:(lia)). lra.
      intros p. specialize (Hl (S p)). simpl in Hl. rewrite Hl. f_equal. lia. simpl in Hlen. lia.
    + apply rltb_false in E. apply IH; auto. intros p Hp. destruct (Nat.eq_dec p i) as [->|]. lra. apply Hb. lia.
      intros p. specialize (Hl (S p)). simpl in Hl. rewrite Hl. f_equal. lia. simpl in Hlen. lia.
Qed.
Lemma argminR_min l q : (q < length l)%nat -> nth (argminR l) l 0 <= nth q l 0.
Proof.
  destruct l as [|a l]; simpl; [lia|]. intros H. apply (argmin_from_min l a 0 1 (a :: l)); try discriminate; auto.
  intros p Hp. assert (p = 0)%nat by lia. subst. simpl. lra.
Qed.
Lemma minimiser_least m Y j : Y <> [] -> (j < m)%nat -> least j Y (nth j (minimisers m Y) []).
Proof.
  intros HY Hj. unfold minimisers. rewrite (nth_indep _ [] ((fun j => nth (argminR (column j Y)) Y []) 0%nat)) by (rewrite map_length, seq_length; auto).
  rewrite (map_nth (fun j => nth (argminR (column j Y)) Y [])), seq_nth by auto. cbn [Nat.add].
  assert (Hlen : length (column j Y) = length Y) by apply map_length.
  assert (Hlt : (argminR (column j Y) < length Y)%nat). { rewrite <- Hlen. apply argminR_lt. destruct Y; [congruence|discriminate]. }
  split. apply nth_In; auto. intros y Hy. destruct (In_nth Y y [] Hy) as (q & Hq & <-).
  pose proof (argminR_min (column j Y) q ltac:(lia)) as H. unfold column in H at 2 3.
  rewrite !(nth_indep (map (fun r => nth j r 0) Y) 0 (nth j [] 0)) in H by (rewrite map_length; auto).
  rewrite !(map_nth (fun r => nth j r 0)) in H. exact H.
Qed.
Lemma minimisers_length m Y : length (minimisers m Y) = m.
Proof. unfold minimisers. rewrite map_length, seq_length. auto. Qed.
Lemma differences_length Z : length (differences Z) = (length Z - 1)%nat.
Proof. destruct Z; simpl; auto. rewrite map_length. lia. Qed.
Lemma zip_minus_nth a : forall b k, length a = length b -> nth k (zip_with Rminus a b) 0 = nth k a 0 - nth k b 0.
Proof. induction a as [|x a IH]; intros [|y b] k H; try discriminate; destruct k; simpl; auto; lra. Qed.
Lemma differences_nth Z m j k : (forall z, In z Z -> length z = m) -> (S j < length Z)%nat ->
  nth k (nth j (differences Z) []) 0 = nth k (nth (S j) Z []) 0 - nth k (nth 0 Z []) 0.
Proof.
  intros H Hj. destruct Z as [|z0 Zs]; simpl in Hj; [lia|]. cbn [differences nth].
  rewrite (nth_indep _ [] (zip_with Rminus [] z0)) by (rewrite map_length; lia). rewrite (map_nth (fun z => zip_with Rminus z z0)).
  apply zip_minus_nth. rewrite (H z0) by (simpl; auto). apply H. right. apply nth_In. lia.
Qed.

(** ** the last column *)
Lemma last_orthogonal m cols Q : orthonormal m Q -> triangular m cols Q -> (length cols < m)%nat ->
  forall j, (j < length cols)%nat -> bigsum m (fun k => entry Q k (m - 1) * nth k (nth j cols []) 0) = 0.
Proof.
  intros (HL & HO) (T & HT & HE) Hm j Hj.
  rewrite (bigsum_ext m _ (fun k => bigsum m (fun i => entry Q k (m - 1) * (entry Q k i * T i j)))).
  2:{ intros k Hk. rewrite HE by auto. rewrite bigsum_scal. auto. }
  rewrite bigsum_swap. rewrite (bigsum_ext m _ (fun i => T i j * (if (i =? m - 1)%nat then 1 else 0))).
  2:{ intros i Hi. rewrite (bigsum_ext m _ (fun k => T i j * (entry Q k (m - 1) * entry Q k i))) by (intros; ring).
      rewrite bigsum_scal, HO by lia. rewrite Nat.eqb_sym. auto. }
  rewrite (bigsum_delta m (m - 1) (fun i => T i j)) by lia. apply HT. lia.
Qed.
Lemma sum_sq_neg_abs f l : fold_right Rplus 0 (map (fun a => a * a) (map (fun r => - Rabs (f r)) l)) = fold_right Rplus 0 (map (fun r : list R => f r * f r) l).
Proof. induction l as [|a l IH]; simpl; auto. rewrite IH. f_equal. replace (- Rabs (f a) * - Rabs (f a)) with (Rabs (f a) * Rabs (f a)) by ring. rewrite <- Rabs_mult, Rabs_right; auto. apply Rle_ge, Rle_0_sqr. Qed.
Lemma fold_bigsum (f : list R -> R) Q : fold_right Rplus 0 (map f Q) = bigsum (length Q) (fun k => f (nth k Q [])).
Proof.
  unfold bigsum. f_equal. apply (list_eq_nth 0). rewrite !map_length, seq_length; auto. intros i Hi. rewrite map_length in Hi.
  rewrite (nth_indep _ 0 (f [])) by (rewrite map_length; auto). rewrite map_nth.
  rewrite (nth_indep _ 0 (f (nth 0 Q []))) by (rewrite map_length, seq_length; auto). rewrite (map_nth (fun k => f (nth k Q []))). rewrite seq_nth; auto.
Qed.
Lemma normalise_spec m Q : (0 < m)%nat -> orthonormal m Q -> normalise_neg m Q = Some (map (fun r => - Rabs (nth (m - 1) r 0)) Q).
Proof.
  intros Hm (HL & HO). unfold normalise_neg. rewrite sum_sq_neg_abs.
  assert (E : fold_right Rplus 0 (map (fun r => nth (m - 1) r 0 * nth (m - 1) r 0) Q) = 1).
  { rewrite (fold_bigsum (fun r => nth (m - 1) r 0 * nth (m - 1) r 0)), HL. specialize (HO (m - 1)%nat (m - 1)%nat ltac:(lia) ltac:(lia)). rewrite Nat.eqb_refl in HO. exact HO. }
  rewrite E, sqrt_1. destruct (reqb 1 0) eqn:E1. apply reqb_true in E1. lra. f_equal. rewrite <- (map_id (map _ Q)) at 2. apply map_ext. intros. field.
Qed.
Lemma neg_abs_nth m Q k : (k < length Q)%nat -> nth k (map (fun r => - Rabs (nth (m - 1) r 0)) Q) 0 = - Rabs (entry Q k (m - 1)).
Proof. intros H. rewrite (nth_indep _ 0 (- Rabs (nth (m - 1) [] 0))) by (rewrite map_length; auto). rewrite (map_nth (fun r => - Rabs (nth (m - 1) r 0))). reflexivity. Qed.

Section Chim.
Variable qr : nat -> list (list R) -> res (list (list R)).
Hypothesis Hqr : qr_ok qr.
(** everything about the result: it is - |q| for the last column q, which is orthogonal to the differences *)
Lemma chim_core m Y r : Y <> [] -> (0 < m)%nat -> (forall y, In y Y -> length y = m) -> compute_chim qr m Y = Ok r ->
  exists q n, r = Some n /\ length n = m /\ (forall k, (k < m)%nat -> nth k n 0 = - Rabs (q k)) /\ bigsum m (fun k => q k * q k) = 1 /\
  forall j, (j < m)%nat -> bigsum m (fun k => q k * (nth k (nth j (minimisers m Y) []) 0 - nth k (nth 0 (minimisers m Y) []) 0)) = 0.
Proof using Hqr.
  intros HY Hm Hw E. unfold compute_chim in E.
  assert (E' : (do Q <- qr m (differences (minimisers m Y)); Ok (normalise_neg m Q)) = Ok r). { destruct Y; [congruence|]. destruct m; [lia|]. exact E. } clear E.
  destruct (qr m (differences (minimisers m Y))) as [Q|] eqn:EQ; [|discriminate]. cbn [bind] in E'. injection E' as <-.
  destruct (Hqr _ _ _ EQ) as (HO & HT). pose proof (differences_length (minimisers m Y)) as HL. rewrite minimisers_length in HL.
  exists (fun k => entry Q k (m - 1)). eexists. split; [apply normalise_spec; auto|]. destruct HO as [HLQ HO]. split; [rewrite map_length; auto|].
  split; [intros k Hk; apply neg_abs_nth; lia|]. split.
  { specialize (HO (m - 1)%nat (m - 1)%nat ltac:(lia) ltac:(lia)). rewrite Nat.eqb_refl in HO. auto. }
  assert (HZ : forall z, In z (minimisers m Y) -> length z = m).
  { intros z Hz. destruct (In_nth _ _ [] Hz) as (j & Hj & <-). rewrite minimisers_length in Hj. apply Hw. apply (minimiser_least m Y j HY Hj). }
  intros [|j] Hj.
  - rewrite (bigsum_ext m _ (fun _ => 0)). apply bigsum_0. intros. ring.
  - etransitivity; [|exact (last_orthogonal m _ Q (conj HLQ HO) HT ltac:(lia) j ltac:(lia))]. apply bigsum_ext. intros k Hk.
    rewrite (differences_nth _ m) by (auto; rewrite minimisers_length; lia). auto.
Qed.
Lemma chim_unit m Y r : Y <> [] -> (0 < m)%nat -> (forall y, In y Y -> length y = m) -> compute_chim qr m Y = Ok r ->
  exists n, r = Some n /\ length n = m /\ dot m n n = 1 /\ forall k, (k < m)%nat -> nth k n 0 <= 0.
Proof using Hqr.
  intros HY Hm Hw E. destruct (chim_core m Y r HY Hm Hw E) as (q & n & -> & HL & Hn & Hq & _). exists n. split; auto. split; auto. split.
  - unfold dot. rewrite <- Hq. apply bigsum_ext. intros k Hk. rewrite Hn by auto. replace (- Rabs (q k) * - Rabs (q k)) with (Rabs (q k) * Rabs (q k)) by ring. rewrite <- Rabs_mult, Rabs_right; auto. apply Rle_ge, Rle_0_sqr.
  - intros k Hk. rewrite Hn by auto. pose proof (Rabs_pos (q k)). lra.
Qed.
Lemma dot_sum m u v : dot m u v = bigsum m (fun k => nth k u 0 * nth k v 0). Proof. reflexivity. Qed.
Lemma chim_normal m Y r : Y <> [] -> (0 < m)%nat -> (forall y, In y Y -> length y = m) -> compute_chim qr m Y = Ok r ->
  exists n z, r = Some n /\ (forall j, (j < m)%nat -> least j Y (z j)) /\
  ((forall v, length v = m -> normal_to m z v -> one_sign m v) -> normal_to m z n).
Proof using Hqr.
  intros HY Hm Hw E. destruct (chim_core m Y r HY Hm Hw E) as (q & n & -> & HL & Hn & Hq & Ho).
  exists n, (fun j => nth j (minimisers m Y) []). split; auto. split; [intros; apply minimiser_least; auto|]. intros Hs.
  set (v := map q (seq 0 m)).
  assert (Hv : forall k, (k < m)%nat -> nth k v 0 = q k). { intros k Hk. unfold v. rewrite (nth_indep _ 0 (q 0%nat)) by (rewrite map_length, seq_length; auto). rewrite map_nth, seq_nth; auto. }
  assert (Hdiff : forall j, (j < m)%nat -> bigsum m (fun k => q k * nth k (nth j (minimisers m Y) []) 0) = bigsum m (fun k => q k * nth k (nth 0 (minimisers m Y) []) 0)).
  { intros j Hj. specialize (Ho j Hj). rewrite (bigsum_ext m _ (fun k => q k * nth k (nth j (minimisers m Y) []) 0 + -1 * (q k * nth k (nth 0 (minimisers m Y) []) 0))) in Ho by (intros; ring).
    rewrite bigsum_plus, bigsum_scal in Ho. lra. }
  assert (Hvn : normal_to m (fun j => nth j (minimisers m Y) []) v).
  { intros j Hj. unfold dot. rewrite (bigsum_ext m _ (fun k => q k * nth k (nth j (minimisers m Y) []) 0)) by (intros; rewrite Hv; auto).
    rewrite Hdiff by auto. apply bigsum_ext. intros. rewrite Hv; auto. }
  destruct (Hs v) as [Hp|Hp]; auto. unfold v. rewrite map_length, seq_length; auto.
  - intros j Hj. unfold dot. rewrite (bigsum_ext m _ (fun k => -1 * (q k * nth k (nth j (minimisers m Y) []) 0))).
    2:{ intros k Hk. rewrite Hn by auto. specialize (Hp k Hk). rewrite Hv in Hp by auto. rewrite Rabs_right by lra. ring. }
    rewrite bigsum_scal, Hdiff by auto. rewrite <- bigsum_scal. apply bigsum_ext. intros k Hk. rewrite Hn by auto. specialize (Hp k Hk). rewrite Hv in Hp by auto. rewrite Rabs_right by lra. ring.
  - intros j Hj. unfold dot. rewrite (bigsum_ext m _ (fun k => q k * nth k (nth j (minimisers m Y) []) 0)).
    2:{ intros k Hk. rewrite Hn by auto. specialize (Hp k Hk). rewrite Hv in Hp by auto. rewrite Rabs_left1 by lra. ring. }
    rewrite Hdiff by auto. apply bigsum_ext. intros k Hk. rewrite Hn by auto. specialize (Hp k Hk). rewrite Hv in Hp by auto. rewrite Rabs_left1 by lra. ring.
Qed.
Lemma chim_two Y r : Y <> [] -> (forall y, In y Y -> length y = 2%nat) -> compute_chim qr 2 Y = Ok r ->
  exists n z, r = Some n /\ (forall j, (j < 2)%nat -> least j Y (z j)) /\ normal_to 2 z n.
Proof using Hqr.
  intros HY Hw E. destruct (chim_core 2 Y r HY ltac:(lia) Hw E) as (q & n & -> & HL & Hn & Hq & Ho).
  exists n, (fun j => nth j (minimisers 2 Y) []). split; auto. split; [intros; apply minimiser_least; auto|].
  pose proof (minimiser_least 2 Y 0 HY ltac:(lia)) as [I0 L0]. pose proof (minimiser_least 2 Y 1 HY ltac:(lia)) as [I1 L1].
  specialize (L0 _ I1). specialize (L1 _ I0). specialize (Ho 1%nat ltac:(lia)). unfold bigsum in Ho. cbn [seq map fold_right] in Ho.
  set (a0 := nth 0 (minimisers 2 Y) []) in *. set (a1 := nth 1 (minimisers 2 Y) []) in *.
  intros [|[|j]] Hj; [reflexivity| |lia]. unfold dot, bigsum. cbn [seq map fold_right]. rewrite !Hn by lia. fold a1.
  set (x := nth 0 a1 0 - nth 0 a0 0) in *. set (y := nth 1 a1 0 - nth 1 a0 0) in *.
  assert (G : Rabs (q 0%nat) * x + Rabs (q 1%nat) * y = 0).
  { assert (Hx : 0 <= x) by (unfold x; lra). assert (Hy : y <= 0) by (unfold y; lra).
    assert (H : Rabs (q 0%nat * x) = Rabs (q 1%nat * y)). { replace (q 0%nat * x) with (- (q 1%nat * y)) by lra. apply Rabs_Ropp. }
    rewrite !Rabs_mult, (Rabs_right x), (Rabs_left1 y) in H by lra. lra. }
  fold a0. assert (nth 0 a1 0 = x + nth 0 a0 0) by (unfold x; ring). assert (nth 1 a1 0 = y + nth 1 a0 0) by (unfold y; ring).
  rewrite H, H0. lra.
Qed.
End Chim.
