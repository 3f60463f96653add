(** Proofs about DpN's box handler. *)
From Coq Require Import List Arith Bool Reals ZArith Lia Lra.
From Verif Require Import Num Exn ListAux NDSModel NewtonModel NewtonProof.
Import ListNotations.
Open Scope R_scope.

Definition ratio (D w : R) : fl := fdiv (Fin D) (Fin (Rabs (Rmin 0 w))).
Lemma ratio_neg D w : w < 0 -> ratio D w = Fin (D / - w).
Proof.
  intros H. unfold ratio, fdiv. rewrite Rmin_right by lra. rewrite Rabs_left by auto.
  replace (reqb (- w) 0) with false; auto. symmetry. apply reqb_false. lra.
Qed.
Lemma ratio_pos D w : 0 <= w -> 0 < D -> ratio D w = PInf.
Proof.
  intros H HD. unfold ratio, fdiv. rewrite Rmin_left by lra. rewrite Rabs_R0.
  replace (reqb 0 0) with true by (symmetry; apply reqb_true; auto). unfold inf_sign.
  replace (rltb 0 D) with true by (symmetry; apply rltb_true; auto). auto.
Qed.
Lemma ratio_nan w : 0 <= w -> ratio 0 w = NaN.
Proof.
  intros H. unfold ratio, fdiv. rewrite Rmin_left by lra. rewrite Rabs_R0.
  replace (reqb 0 0) with true by (symmetry; apply reqb_true; auto). unfold inf_sign.
  replace (rltb 0 0) with false by (symmetry; apply rltb_false; lra). auto.
Qed.
(** what a ratio can be *)
Definition okv (v : fl) : Prop := match v with Fin r => 0 <= r | NInf => False | _ => True end.
Lemma ratio_ok D w : 0 <= D -> okv (ratio D w).
Proof.
  intros H. destruct (Rlt_le_dec w 0) as [Hw|Hw].
  - rewrite ratio_neg by auto. simpl. apply Rle_mult_inv_pos; lra.
  - destruct (Req_dec D 0) as [->|Hne]. rewrite ratio_nan; simpl; auto. rewrite ratio_pos; simpl; auto; lra.
Qed.

Lemma nanmin_ok l : (forall v, In v l -> okv v) ->
  okv (nanmin l) /\ (forall r, In (Fin r) l -> exists r', nanmin l = Fin r' /\ r' <= r) /\
  (forall r, nanmin l = Fin r -> In (Fin r) l).
Proof.
  induction l as [|a l IH]; intros H. simpl. repeat split; auto. intros r []. discriminate.
  destruct IH as (I1 & I2 & I3). { intros; apply H; simpl; auto. }
  pose proof (H a (or_introl eq_refl)) as Ha. destruct a as [x| | |]; simpl in Ha.
  - simpl. destruct (nanmin l) as [y| | |] eqn:E; simpl in I1.
    + unfold fmin. simpl. destruct (rleb x y) eqn:Exy.
      * apply rleb_true in Exy. simpl. split; auto. split.
        intros r [Er|Hr]. injection Er as <-. exists x. split; auto. lra. destruct (I2 r Hr) as (r' & Er' & Hr'). injection Er' as <-. exists x. split; auto. lra.
        intros r Er. injection Er as <-. auto.
      * apply rleb_false in Exy. simpl. split; auto. split.
        intros r [Er|Hr]. injection Er as <-. exists y. split; auto. lra. destruct (I2 r Hr) as (r' & Er' & Hr'). injection Er' as <-. exists y. split; auto.
        intros r Er. injection Er as <-. right. apply I3. auto.
    + unfold fmin. simpl. split; auto. split. intros r [Er|Hr]. injection Er as <-. exists x. split; auto. lra. destruct (I2 r Hr) as (r' & Er' & _). discriminate.
      intros r Er. injection Er as <-. auto.
    + contradiction.
    + split; auto. split. intros r [Er|Hr]. injection Er as <-. exists x. split; auto. lra. destruct (I2 r Hr) as (r' & Er' & _). discriminate.
      intros r Er. injection Er as <-. auto.
  - simpl. destruct (nanmin l) as [y| | |] eqn:E; simpl in I1; unfold fmin; simpl.
    + split; auto. split. intros r [Er|Hr]. discriminate. auto. intros r Er. right. auto.
    + split; auto. split. intros r [Er|Hr]. discriminate. auto. intros r Er. discriminate.
    + contradiction.
    + split; auto. split. intros r [Er|Hr]. discriminate. destruct (I2 r Hr) as (r' & Er' & _). discriminate. intros r Er. discriminate.
  - contradiction.
  - simpl. split; auto. split. intros r [Er|Hr]. discriminate. auto. intros r Er. auto.
Qed.
Lemma cap1_ok v : okv v -> exists m, cap1 v = Fin m /\ 0 <= m <= 1 /\ (forall r, v = Fin r -> m <= r) /\ (m < 1 -> v = Fin m).
Proof.
  destruct v as [r| | |]; simpl; intros H.
  - destruct (rltb r 1) eqn:E. apply rltb_true in E. exists r. repeat split; auto; try lra. intros r' Er. injection Er as <-. lra.
    apply rltb_false in E. exists 1. repeat split; auto; try lra. intros r' Er. injection Er as <-. lra.
  - exists 1. repeat split; auto; try lra. intros r Er. discriminate.
  - contradiction.
  - exists 1. repeat split; auto; try lra. intros r Er. discriminate.
Qed.

Section Box.
Variables (xl xu x : list R).
Hypothesis Hl : length xl = length x.
Hypothesis Hu : length xu = length x.
Let d := length x.
Hypothesis Hbox : forall k, (k < d)%nat -> nth k xl 0 <= nth k x 0 <= nth k xu 0.

Lemma ratios_length step : length step = d -> length (box_ratios xl xu x step) = (d + d)%nat.
Proof using Hl Hu.
  intros Hs. unfold box_ratios. rewrite zip_with_length; rewrite ?app_length, ?map_length, !zip_with_length by congruence.
  unfold d. congruence. unfold d in *. lia.
Qed.
Lemma ratios_low step k : length step = d -> (k < d)%nat ->
  nth k (box_ratios xl xu x step) NaN = ratio (nth k x 0 - nth k xl 0) (nth k step 0).
Proof using Hl Hu Hbox.
  intros Hs Hk. unfold box_ratios. assert (L1 : length (zip_with (fun a b => Rabs (a - b)) x xl) = d) by (rewrite zip_with_length; auto).
  rewrite (zip_with_nth _ _ _ _ 0 0).
  - rewrite !app_nth1 by (rewrite ?L1; lia). rewrite (zip_with_nth _ _ _ _ 0 0) by (unfold d in *; lia). unfold ratio.
    rewrite (Rabs_right (nth k x 0 - nth k xl 0)). auto. pose proof (Hbox k Hk). lra.
  - rewrite app_length, L1. lia.
  - rewrite app_length. lia.
Qed.
Lemma ratios_up step k : length step = d -> (k < d)%nat ->
  nth (d + k) (box_ratios xl xu x step) NaN = ratio (nth k xu 0 - nth k x 0) (- nth k step 0).
Proof using Hl Hu Hbox.
  intros Hs Hk. unfold box_ratios. assert (L1 : length (zip_with (fun a b => Rabs (a - b)) x xl) = d) by (rewrite zip_with_length; auto).
  assert (L2 : length (zip_with (fun a b => Rabs (a - b)) xu x) = d) by (rewrite zip_with_length; auto).
  rewrite (zip_with_nth _ _ _ _ 0 0).
  - rewrite !app_nth2 by (rewrite ?L1; lia). rewrite L1, Hs. replace (d + k - d)%nat with k by lia.
    rewrite (zip_with_nth _ _ _ _ 0 0) by (unfold d in *; lia). unfold ratio.
    rewrite (Rabs_right (nth k xu 0 - nth k x 0)). 2:{ pose proof (Hbox k Hk). lra. }
    rewrite (nth_map_default Ropp step k 0) by lia. auto.
  - rewrite app_length, L1, L2. lia.
  - rewrite app_length, map_length. lia.
Qed.
Lemma ratios_ok step v : length step = d -> In v (box_ratios xl xu x step) -> okv v.
Proof using Hl Hu Hbox.
  intros Hs Hv. apply (In_nth _ _ NaN) in Hv as (k & Hk & <-). rewrite ratios_length in Hk by auto.
  destruct (Nat.lt_ge_cases k d) as [H|H].
  - rewrite ratios_low by auto. apply ratio_ok. pose proof (Hbox k H). lra.
  - replace k with (d + (k - d))%nat by lia. rewrite ratios_up by lia. apply ratio_ok. pose proof (Hbox (k - d)%nat ltac:(lia)). lra.
Qed.

Definition moved_in_box (step : list R) (s : R) : Prop :=
  forall k, (k < d)%nat -> nth k xl 0 <= nth k x 0 + s * nth k step 0 <= nth k xu 0.

(** any step is safe up to its capped minimal ratio *)
Lemma cap_safe step : length step = d -> exists m, cap1 (nanmin (box_ratios xl xu x step)) = Fin m /\ 0 <= m <= 1 /\
  forall s, 0 <= s <= m -> moved_in_box step s.
Proof using Hl Hu Hbox.
  intros Hs. destruct (nanmin_ok (box_ratios xl xu x step)) as (N1 & N2 & _). { intros; eapply ratios_ok; eauto. }
  destruct (cap1_ok _ N1) as (m & Em & Hm & Hr & _). exists m. split; auto. split; auto. intros s Hs' k Hk. pose proof (Hbox k Hk) as Hb.
  assert (Hfin : forall D w, In (Fin (D / - w)) (box_ratios xl xu x step) -> w < 0 -> s * - w <= D).
  { intros D w Hin Hw. destruct (N2 _ Hin) as (r' & Er & Hle). apply Hr in Er.
    replace D with (D / - w * - w) by (field; lra). apply Rmult_le_compat_r; lra. }
  assert (Hlen : length (box_ratios xl xu x step) = (d + d)%nat) by (apply ratios_length; auto).
  destruct (Rtotal_order (nth k step 0) 0) as [H|[H|H]].
  - assert (Hin : In (Fin ((nth k x 0 - nth k xl 0) / - nth k step 0)) (box_ratios xl xu x step)).
    { rewrite <- ratio_neg by auto. rewrite <- ratios_low by auto. apply nth_In. lia. }
    apply Hfin in Hin; auto. nra.
  - rewrite H. lra.
  - assert (Hin : In (Fin ((nth k xu 0 - nth k x 0) / - - nth k step 0)) (box_ratios xl xu x step)).
    { rewrite <- ratio_neg by lra. rewrite <- ratios_up by auto. apply nth_In. lia. }
    apply Hfin in Hin; [|lra]. nra.
Qed.

Lemma normal_length k : length (normal d k) = d.
Proof using Hl Hu Hbox. unfold normal. rewrite map_length, seq_length. auto. Qed.
Lemma normal_nth k j : (j < d)%nat -> nth j (normal d k) 0 = if (j =? k)%nat then 1 else if (d + j =? k)%nat then -1 else 0.
Proof using Hl Hu Hbox. intros H. unfold normal. rewrite (nth_map_default _ _ _ 0%nat) by (rewrite seq_length; auto). rewrite seq_nth by auto. reflexivity. Qed.

Lemma dotR_single (a b : list R) j c : length a = length b -> (j < length a)%nat -> nth j b 0 = c ->
  (forall i, (i < length a)%nat -> i <> j -> nth i b 0 = 0) -> dotR a b = nth j a 0 * c.
Proof using Hl Hu Hbox.
  unfold dotR. revert b j. induction a as [|y a IH]; intros [|z b] j; simpl; intros H1 H2 H3 H4; try lia. destruct j as [|j].
  - subst c. replace (fold_right Rplus 0 (zip_with Rmult a b)) with 0. lra. symmetry.
    assert (H5 : forall i, (i < length a)%nat -> nth i b 0 = 0). { intros i Hi. apply (H4 (S i)); lia. }
    clear -H1 H5. injection H1 as H1. revert b H1 H5. induction a as [|y a IH]; intros [|z b]; simpl; intros H1 H5; auto.
    rewrite IH; auto. pose proof (H5 0%nat ltac:(lia)). simpl in H. subst. lra. intros i Hi. apply (H5 (S i)). lia.
  - rewrite (IH b j); auto; try lia. pose proof (H4 0%nat ltac:(lia) ltac:(lia)). simpl in H. subst z. lra. intros i Hi Hne. apply (H4 (S i)); lia.
Qed.
(** the projection removes one component *)
Lemma project_nth step k j : length step = d -> (k < d + d)%nat -> (j < d)%nat ->
  nth j (zip_with (fun t b => t - dotR step (normal d k) * b) step (normal d k)) 0
  = if (j =? k)%nat || (d + j =? k)%nat then 0 else nth j step 0.
Proof using Hl Hu Hbox.
  intros Hs Hk Hj. rewrite (zip_with_nth _ _ _ _ 0 0) by (rewrite ?normal_length; lia).
  assert (Hdot : forall p c, (p < d)%nat -> (k = p /\ c = 1 \/ k = (d + p)%nat /\ c = -1) -> dotR step (normal d k) = nth p step 0 * c).
  { intros p c Hp Hc. apply dotR_single; rewrite ?normal_length; auto. lia.
    - rewrite normal_nth by auto. destruct Hc as [[-> ->]|[-> ->]]. rewrite Nat.eqb_refl. auto.
      replace (p =? d + p)%nat with false by (symmetry; apply Nat.eqb_neq; lia). rewrite Nat.eqb_refl. auto.
    - intros i Hi Hne. rewrite normal_nth by lia. destruct Hc as [[-> _]|[-> _]].
      replace (i =? p)%nat with false by (symmetry; apply Nat.eqb_neq; lia). replace (d + i =? p)%nat with false by (symmetry; apply Nat.eqb_neq; lia). auto.
      replace (i =? d + p)%nat with false by (symmetry; apply Nat.eqb_neq; lia). replace (d + i =? d + p)%nat with false by (symmetry; apply Nat.eqb_neq; lia). auto. }
  rewrite normal_nth by auto.
  destruct (Nat.eqb_spec j k).
  - rewrite (Hdot j 1) by (auto; lia). simpl. lra.
  - destruct (Nat.eqb_spec (d + j) k). rewrite (Hdot j (-1)) by (auto; lia). simpl. lra. simpl. lra.
Qed.

Lemma first_nan_lt l i k : first_nan l i = Some k -> (i <= k < i + length l)%nat.
Proof using Hl Hu Hbox.
  revert i. induction l as [|a l IH]; intros i; simpl; [discriminate|].
  destruct a; intros H; try (apply IH in H; lia). injection H as <-. lia.
Qed.
Lemma first_min_lt l i b k : (k < i)%nat -> (first_min l i b k < i + length l)%nat.
Proof using Hl Hu Hbox.
  revert i b k. induction l as [|a l IH]; intros i b k H; simpl. lia.
  destruct (fle b a). specialize (IH (S i) b k ltac:(lia)). lia. specialize (IH (S i) a i ltac:(lia)). lia.
Qed.
Lemma argmin_lt l : l <> [] -> (argmin l < length l)%nat.
Proof using Hl Hu Hbox.
  intros H. unfold argmin. destruct (first_nan l 0) eqn:E. apply first_nan_lt in E. lia.
  destruct l as [|a l]; [congruence|]. pose proof (first_min_lt l 1 a 0 ltac:(lia)). simpl. lia.
Qed.

(** C29 *)
Lemma dpn_box_safe step step' m' : length step = d -> dpn_box xl xu x step = (step', m') ->
  length step' = d /\ exists m, m' = Fin m /\ 0 <= m <= 1 /\ (forall s, 0 <= s <= m -> moved_in_box step' s) /\
  exists k, forall j, (j < d)%nat -> nth j step' 0 = if Nat.eqb j k then 0 else nth j step 0.
Proof using Hl Hu Hbox.
  intros Hs E. unfold dpn_box in E. destruct (is_fzero _) eqn:Ez.
  - injection E as E1 E2. fold d in E1, E2. set (k := argmin (box_ratios xl xu x step)) in *.
    assert (Ls' : length step' = d) by (rewrite <- E1, zip_with_length; auto; rewrite normal_length; auto).
    split; auto. rewrite E1 in E2. destruct (cap_safe step' Ls') as (m & Em & Hm & Hsafe). exists m. split; [congruence|]. split; auto. split; auto.
    destruct (Nat.eq_dec d 0) as [Hd|Hd]. { exists 0%nat. intros; lia. }
    assert (Hk : (k < d + d)%nat). { unfold k. rewrite <- (ratios_length step) by auto. apply argmin_lt. intros E. apply (f_equal (@length _)) in E. rewrite ratios_length in E by auto. simpl in E. lia. }
    exists (if (k <? d)%nat then k else (k - d)%nat). intros j Hj. rewrite <- E1. rewrite project_nth by auto.
    destruct (Nat.ltb_spec k d). destruct (Nat.eqb_spec j k); simpl; auto. replace (d + j =? k)%nat with false by (symmetry; apply Nat.eqb_neq; lia). auto.
    replace (j =? k)%nat with false by (symmetry; apply Nat.eqb_neq; lia). simpl. destruct (Nat.eqb_spec (d + j) k), (Nat.eqb_spec j (k - d)); auto; lia.
  - injection E as <- <-. split; auto. destruct (cap_safe step Hs) as (m & Em & Hm & Hsafe). exists m. split; auto. split; auto. split; auto.
    exists d. intros j Hj. replace (j =? d)%nat with false by (symmetry; apply Nat.eqb_neq; lia). auto.
Qed.

(** C30: no other face is touched *)
Lemma first_min_keep l i b k : (forall a, In a l -> fle b a = true) -> first_min l i b k = k.
Proof using Hl Hu Hbox. revert i. induction l as [|a l IH]; intros i H; simpl; auto. rewrite H by (simpl; auto). apply IH. intros; apply H; simpl; auto. Qed.
Definition posv (v : fl) : Prop := match v with Fin r => 0 < r | PInf => True | _ => False end.
Lemma first_min_zero l1 l2 i b k : posv b -> (forall a, In a l1 -> posv a) -> (forall a, In a l2 -> posv a) ->
  first_min (l1 ++ Fin 0 :: l2) i b k = (i + length l1)%nat.
Proof using Hl Hu Hbox.
  revert i b k. induction l1 as [|a l1 IH]; intros i b k Hb H1 H2; simpl.
  - replace (fle b (Fin 0)) with false. rewrite first_min_keep. lia.
    intros a Ha. apply H2 in Ha. destruct a; simpl in *; auto; try contradiction. apply rleb_true. lra.
    destruct b; simpl in *; auto; try contradiction. symmetry. apply rleb_false. auto.
  - destruct (fle b a); rewrite IH; auto; try lia; try (intros; apply H1; simpl; auto).
Qed.
Lemma argmin_zero l1 l2 : (forall a, In a l1 -> posv a) -> (forall a, In a l2 -> posv a) -> argmin (l1 ++ Fin 0 :: l2) = length l1.
Proof using Hl Hu Hbox.
  intros H1 H2. assert (Hn : forall l i, (forall a, In a l -> a <> NaN) -> first_nan l i = None).
  { induction l as [|a l IH]; intros i H; simpl; auto. pose proof (H a (or_introl eq_refl)). destruct a; try congruence; apply IH; intros; apply H; simpl; auto. }
  unfold argmin. rewrite Hn.
  - destruct l1 as [|a l1]; simpl. apply first_min_keep. intros a Ha. apply H2 in Ha. destruct a; simpl in *; auto; try contradiction. apply rleb_true. lra.
    rewrite first_min_zero; auto. apply H1; simpl; auto. intros; apply H1; simpl; auto.
  - intros a Ha. apply in_app_iff in Ha as [Ha|[<-|Ha]]; try discriminate; [apply H1 in Ha|apply H2 in Ha]; destruct a; simpl in *; try congruence; contradiction.
Qed.
Lemma nth_split_at {A} (l : list A) k dflt : (k < length l)%nat -> l = firstn k l ++ nth k l dflt :: skipn (S k) l.
Proof using Hl Hu Hbox. revert k. induction l as [|a l IH]; intros [|k]; simpl; intros H; auto; try lia. f_equal. apply IH. lia. Qed.
Lemma In_firstn_nth {A} (l : list A) k a dflt : In a (firstn k l) -> exists i, (i < k)%nat /\ (i < length l)%nat /\ a = nth i l dflt.
Proof using Hl Hu Hbox.
  revert k. induction l as [|b l IH]; intros [|k]; simpl; intros H; try destruct H as [<-|H]; try contradiction.
  exists 0%nat. repeat split; lia. apply IH in H as (i & H1 & H2 & ->). exists (S i). repeat split; lia.
Qed.
Lemma In_skipn_nth {A} (l : list A) k a dflt : In a (skipn k l) -> exists i, (k <= i)%nat /\ (i < length l)%nat /\ a = nth i l dflt.
Proof using Hl Hu Hbox.
  revert k. induction l as [|b l IH]; intros [|k]; simpl; intros H; try contradiction.
  destruct H as [<-|H]. exists 0%nat. repeat split; lia. apply (IH 0%nat) in H as (i & H1 & H2 & ->). exists (S i). repeat split; lia.
  apply IH in H as (i & H1 & H2 & ->). exists (S i). repeat split; lia.
Qed.
Lemma ratio_posv D w : 0 < D -> posv (ratio D w).
Proof using Hl Hu Hbox.
  intros H. destruct (Rlt_le_dec w 0). rewrite ratio_neg by auto. simpl. apply Rlt_mult_inv_pos; lra. rewrite ratio_pos; simpl; auto.
Qed.
Lemma nanmin_pos l : (forall v, In v l -> v = NaN \/ posv v) -> nanmin l = NaN \/ posv (nanmin l).
Proof using Hl Hu Hbox.
  intros H. destruct (nanmin_ok l) as (N1 & _ & N3). { intros v Hv. destruct (H v Hv) as [->|Hp]. simpl; auto. destruct v; simpl in *; auto; try lra. }
  destruct (nanmin l) as [r| | |]; simpl in *; auto. destruct (H (Fin r)); auto.
Qed.

Lemma dpn_box_project step k : length step = d -> (k < d + d)%nat ->
  (* face k is touched and crossed by the step *)
  nth k (box_ratios xl xu x step) NaN = Fin 0 ->
  (* every other face is at a positive distance *)
  (forall i, (i < d)%nat -> i <> k -> nth i xl 0 < nth i x 0) ->
  (forall i, (i < d)%nat -> (d + i <> k)%nat -> nth i x 0 < nth i xu 0) ->
  exists step' m, dpn_box xl xu x step = (step', Fin m) /\ 0 < m /\
  forall j, (j < d)%nat -> nth j step' 0 = if (j =? k)%nat || (d + j =? k)%nat then 0 else nth j step 0.
Proof using Hl Hu Hbox.
  intros Hs Hk Hz H1 H2. set (L := box_ratios xl xu x step) in *. assert (LL : length L = (d + d)%nat) by (apply ratios_length; auto).
  assert (Hpos : forall i, (i < d + d)%nat -> i <> k -> posv (nth i L NaN)).
  { intros i Hi Hne. destruct (Nat.lt_ge_cases i d) as [H|H].
    - unfold L. rewrite ratios_low by auto. apply ratio_posv. pose proof (H1 i H Hne). lra.
    - unfold L. replace i with (d + (i - d))%nat by lia. rewrite ratios_up by lia. apply ratio_posv. pose proof (H2 (i - d)%nat ltac:(lia) ltac:(lia)). lra. }
  assert (Ha : argmin L = k).
  { rewrite (nth_split_at L k NaN) by lia. rewrite Hz. rewrite argmin_zero.
    - rewrite firstn_length. lia.
    - intros a Ha. apply (In_firstn_nth _ _ _ NaN) in Ha as (i & Hi1 & Hi2 & ->). apply Hpos; lia.
    - intros a Ha. apply (In_skipn_nth _ _ _ NaN) in Ha as (i & Hi1 & Hi2 & ->). apply Hpos; lia. }
  assert (Hm : is_fzero (cap1 (nanmin L)) = true).
  { destruct (nanmin_ok L) as (N1 & N2 & _). { intros v Hv. eapply ratios_ok; eauto. }
    destruct (N2 0) as (r' & Er & Hr). { rewrite <- Hz. apply nth_In. lia. } rewrite Er in N1. simpl in N1. assert (r' = 0) by lra. subst r'. rewrite Er. simpl.
    replace (rltb 0 1) with true by (symmetry; apply rltb_true; lra). simpl. apply reqb_true. auto. }
  set (step' := zip_with (fun t b => t - dotR step (normal d k) * b) step (normal d k)).
  assert (Ls' : length step' = d) by (unfold step'; rewrite zip_with_length; rewrite ?normal_length; auto).
  exists step'. destruct (cap_safe step' Ls') as (m & Em & Hmr & _). exists m. split; [|split].
  - unfold dpn_box. fold d L. rewrite Hm, Ha. fold step'. rewrite Em. auto.
  - destruct (nanmin_pos (box_ratios xl xu x step')) as [E|E].
    + intros v Hv. apply (In_nth _ _ NaN) in Hv as (i & Hi & <-). rewrite ratios_length in Hi by auto.
      destruct (Nat.lt_ge_cases i d) as [H|H].
      * rewrite ratios_low by auto. destruct (Nat.eq_dec i k) as [->|Hne].
        { left. unfold step'. rewrite project_nth, Nat.eqb_refl by auto. simpl.
          replace (nth k x 0 - nth k xl 0) with 0. apply ratio_nan. lra.
          unfold L in Hz. rewrite ratios_low in Hz by auto. pose proof (Hbox k H). destruct (Req_dec (nth k x 0 - nth k xl 0) 0); auto. exfalso.
          assert (P : posv (ratio (nth k x 0 - nth k xl 0) (nth k step 0))) by (apply ratio_posv; lra). rewrite Hz in P. simpl in P. lra. }
        right. apply ratio_posv. pose proof (H1 i H Hne). lra.
      * assert (Ei : i = (d + (i - d))%nat) by lia. set (q := (i - d)%nat) in *. rewrite Ei. rewrite ratios_up by lia. destruct (Nat.eq_dec (d + q) k) as [Hq|Hne].
        { left. unfold step'. rewrite project_nth by (auto; lia). rewrite Hq, Nat.eqb_refl, orb_true_r.
          replace (nth q xu 0 - nth q x 0) with 0. apply ratio_nan. lra.
          unfold L in Hz. rewrite <- Hq in Hz. rewrite ratios_up in Hz by (auto; lia). pose proof (Hbox q ltac:(lia)). destruct (Req_dec (nth q xu 0 - nth q x 0) 0); auto. exfalso.
          assert (P : posv (ratio (nth q xu 0 - nth q x 0) (- nth q step 0))) by (apply ratio_posv; lra). rewrite Hz in P. simpl in P. lra. }
        right. apply ratio_posv. pose proof (H2 q ltac:(lia) Hne). lra.
    + rewrite E in Em. simpl in Em. injection Em as <-. lra.
    + destruct (nanmin (box_ratios xl xu x step')); simpl in E, Em; try contradiction.
      * destruct (rltb r 1); injection Em as <-; lra.
      * injection Em as <-; lra.
  - intros j Hj. unfold step'. apply project_nth; auto.
Qed.
End Box.
