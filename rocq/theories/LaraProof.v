From Coq Require Import List Arith Bool Lia Reals Lra Psatz ZArith Permutation.
From Verif Require Import ListAux Num Exn NewtonModel NewtonProof NewtonBox NewtonPop LaraModel LaraSpec.
Import ListNotations.
Open Scope R_scope.

(** ** norms *)
Lemma inner_self v : fold_right Rplus 0 (map (fun a => a * a) v) = inner v v.
Proof. induction v as [|a v IH]; cbn; auto. rewrite IH. reflexivity. Qed.
Lemma norm_len v : norm v = len v.
Proof. unfold norm, len. rewrite inner_self. reflexivity. Qed.
Lemma inner_self_nonneg v : 0 <= inner v v.
Proof. induction v as [|a v IH]; cbn [inner]; [lra|]. pose proof (Rle_0_sqr a) as H. unfold Rsqr in H. lra. Qed.
Lemma len_nonneg v : 0 <= len v.
Proof. apply sqrt_pos. Qed.
Lemma len_sq v : len v * len v = inner v v.
Proof. apply sqrt_sqrt, inner_self_nonneg. Qed.
Lemma inner_ge v c : nth c v 0 * nth c v 0 <= inner v v.
Proof.
  revert c. induction v as [|a v IH]; intros [|c]; cbn [inner nth]; try lra.
  - pose proof (inner_self_nonneg v). lra.
  - specialize (IH c). pose proof (Rle_0_sqr a) as H. unfold Rsqr in H. lra.
Qed.
Lemma len_ge v c : Rabs (nth c v 0) <= len v.
Proof. apply Rsqr_incr_0_var; [|apply len_nonneg]. rewrite <- Rsqr_abs. unfold Rsqr. rewrite len_sq. apply inner_ge. Qed.
Lemma len_pos v c : nth c v 0 <> 0 -> 0 < len v.
Proof. intros H. pose proof (len_ge v c). apply Rabs_pos_lt in H. lra. Qed.

(** ** [compute_step] *)
Lemma all_points_some (f : list R -> point) g l : (forall a, In a l -> f a = Some (g a)) -> all_points (map f l) = Some (map g l).
Proof.
  induction l as [|a l IH]; intros H; cbn; auto. rewrite (H a (or_introl eq_refl)), IH; auto. intros; apply H; right; auto.
Qed.
Lemma nth_direction J c : nth c (minus_sum (S c) (map (fun v => map (fun a => a / len v) v) J)) 0 = direction J c.
Proof.
  unfold minus_sum, direction. rewrite (nth_map_default _ _ _ 0%nat) by (rewrite seq_length; lia). rewrite seq_nth by lia. cbn [Nat.add]. f_equal. f_equal. rewrite map_map. apply map_ext. intros v.
  destruct (Nat.lt_ge_cases c (length v)) as [H|H].
  - rewrite (nth_map_default _ _ _ 0) by auto. reflexivity.
  - rewrite !nth_overflow; rewrite ?map_length; auto. unfold Rdiv. ring.
Qed.
Lemma compute_step_regular n d J : regular n d J -> compute_step n d J = Ok (Some (map (direction J) (seq 0 d))).
Proof.
  intros (Hn & Hv). unfold compute_step. rewrite Hn, Nat.ltb_irrefl. rewrite <- Hn, firstn_all.
  rewrite (all_points_some unit_row (fun v => map (fun a => a / len v) v)).
  - f_equal. f_equal. unfold minus_sum. apply map_ext. intros c. pose proof (nth_direction J c) as E. unfold minus_sum in E.
    rewrite (nth_map_default _ _ _ 0%nat) in E by (rewrite seq_length; lia). rewrite seq_nth in E by lia. exact E.
  - intros v Hi. destruct (Hv v Hi) as (_ & c & _ & Hc). unfold unit_row. rewrite norm_len. apply len_pos in Hc. destruct (reqb (len v) 0) eqn:E; auto. apply reqb_true in E. lra.
Qed.
Lemma direction_bound n d J c : regular n d J -> Rabs (direction J c) <= INR n.
Proof.
  intros (Hn & Hv). unfold direction. rewrite Rabs_Ropp. rewrite <- Hn. clear Hn n. induction J as [|v J IH]; [cbn; rewrite Rabs_R0; lra|].
  cbn [map fold_right length]. rewrite S_INR. eapply Rle_trans; [apply Rabs_triang|]. rewrite Rplus_comm. apply Rplus_le_compat; [apply IH; intros; apply Hv; right; auto|].
  destruct (Hv v (or_introl eq_refl)) as (_ & c' & _ & Hc). apply len_pos in Hc. unfold Rdiv. rewrite Rabs_mult, (Rabs_right (/ len v)) by (apply Rle_ge, Rlt_le, Rinv_0_lt_compat; auto).
  apply Rmult_le_reg_r with (len v); auto. rewrite Rmult_assoc, Rinv_l by lra. pose proof (len_ge v c). lra.
Qed.

(** ** the box *)
Lemma entry_inf D : entry (inf_sign D) = if Req_EM_T D 0 then NaN else PInf.
Proof.
  unfold inf_sign. destruct (Req_EM_T D 0) as [->|H].
  - rewrite (proj2 (rltb_false 0 0)) by lra. reflexivity.
  - destruct (rltb 0 D) eqn:E1; [reflexivity|]. apply rltb_false in E1. rewrite (proj2 (rltb_true D 0)) by lra. reflexivity.
Qed.
Lemma entry_low D s : 0 <= D -> entry (fdiv (Fin D) (Fin s)) =
  if Rlt_dec s 0 then (if Req_EM_T D 0 then PInf else Fin (D / - s)) else if Req_EM_T s 0 then (if Req_EM_T D 0 then NaN else PInf) else PInf.
Proof.
  intros HD. unfold fdiv. destruct (reqb s 0) eqn:E.
  - apply reqb_true in E. destruct (Rlt_dec s 0); [lra|]. destruct (Req_EM_T s 0); [|contradiction]. apply entry_inf.
  - apply reqb_false in E. cbn [entry]. destruct (Rlt_dec s 0) as [Hs|Hs].
    + destruct (Req_EM_T D 0) as [->|HD0].
      * rewrite (proj2 (rleb_true _ _)); auto. unfold Rdiv. lra.
      * rewrite (proj2 (rleb_false _ _)). { f_equal. field. lra. } assert (0 < D * / - s) by (apply Rmult_lt_0_compat; [lra|apply Rinv_0_lt_compat; lra]). replace (D / s) with (- (D * / - s)) by (field; lra). lra.
    + destruct (Req_EM_T s 0); [contradiction|]. rewrite (proj2 (rleb_true _ _)); auto. apply Rmult_le_pos; auto. apply Rlt_le, Rinv_0_lt_compat. lra.
Qed.
Lemma entry_up D s : entry (fdiv (Fin (- D)) (Fin s)) = entry (fdiv (Fin D) (Fin (- s))).
Proof.
  unfold fdiv. destruct (Req_EM_T s 0) as [->|Hs].
  - rewrite Ropp_0. rewrite (proj2 (reqb_true 0 0) eq_refl). rewrite !entry_inf. destruct (Req_EM_T (- D) 0), (Req_EM_T D 0); auto; lra.
  - rewrite (proj2 (reqb_false s 0)) by auto. rewrite (proj2 (reqb_false (- s) 0)) by lra. replace (- D / s) with (D / - s) by (field; lra). reflexivity.
Qed.
Lemma entry_okv D s : 0 <= D -> okv (entry (fdiv (Fin D) (Fin s))).
Proof.
  intros HD. rewrite entry_low by auto. destruct (Rlt_dec s 0); [destruct (Req_EM_T D 0); cbn; auto|destruct (Req_EM_T s 0); cbn; auto; destruct (Req_EM_T D 0); cbn; auto].
  apply Rmult_le_pos; auto. apply Rlt_le, Rinv_0_lt_compat. lra.
Qed.
Lemma entry_fin D s r : 0 <= D -> entry (fdiv (Fin D) (Fin s)) = Fin r -> s < 0 /\ r = D / - s.
Proof.
  intros HD. rewrite entry_low by auto. destruct (Rlt_dec s 0); [destruct (Req_EM_T D 0)|destruct (Req_EM_T s 0); [destruct (Req_EM_T D 0)|]]; intros E; try discriminate. injection E as <-. auto.
Qed.
Lemma entry_nan D s : 0 <= D -> entry (fdiv (Fin D) (Fin s)) = NaN -> D = 0.
Proof.
  intros HD. rewrite entry_low by auto. destruct (Rlt_dec s 0); [destruct (Req_EM_T D 0)|destruct (Req_EM_T s 0); [destruct (Req_EM_T D 0)|]]; intros E; try discriminate. auto.
Qed.
Lemma nanmin_some l v : (forall v, In v l -> okv v) -> In v l -> v <> NaN -> nanmin l <> NaN.
Proof.
  induction l as [|a l IH]; intros Hok Hv Hn; [destruct Hv|]. pose proof (Hok a (or_introl eq_refl)) as Ha.
  assert (Hok' : forall v, In v l -> okv v) by (intros; apply Hok; right; auto).
  destruct a as [x| | |]; cbn in Ha; [| |contradiction|].
  - cbn [nanmin]. destruct (nanmin l) as [y| | |]; unfold fmin; cbn; try discriminate. destruct (rleb x y); discriminate.
  - cbn [nanmin]. destruct (nanmin l) as [y| | |]; unfold fmin; cbn; try discriminate.
  - cbn [nanmin]. destruct Hv as [<-|Hv]; [congruence|]. auto.
Qed.

(** blocked steps *)
Lemma blocked_cases l u x s : l <= x <= u -> let b := blocked l u x s in
  (b = s \/ b = 0 /\ (s < 0 /\ x - l <= / 10 ^ 10 \/ 0 < s /\ u - x <= / 10 ^ 10)) /\
  (b < 0 -> / 10 ^ 10 < x - l) /\ (0 < b -> / 10 ^ 10 < u - x) /\ (b = s \/ b = 0).
Proof.
  intros H. cbv zeta. unfold blocked, on_bound. rewrite !Rabs_Rabsolu, !Rabs_right by lra.
  destruct (rleb (x - l) (/ 10 ^ 10)) eqn:E1; destruct (rltb s 0) eqn:E2; cbn [andb];
    destruct (rleb (u - x) (/ 10 ^ 10)) eqn:E3; cbn [andb]; rewrite ?rleb_true, ?rleb_false, ?rltb_true, ?rltb_false in *.
  all: try (rewrite (proj2 (rltb_false 0 0)) by lra; repeat split; try lra; right; split; auto; lra).
  all: try (destruct (rltb 0 s) eqn:E4; rewrite ?rltb_true, ?rltb_false in *; repeat split; try lra; first [left; reflexivity | right; split; auto; lra | right; reflexivity]).
  all: try (repeat split; try lra; first [left; reflexivity | right; split; auto; lra | right; reflexivity]).
Qed.
Lemma blocked_row_length xl xu x step : length xl = length x -> length xu = length x -> length step = length x -> length (blocked_row xl xu x step) = length x.
Proof.
  revert xl xu step. induction x as [|a x IH]; intros [|l xl] [|u xu] [|s step] H1 H2 H3; try discriminate; auto. cbn in *. f_equal. apply IH; lia.
Qed.
Lemma blocked_row_nth xl xu x step k : length xl = length x -> length xu = length x -> length step = length x -> (k < length x)%nat ->
  nth k (blocked_row xl xu x step) 0 = blocked (nth k xl 0) (nth k xu 0) (nth k x 0) (nth k step 0).
Proof.
  revert xl xu step k. induction x as [|a x IH]; intros [|l xl] [|u xu] [|s step] [|k] H1 H2 H3 Hk; try discriminate; cbn in *; auto; try lia. apply IH; lia.
Qed.
Section Row.
Variables (xl xu x st : list R).
Hypothesis Hl : length xl = length x.
Hypothesis Hu : length xu = length x.
Hypothesis Hs : length st = length x.
Hypothesis Hb : forall k, (k < length x)%nat -> nth k xl 0 <= nth k x 0 <= nth k xu 0.
Lemma in_ratios v : In v (ratios xl xu x st) <-> exists k, (k < length x)%nat /\
  (v = entry (fdiv (Fin (nth k x 0 - nth k xl 0)) (Fin (nth k st 0))) \/ v = entry (fdiv (Fin (nth k xu 0 - nth k x 0)) (Fin (- nth k st 0)))).
Proof using Hl Hu Hs Hb.
  unfold ratios. rewrite in_app_iff.
  assert (L1 : length (zip_with (fun a l => Rabs (a - l)) x xl) = length x) by (apply zip_with_length; auto).
  assert (L2 : length (zip_with (fun u a => Rabs (u - a)) xu x) = length x) by (rewrite zip_with_length; auto).
  assert (E1 : forall k, (k < length x)%nat -> nth k (zip_with (fun d s => entry (fdiv (Fin d) (Fin s))) (zip_with (fun a l => Rabs (a - l)) x xl) st) NaN =
    entry (fdiv (Fin (nth k x 0 - nth k xl 0)) (Fin (nth k st 0)))).
  { intros k Hk. rewrite (zip_with_nth _ _ _ _ 0 0) by (rewrite ?L1; lia). rewrite (zip_with_nth _ _ _ _ 0 0) by lia. rewrite Rabs_right by (specialize (Hb k Hk); lra). reflexivity. }
  assert (E2 : forall k, (k < length x)%nat -> nth k (zip_with (fun d s => entry (fdiv (Fin (- d)) (Fin s))) (zip_with (fun u a => Rabs (u - a)) xu x) st) NaN =
    entry (fdiv (Fin (nth k xu 0 - nth k x 0)) (Fin (- nth k st 0)))).
  { intros k Hk. rewrite (zip_with_nth _ _ _ _ 0 0) by (rewrite ?L2; lia). rewrite (zip_with_nth _ _ _ _ 0 0) by lia. rewrite Rabs_right by (specialize (Hb k Hk); lra). apply entry_up. }
  assert (M1 : length (zip_with (fun d s => entry (fdiv (Fin d) (Fin s))) (zip_with (fun a l => Rabs (a - l)) x xl) st) = length x) by (rewrite zip_with_length; congruence).
  assert (M2 : length (zip_with (fun d s => entry (fdiv (Fin (- d)) (Fin s))) (zip_with (fun u a => Rabs (u - a)) xu x) st) = length x) by (rewrite zip_with_length; congruence).
  split.
  - intros [H|H]; apply (In_nth _ _ NaN) in H; destruct H as (k & Hk & <-); [rewrite M1 in Hk; rewrite E1 by auto|rewrite M2 in Hk; rewrite E2 by auto]; exists k; auto.
  - intros (k & Hk & [-> | ->]); [left; rewrite <- E1 by auto; apply nth_In; rewrite M1; auto|right; rewrite <- E2 by auto; apply nth_In; rewrite M2; auto].
Qed.
Lemma ratios_okv v : In v (ratios xl xu x st) -> okv v.
Proof using Hl Hu Hs Hb. intros H. apply in_ratios in H. destruct H as (k & Hk & [-> | ->]); apply entry_okv; specialize (Hb k Hk); lra. Qed.
(** [B] bounds the entries of the step and no entry leads out of the box at once *)
Lemma ratios_min B : 0 < B -> (exists k, (k < length x)%nat /\ nth k xl 0 < nth k xu 0) ->
  (forall k, (k < length x)%nat -> Rabs (nth k st 0) <= B /\ (nth k st 0 < 0 -> / 10 ^ 10 < nth k x 0 - nth k xl 0) /\ (0 < nth k st 0 -> / 10 ^ 10 < nth k xu 0 - nth k x 0)) ->
  exists m, minimum1 (nanmin (ratios xl xu x st)) = Fin m /\ Rmin 1 (/ 10 ^ 10 / B) <= m <= 1 /\
  forall s, 0 <= s <= m -> forall k, (k < length x)%nat -> nth k xl 0 <= nth k x 0 + nth k st 0 * s <= nth k xu 0.
Proof using Hl Hu Hs Hb.
  intros HB (k0 & Hk0 & Hlt) Hst. destruct (nanmin_ok _ ratios_okv) as (N1 & N2 & N3).
  assert (Hn : nanmin (ratios xl xu x st) <> NaN).
  { pose proof (Hb k0 Hk0) as Hbk. destruct (Req_EM_T (nth k0 x 0 - nth k0 xl 0) 0) as [E|E].
    - apply (nanmin_some _ (entry (fdiv (Fin (nth k0 xu 0 - nth k0 x 0)) (Fin (- nth k0 st 0)))) ratios_okv); [apply in_ratios; exists k0; auto|]. intros En. apply entry_nan in En; lra.
    - apply (nanmin_some _ (entry (fdiv (Fin (nth k0 x 0 - nth k0 xl 0)) (Fin (nth k0 st 0)))) ratios_okv); [apply in_ratios; exists k0; auto|]. intros En. apply entry_nan in En; lra. }
  assert (Hm : exists m, minimum1 (nanmin (ratios xl xu x st)) = Fin m /\ m <= 1 /\ (forall r, nanmin (ratios xl xu x st) = Fin r -> m <= r) /\ (m = 1 \/ In (Fin m) (ratios xl xu x st))).
  { destruct (nanmin (ratios xl xu x st)) as [r| | |] eqn:E; [| |contradiction|congruence].
    - exists (Rmin 1 r). split; [reflexivity|]. split; [apply Rmin_l|]. split; [intros r' Er; injection Er as <-; apply Rmin_r|].
      unfold Rmin. destruct (Rle_dec 1 r); auto.
    - exists 1. split; [reflexivity|]. split; [lra|]. split; [intros r Er; discriminate|auto]. }
  destruct Hm as (m & Em & H1 & Hr & Hi). exists m. split; auto. split; [split; auto|].
  - destruct Hi as [-> |Hi]; [apply Rmin_l|]. apply Rle_trans with (/ 10 ^ 10 / B); [apply Rmin_r|]. apply in_ratios in Hi. destruct Hi as (k & Hk & Hi).
    pose proof (Hb k Hk) as Hbk. destruct (Hst k Hk) as (HBk & Hlo & Hup).
    assert (K : forall D s, s < 0 -> / 10 ^ 10 < D -> Rabs s <= B -> / 10 ^ 10 / B <= D / - s).
    { intros D s Hs0 HD HBs. rewrite Rabs_left in HBs by auto. assert (0 < / 10 ^ 10) by (apply Rinv_0_lt_compat; apply pow_lt; lra).
      apply Rle_trans with (/ 10 ^ 10 / - s); [apply Rmult_le_compat_l; [lra|]; apply Rinv_le_contravar; lra|]. apply Rmult_le_compat_r; [|lra]. apply Rlt_le, Rinv_0_lt_compat. lra. }
    destruct Hi as [Hi|Hi]; symmetry in Hi; apply entry_fin in Hi; try lra; destruct Hi as (Hneg & ->); apply K; auto; [apply Hup; lra|rewrite Rabs_Ropp; auto].
  - intros s Hs' k Hk. pose proof (Hb k Hk) as Hbk. destruct (Hst k Hk) as (HBk & Hlo & Hup).
    assert (Hfin : forall D w, 0 < D -> w < 0 -> In (entry (fdiv (Fin D) (Fin w))) (ratios xl xu x st) -> s * - w <= D).
    { intros D w HD Hw Hin. assert (E : entry (fdiv (Fin D) (Fin w)) = Fin (D / - w)). { rewrite entry_low by lra. destruct (Rlt_dec w 0); [|contradiction]. destruct (Req_EM_T D 0); [lra|reflexivity]. }
      rewrite E in Hin. destruct (N2 _ Hin) as (r' & Er & Hle). apply Hr in Er. replace D with (D / - w * - w) by (field; lra). apply Rmult_le_compat_r; lra. }
    assert (P10 : 0 < / 10 ^ 10) by (apply Rinv_0_lt_compat; apply pow_lt; lra).
    destruct (Rtotal_order (nth k st 0) 0) as [H|[H|H]].
    + assert (Hin : s * - nth k st 0 <= nth k x 0 - nth k xl 0). { apply Hfin; auto. specialize (Hlo H). lra. apply in_ratios. exists k. auto. } nra.
    + rewrite H. lra.
    + assert (Hin : s * - - nth k st 0 <= nth k xu 0 - nth k x 0). { apply Hfin; auto. specialize (Hup H). lra. lra. apply in_ratios. exists k. auto. } nra.
Qed.
End Row.
Lemma box_row_safe xl xu x st B : length xl = length x -> length xu = length x -> length st = length x ->
  (forall k, (k < length x)%nat -> nth k xl 0 <= nth k x 0 <= nth k xu 0) -> (exists k, (k < length x)%nat /\ nth k xl 0 < nth k xu 0) ->
  0 < B -> (forall k, (k < length x)%nat -> Rabs (nth k st 0) <= B) ->
  exists st' m, box_row xl xu x st = (st', Fin m) /\ length st' = length x /\ Rmin 1 (/ 10 ^ 10 / B) <= m <= 1 /\
  (forall k, (k < length x)%nat -> kept_or_blocked (nth k xl 0) (nth k xu 0) (nth k x 0) (nth k st 0) (nth k st' 0)) /\
  forall s, 0 <= s <= m -> forall k, (k < length x)%nat -> nth k xl 0 <= nth k x 0 + nth k st' 0 * s <= nth k xu 0.
Proof.
  intros Hl Hu Hs Hb He HB HBk. set (st' := blocked_row xl xu x st). assert (Hs' : length st' = length x) by (apply blocked_row_length; auto).
  assert (Hn : forall k, (k < length x)%nat -> nth k st' 0 = blocked (nth k xl 0) (nth k xu 0) (nth k x 0) (nth k st 0)) by (intros; apply blocked_row_nth; auto).
  destruct (ratios_min xl xu x st' Hl Hu Hs' Hb B HB He) as (m & Em & Hm & Hin).
  { intros k Hk. rewrite Hn by auto. destruct (blocked_cases _ _ _ (nth k st 0) (Hb k Hk)) as (_ & H1 & H2 & H3). split; [|auto]. destruct H3 as [-> | ->]; auto. rewrite Rabs_R0. lra. }
  exists st', m. unfold box_row. fold st'. rewrite Em. split; auto. split; auto. split; auto. split; auto.
  intros k Hk. rewrite Hn by auto. apply (blocked_cases _ _ _ (nth k st 0) (Hb k Hk)).
Qed.

(** ** the minimum of the population *)
Lemma pymin_fin l : l <> [] -> (forall v, In v l -> exists m, v = Fin m) -> exists m, pymin l = Ok (Fin m) /\ In (Fin m) l /\ forall r, In (Fin r) l -> m <= r.
Proof.
  destruct l as [|a l]; intros Hn H; [congruence|]. unfold pymin. clear Hn. revert a H. induction l as [|b l IH]; intros a H.
  - destruct (H a (or_introl eq_refl)) as (m & ->). exists m. split; [reflexivity|]. split; [left; auto|]. intros r [E|[]]. injection E as <-. lra.
  - destruct (H a (or_introl eq_refl)) as (m & Ea). destruct (H b (or_intror (or_introl eq_refl))) as (n & Eb). subst a b. cbn [fold_left]. cbn [flt].
    destruct (rltb n m) eqn:E; rewrite ?rltb_true, ?rltb_false in E.
    + destruct (IH (Fin n)) as (k & Ek & Hk & Hle). { intros v [<-|Hv]; eauto. apply H. right. right. auto. }
      exists k. split; auto. split; [right; exact Hk|]. intros r [Er|Hr]; [injection Er as <-; specialize (Hle n (or_introl eq_refl)); lra|auto].
    + destruct (IH (Fin m)) as (k & Ek & Hk & Hle). { intros v [<-|Hv]; eauto. apply H. right. right. auto. }
      exists k. split; auto. split; [destruct Hk as [<-|Hk]; [left; auto|right; right; auto]|]. intros r [Er|[Er|Hr]]; [apply Hle; left; auto|injection Er as <-; specialize (Hle m (or_introl eq_refl)); lra|apply Hle; right; auto].
Qed.
Lemma traverse_ok {A B} (f : A -> res B) g l : (forall a, In a l -> f a = Ok (g a)) -> traverse f l = Ok (map g l).
Proof. induction l as [|a l IH]; intros H; cbn; auto. rewrite (H a (or_introl eq_refl)). cbn. rewrite IH; auto. intros; apply H; right; auto. Qed.
Lemma zip_map {A B C D} (f : B -> C -> D) (g : A -> B) (h : A -> C) l : zip_with f (map g l) (map h l) = map (fun a => f (g a) (h a)) l.
Proof. induction l; cbn; auto. f_equal; auto. Qed.
Lemma distance_sym p q : distance p q = distance q p.
Proof.
  destruct p as [p|], q as [q|]; auto. cbn. unfold dist2. f_equal. revert q. induction p as [|a p IH]; intros [|b q]; cbn; auto. rewrite IH. f_equal. ring.
Qed.
