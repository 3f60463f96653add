(** Property theorems: reference-set generation. *)
From Coq Require Import List Arith Bool Reals ZArith Lia Lra Permutation Sorted.
From Verif Require Import Num Exn ListAux NewtonModel RefModel RefProof ProbModel RsgModel RsgProof.
Import ListNotations.
Open Scope R_scope.

(** * Specification *)
(** rounding to the nearest integer, halves upwards *)
Definition nearest (x : R) (z : Z) : Prop := IZR z - / 2 <= x < IZR z + / 2.
(** Euclidean length of the polyline through the points *)
Definition edist (p q : list R) : R := sqrt (fold_right Rplus 0 (map (fun ab => (fst ab - snd ab) * (fst ab - snd ab)) (combine p q))).
Fixpoint polyline (P : list (list R)) : R := match P with p :: t => match t with q :: _ => edist p q + polyline t | [] => 0 end | [] => 0 end.
(** length of a component: its points joined from left to right *)
Definition has_length (X : list (list R)) (l : R) : Prop :=
  exists P, Permutation P X /\ StronglySorted (fun p q => nth 0 p 0 <= nth 0 q 0) P /\ l = polyline P.
(** the components: one for each label but -1, in increasing order of the labels *)
Definition are_components (labels : list Z) (Py : list (list R)) (C : list (list (list R))) : Prop :=
  exists ks, StronglySorted Z.lt ks /\ (forall k, In k ks <-> k <> (-1)%Z /\ In k labels) /\
    Forall2 (fun k X => forall r, In r X <-> exists i, nth_error labels i = Some k /\ nth_error Py i = Some r) ks C.
Definition zsum (l : list Z) : Z := fold_right Z.add 0%Z l.
Definition rtotal (l : list R) : R := fold_right Rplus 0 l.

(** * The model meets the specification *)
Lemma edist_eq p : forall q, dist p q = edist p q.
Proof.
  intros q. unfold dist, norm2, edist. f_equal. revert q. induction p as [|a p IH]; intros [|b q]; simpl; auto. rewrite <- IH. ring.
Qed.
Lemma polyline_eq P : path_length P = polyline P.
Proof. induction P as [|p [|q P] IH]; auto. change (dist p q + path_length (q :: P) = edist p q + polyline (q :: P)). rewrite IH, edist_eq. auto. Qed.
Lemma insert_row_sorted r l : StronglySorted (fun p q => nth 0 p 0 <= nth 0 q 0) l -> StronglySorted (fun p q => nth 0 p 0 <= nth 0 q 0) (insert_row r l).
Proof.
  induction 1 as [|q l Hs IH Hq]; cbn [insert_row]; [repeat constructor|]. unfold rleb, x0. destruct (Rle_dec (nth 0 r 0) (nth 0 q 0)).
  - constructor; [constructor; auto|]. constructor; auto. rewrite Forall_forall in *. intros y Hy. specialize (Hq y Hy). lra.
  - constructor; auto. rewrite Forall_forall in *. intros y Hy. apply (Permutation_in _ (insert_row_perm r l)) in Hy. destruct Hy as [<-|Hy]; [lra|auto].
Qed.
Lemma comp_length_spec X : has_length X (comp_length X).
Proof.
  exists (ssort X). split; [apply ssort_perm|]. split; [|apply polyline_eq]. unfold ssort. induction X; simpl; [constructor|]. apply insert_row_sorted. auto.
Qed.
Lemma filter_sorted f (l : list Z) : StronglySorted Z.lt l -> StronglySorted Z.lt (filter f l).
Proof.
  induction 1 as [|a l Hs IH Ha]; simpl; [constructor|]. destruct (f a); auto. constructor; auto. rewrite Forall_forall in *. intros x Hx. apply filter_In in Hx. apply Ha. tauto.
Qed.
Lemma components_spec labels Py : length labels = length Py -> are_components labels Py (components labels Py).
Proof.
  intros HL. unfold components. exists (filter (fun k => negb (k =? -1)%Z) (unique labels)). split; [apply filter_sorted, unique_sorted|]. split.
  - intros k. rewrite filter_In, unique_in, negb_true_iff, Z.eqb_neq. tauto.
  - induction (filter _ (unique labels)) as [|k ks IH]; simpl; constructor; auto. intros r. apply pick_in. auto.
Qed.
Lemma comp_nonneg X : 0 <= comp_length X.
Proof. apply path_nonneg. Qed.
Lemma total_nonneg (C : list (list (list R))) : 0 <= fold_right Rplus 0 (map comp_length C).
Proof. induction C as [|X C IH]; simpl; [lra|]. pose proof (comp_nonneg X). lra. Qed.
Section Rsg.
Variable dbscan : list (list R) -> list Z.
Variable qsort : list (list R) -> list (list R).
Hypothesis qsort_perm : forall l, Permutation (qsort l) l.
Hypothesis dbscan_len : forall Py, length (dbscan Py) = length Py.
Definition share (Nf : Z) (T : R) (X : list (list R)) : R := IZR Nf * comp_length X / T.
Definition part (Nf : Z) (T : R) (X : list (list R)) : res (list (list R)) :=
  if reqb T 0 then Exn ValueError else interpolate_tst qsort X (matlab_round (share Nf T X)).
Lemma rsg_unfold Py Nf : rsg dbscan qsort 2 Py Nf =
  (do parts <- mapM (part Nf (rtotal (map comp_length (components (dbscan Py) Py)))) (components (dbscan Py) Py); Ok (concat parts)).
Proof.
  unfold rsg. cbn [Nat.eqb]. fold (rtotal (map comp_length (components (dbscan Py) Py))). set (C := components _ _). set (T := rtotal _). clearbody T. f_equal. induction C as [|X C IH]; cbn [map combine mapM]; auto. rewrite IH. auto.
Qed.
Lemma share_nonneg Nf T X : (0 <= Nf)%Z -> 0 < T -> 0 <= share Nf T X.
Proof. intros H HT. apply IZR_le in H. unfold share, Rdiv. apply Rmult_le_pos; [apply Rmult_le_pos; [lra|apply comp_nonneg]|apply Rlt_le, Rinv_0_lt_compat; auto]. Qed.
Lemma parts_count Nf T C parts : (0 <= Nf)%Z -> 0 < T -> (forall X, In X C -> X <> []) -> mapM (part Nf T) C = Ok parts ->
  Z.of_nat (length (concat parts)) = zsum (map (fun X => matlab_round (share Nf T X)) C).
Proof.
  intros HN HT. revert parts. induction C as [|X C IH]; intros parts HC E; cbn [mapM] in E; [injection E as <-; auto|].
  destruct (part Nf T X) as [o|] eqn:Eo; [|discriminate]. cbn [bind] in E. destruct (mapM (part Nf T) C) as [os|] eqn:Eos; [|discriminate]. cbn [bind] in E. injection E as <-.
  cbn [concat map zsum fold_right]. rewrite app_length, Nat2Z.inj_add, (IH os (fun Y HY => HC Y (or_intror HY)) eq_refl). unfold zsum. f_equal.
  unfold part in Eo. destruct (reqb T 0); [discriminate|]. apply (interpolate_length _ qsort_perm) in Eo; [|apply HC; simpl; auto]. destruct Eo as [H1 ->]. apply Z2Nat.id. auto.
Qed.
Lemma shares_sum Nf T C : T <> 0 -> rtotal (map (share Nf T) C) = IZR Nf * rtotal (map comp_length C) / T.
Proof.
  intros HT. induction C as [|X C IH]; [unfold rtotal; simpl; field; auto|]. unfold rtotal in *. cbn [map fold_right]. rewrite IH. unfold share. field. auto.
Qed.
Lemma round_sum_bound C f : (forall X : list (list R), 0 <= f X) -> Rabs (IZR (zsum (map (fun X => matlab_round (f X)) C)) - rtotal (map f C)) <= INR (length C) / 2.
Proof.
  intros Hf. induction C as [|X C IH].
  - unfold rtotal, zsum. cbn [map fold_right length INR]. rewrite Rminus_0_r, Rabs_R0. lra.
  - unfold rtotal, zsum in *. cbn [map fold_right length]. rewrite plus_IZR, S_INR. set (a := fold_right Z.add 0%Z _) in *. set (b := fold_right Rplus 0 _) in *. destruct (round_spec (f X) (Hf X)) as [_ H].
    revert IH. unfold Rabs. repeat destruct (Rcase_abs _); lra.
Qed.
Lemma parts_pos Nf C parts : mapM (part Nf (rtotal (map comp_length C))) C = Ok parts -> C <> [] -> 0 < rtotal (map comp_length C).
Proof.
  intros Ep Hn. pose proof (total_nonneg C) as H. fold (rtotal (map comp_length C)) in H. set (T := rtotal _) in *. destruct (Req_dec T 0) as [E0|]; [|lra]. exfalso. clearbody T. destruct C as [|X C']; [congruence|]. cbn [mapM] in Ep. unfold part at 1 in Ep. unfold reqb in Ep. destruct (Req_EM_T T 0); [discriminate|contradiction].
Qed.
End Rsg.

(** * C53 *)
(** the number of points is the sum of the rounded shares of the components *)
Theorem C53_count_partial : forall dbscan qsort, (forall l, Permutation (qsort l) l) -> (forall Py, length (dbscan Py) = length Py) ->
  forall Py Nf out, (0 <= Nf)%Z -> rsg dbscan qsort 2 Py Nf = Ok out ->
  exists C ls ns, are_components (dbscan Py) Py C /\ Forall2 has_length C ls /\ Forall2 (fun l n => nearest (IZR Nf * l / rtotal ls) n) ls ns /\
    Z.of_nat (length out) = zsum ns.
Proof.
  intros dbscan qsort Hq Hd Py Nf out HN E. rewrite rsg_unfold in E. pose proof (components_spec _ _ (Hd Py)) as HC. pose proof (components_nonempty (dbscan Py) Py) as Hne. set (C := components _ _) in *. set (T := rtotal _) in *.
  destruct (mapM _ C) as [parts|] eqn:Ep; [|discriminate]. cbn [bind] in E. injection E as <-.
  exists C, (map comp_length C), (map (fun X => matlab_round (share Nf T X)) C). split; auto. split; [|split].
  - clear. induction C; simpl; constructor; auto. apply comp_length_spec.
  - fold T. pose proof (parts_pos _ _ _ _ Ep) as HT. fold T in HT. clearbody T. clear Ep Hne HC. assert (H : forall X, In X C -> nearest (share Nf T X) (matlab_round (share Nf T X))).
    { intros X HX. apply round_spec. apply share_nonneg; auto. apply HT. intros E. rewrite E in HX. destruct HX. }
    clear HT. induction C as [|X C IH]; cbn [map]; constructor; [apply H; simpl; auto|apply IH; intros; apply H; simpl; auto].
  - destruct C as [|X C'] eqn:EC; [cbn [mapM] in Ep; injection Ep as <-; auto|]. apply (parts_count _ Hq Nf T); auto. apply (parts_pos _ _ _ _ Ep). discriminate.
Qed.
Print Assumptions C53_count_partial.
(** so it differs from the requested number by at most half the number of components *)
Theorem C53_error : forall dbscan qsort, (forall l, Permutation (qsort l) l) -> (forall Py, length (dbscan Py) = length Py) ->
  forall Py Nf out, (0 <= Nf)%Z -> rsg dbscan qsort 2 Py Nf = Ok out ->
  exists C, are_components (dbscan Py) Py C /\ (C <> [] -> Rabs (INR (length out) - IZR Nf) <= INR (length C) / 2).
Proof.
  intros dbscan qsort Hq Hd Py Nf out HN E. rewrite rsg_unfold in E. pose proof (components_spec _ _ (Hd Py)) as HC. pose proof (components_nonempty (dbscan Py) Py) as Hne. set (C := components _ _) in *. set (T := rtotal _) in *.
  destruct (mapM _ C) as [parts|] eqn:Ep; [|discriminate]. cbn [bind] in E. injection E as <-. exists C. split; auto. intros Hn.
  pose proof (parts_pos _ _ _ _ Ep Hn) as HT. fold T in HT.
  rewrite INR_IZR_INZ, (parts_count _ Hq Nf T C parts HN HT) by auto.
  replace (IZR Nf) with (rtotal (map (share Nf T) C)) by (rewrite shares_sum by lra; fold T; field; lra). apply round_sum_bound. intros X. apply share_nonneg; auto.
Qed.
Print Assumptions C53_error.
(** with a single component the number is the requested one *)
Theorem C53_single : forall dbscan qsort, (forall l, Permutation (qsort l) l) -> (forall Py, length (dbscan Py) = length Py) ->
  forall Py Nf out k, (0 <= Nf)%Z -> (forall j, In j (dbscan Py) -> j = (-1)%Z \/ j = k) -> In k (dbscan Py) -> k <> (-1)%Z -> rsg dbscan qsort 2 Py Nf = Ok out -> Z.of_nat (length out) = Nf.
Proof.
  intros dbscan qsort Hq Hd Py Nf out k HN H1 H2 H3 E. destruct (C53_error dbscan qsort Hq Hd Py Nf out HN E) as (C & (ks & Hs & Hk & HF) & He).
  assert (Ek : ks = [k]).
  { destruct ks as [|a [|b ks]].
    - exfalso. apply (proj2 (Hk k)). auto.
    - destruct (proj1 (Hk a)) as [N I]; [simpl; auto|]. destruct (H1 a I); [contradiction|]. congruence.
    - exfalso. inversion Hs as [|? ? _ Ha]; subst. inversion Ha; subst. destruct (proj1 (Hk a)) as [N I]; [simpl; auto|]. destruct (proj1 (Hk b)) as [N' I']; [simpl; auto|]. destruct (H1 a I), (H1 b I'); try contradiction. lia. }
  subst ks. inversion HF as [|? X ? ? ? HF']; subst. inversion HF'; subst. specialize (He ltac:(discriminate)). cbn [length INR] in He. rewrite INR_IZR_INZ, <- minus_IZR in He.
  assert (G : -1 < IZR (Z.of_nat (length out) - Nf) < 1) by (revert He; unfold Rabs; destruct (Rcase_abs _); lra). destruct G as [G1 G2]. apply (lt_IZR (-1)) in G1. apply lt_IZR in G2. lia.
Qed.
Print Assumptions C53_single.
(** it succeeds if every component gets a point or consists of one point only *)
Theorem C53_succeeds : forall dbscan qsort, (forall l, Permutation (qsort l) l) -> (forall Py, length (dbscan Py) = length Py) ->
  forall m Py Nf, Forall (fun r => length r = m) Py -> (0 <= Nf)%Z -> 
  (forall C ls, are_components (dbscan Py) Py C -> Forall2 has_length C ls -> 0 < rtotal ls) ->
  (forall C ls X l, are_components (dbscan Py) Py C -> Forall2 has_length C ls -> In (X, l) (combine C ls) -> / 2 <= IZR Nf * l / rtotal ls \/ (forall p q, In p X -> In q X -> p = q)) ->
  exists out, rsg dbscan qsort 2 Py Nf = Ok out.
Proof.
  intros dbscan qsort Hq Hd m Py Nf HF HN HT HS. rewrite rsg_unfold. pose proof (components_spec _ _ (Hd Py)) as HC. set (C := components _ _) in *. set (T := rtotal _).
  assert (HL : Forall2 has_length C (map comp_length C)) by (clear; induction C; simpl; constructor; auto; apply comp_length_spec). specialize (HT C _ HC HL). fold T in HT.
  destruct (mapM_total (part qsort Nf T) C) as (parts & Ep); [|rewrite Ep; cbn [bind]; eauto].
  intros X HX. unfold part. unfold reqb. destruct (Req_EM_T T 0); [lra|]. apply interpolate_total; auto.
  assert (Hin : In (X, comp_length X) (combine C (map comp_length C))). { clear -HX. induction C as [|Y C IH]; [destruct HX|]. simpl. destruct HX as [<-|HX]; auto. }
  destruct (HS C _ X _ HC HL Hin) as [G|G].
  - left. fold T in G. fold (share Nf T X) in G. destruct (round_spec (share Nf T X) ltac:(lra)) as [R1 R2]. assert (0 < IZR (matlab_round (share Nf T X))) by lra. apply lt_IZR in H. lia.
  - right. split; auto. assert (Z0 : comp_length X = 0). { unfold comp_length. assert (G' : forall p q, In p (ssort X) -> In q (ssort X) -> p = q) by (intros p q Hp Hq'; apply G; eapply Permutation_in; try apply ssort_perm; auto). induction (ssort X) as [|p [|q P] IH]; auto. change (dist p q + path_length (q :: P) = 0). rewrite IH by (intros; apply G'; simpl in *; tauto). replace q with p by (apply G'; simpl; auto). rewrite (proj2 (dist_zero p p eq_refl) eq_refl). ring. }
    unfold share. rewrite Z0. replace (IZR Nf * 0 / T) with (IZR 0) by (field; lra). apply round_int. lia.
Qed.
Print Assumptions C53_succeeds.
(** every point lies on the path through the points of its component *)
Theorem C53_on_path : forall dbscan qsort, (forall l, Permutation (qsort l) l) -> (forall Py, length (dbscan Py) = length Py) ->
  forall m Py Nf out, Forall (fun r => length r = m) Py -> rsg dbscan qsort 2 Py Nf = Ok out -> forall y, In y out ->
  exists C X, are_components (dbscan Py) Py C /\ In X C /\
    (In y X \/ exists p q lam, In p X /\ In q X /\ 0 <= lam <= 1 /\ y = map (fun ab => (1 - lam) * fst ab + lam * snd ab) (combine p q)).
Proof.
  intros dbscan qsort Hq Hd m Py Nf out HF E y Hy. rewrite rsg_unfold in E. pose proof (components_spec _ _ (Hd Py)) as HC. set (C := components _ _) in *. set (T := rtotal _) in *.
  destruct (mapM _ C) as [parts|] eqn:Ep; [|discriminate]. cbn [bind] in E. injection E as <-. apply in_concat in Hy. destruct Hy as (o & Ho & Hy).
  apply In_nth_error in Ho. destruct Ho as (i & Hi). assert (Li : (i < length C)%nat) by (rewrite <- (mapM_length _ _ _ Ep); apply nth_error_Some; congruence).
  destruct (nth_error C i) as [X|] eqn:EX; [|apply nth_error_None in EX; lia]. pose proof (mapM_nth _ _ _ _ _ _ Ep EX Hi) as Eo. exists C, X. split; auto. split; [eapply nth_error_In; eauto|].
  unfold part in Eo. destruct (reqb T 0); [discriminate|].
  assert (HX : Forall (fun r => length r = m) X). { destruct HC as (ks & _ & _ & HC). clear -HC EX HF. revert i EX. induction HC as [|k Y ks C Hk HC IH]; intros [|i] EX; try discriminate; cbn [nth_error] in EX; eauto. injection EX as ->. apply Forall_forall. intros r Hr. apply Hk in Hr. destruct Hr as (j & _ & Hj). rewrite Forall_forall in HF. apply HF. eapply nth_error_In; eauto. }
  destruct (interpolate_on _ Hq m X _ _ HX Eo y Hy) as [G|(j & lam & Hj & Hl & Ey)]; auto. right.
  assert (HP : forall r, In r (dedupe (qsort X)) -> In r X) by (intros r Hr; apply (proj1 (dedupe_in _ _)) in Hr; eapply Permutation_in; [apply Hq|auto]).
  exists (nth j (dedupe (qsort X)) []), (nth (S j) (dedupe (qsort X)) []), lam. split; [apply HP, nth_In; lia|]. split; [apply HP, nth_In; lia|]. auto.
Qed.
Print Assumptions C53_on_path.
(** a component without extent leaves the shares undefined: [int] of NaN *)
Theorem C53_no_extent_refuted : forall dbscan qsort Py Nf, (forall r, In r Py -> r = [0; 0]) -> length (dbscan Py) = length Py -> In 0%Z (dbscan Py) -> rsg dbscan qsort 2 Py Nf = Exn ValueError.
Proof.
  intros dbscan qsort Py Nf HP HL H0. rewrite rsg_unfold. pose proof (components_spec _ _ HL) as HC. set (C := components _ _) in *. assert (HT : rtotal (map comp_length C) = 0).
  { assert (HX : forall X, In X C -> forall r, In r X -> r = [0; 0]). { destruct HC as (ks & _ & _ & HC). clear -HC HP. induction HC as [|k Y ks C Hk HC IH]; intros X HX; [destruct HX|]. destruct HX as [<-|HX]; [|apply IH; auto]. intros r Hr. apply Hk in Hr. destruct Hr as (j & _ & Hj). apply HP. eapply nth_error_In; eauto. }
    clear -HX. induction C as [|X C IH]; auto. unfold rtotal in *. cbn [map fold_right]. rewrite IH by (intros; eapply HX; [right; eauto|auto]). rewrite Rplus_0_r. assert (HY : forall r, In r (ssort X) -> r = [0; 0]) by (intros r Hr; apply (HX X); [simpl; auto|]; eapply Permutation_in; [apply ssort_perm|auto]).
    unfold comp_length. clear -HY. induction (ssort X) as [|p [|q P] IH]; auto. change (dist p q + path_length (q :: P) = 0). rewrite IH by (intros; apply HY; simpl in *; tauto). rewrite (HY p), (HY q) by (simpl; auto). rewrite (proj2 (dist_zero [0; 0] [0; 0] eq_refl) eq_refl). ring. }
  rewrite HT. destruct C as [|X C'].
  - destruct HC as (ks & _ & Hk & HF). inversion HF; subst. exfalso. apply (proj2 (Hk 0%Z)). split; [lia|auto].
  - cbn [mapM]. unfold part at 1. unfold reqb. destruct (Req_EM_T 0 0); [reflexivity|contradiction].
Qed.
Print Assumptions C53_no_extent_refuted.
(** only two objectives are handled *)
Theorem C53_objectives_refuted : forall dbscan qsort m Py Nf, m <> 2%nat -> rsg dbscan qsort m Py Nf = Exn UnboundLocalError.
Proof. intros. unfold rsg. destruct (Nat.eqb_spec m 2); [contradiction|auto]. Qed.
Print Assumptions C53_objectives_refuted.

(** two components of the same length and an odd number: one point too many; a component with too small a share: IndexError *)
Definition halves (Py : list (list R)) : list Z := map (fun i => if (i <? 2)%nat then 0%Z else 1%Z) (seq 0 (length Py)).
Lemma halves_len Py : length (halves Py) = length Py.
Proof. unfold halves. rewrite map_length, seq_length. auto. Qed.
Lemma two_sorted a b c d : a < c -> ssort [[a; b]; [c; d]] = [[a; b]; [c; d]].
Proof. intros H. cbn. unfold rleb, x0. cbn. destruct (Rle_dec a c); [auto|lra]. Qed.
Lemma two_length a b c d l : a < c -> 0 <= l -> (c - a) * (c - a) + (d - b) * (d - b) = l * l -> comp_length [[a; b]; [c; d]] = l.
Proof.
  intros H Hl E. unfold comp_length. rewrite two_sorted by auto. cbn. unfold dist, norm2. cbn. rewrite Rplus_0_r, Rplus_0_r, E, sqrt_square; lra.
Qed.
Lemma two_zero a b c d : a < c -> interpolate_tst ssort [[a; b]; [c; d]] 0 = Exn IndexError.
Proof.
  intros H. unfold interpolate_tst. rewrite two_sorted by auto. cbn [Z.ltb Z.compare]. assert (ED : dedupe [[a; b]; [c; d]] = [[a; b]; [c; d]]). { cbn. unfold reqb. destruct (Req_EM_T a c); [lra|auto]. }
  rewrite ED. assert (HL : 0 < path_length [[a; b]; [c; d]]). { apply (path_pos 2); [repeat constructor| |simpl; lia]. split; [intros E; injection E; lra|simpl; auto]. }
  unfold reqb. destruct (Req_EM_T _ 0); [lra|]. reflexivity.
Qed.
Theorem C53_count_refuted : exists dbscan qsort Py Nf out, (forall l, Permutation (qsort l) l) /\ (forall Py, length (dbscan Py) = length Py) /\ (0 <= Nf)%Z /\
  rsg dbscan qsort 2 Py Nf = Ok out /\ Z.of_nat (length out) = (Nf + 1)%Z.
Proof.
  set (Py := [[0; 4]; [3; 0]; [10; 4]; [13; 0]]).
  assert (EC : components (halves Py) Py = [[[0; 4]; [3; 0]]; [[10; 4]; [13; 0]]]) by reflexivity.
  assert (L1 : comp_length [[0; 4]; [3; 0]] = 5) by (apply two_length; lra). assert (L2 : comp_length [[10; 4]; [13; 0]] = 5) by (apply two_length; lra).
  assert (R1 : matlab_round (share 1 10 [[0; 4]; [3; 0]]) = 1%Z) by (apply round_unique; unfold share; rewrite L1; lra).
  assert (R2 : matlab_round (share 1 10 [[10; 4]; [13; 0]]) = 1%Z) by (apply round_unique; unfold share; rewrite L2; lra).
  assert (ET : rtotal (map comp_length [[[0; 4]; [3; 0]]; [[10; 4]; [13; 0]]]) = 10) by (unfold rtotal; cbn [map fold_right]; rewrite L1, L2; lra).
  assert (T0 : reqb 10 0 = false) by (unfold reqb; destruct (Req_EM_T 10 0); [lra|auto]).
  destruct (interpolate_total ssort ssort_perm [[0; 4]; [3; 0]] 1 ltac:(left; lia)) as (o1 & E1). destruct (interpolate_total ssort ssort_perm [[10; 4]; [13; 0]] 1 ltac:(left; lia)) as (o2 & E2).
  exists halves, ssort, Py, 1%Z, (o1 ++ o2 ++ []). split; [apply ssort_perm|]. split; [apply halves_len|]. split; [lia|]. split.
  - rewrite rsg_unfold, EC, ET. cbn [mapM]. unfold part. rewrite T0, R1, R2, E1, E2. reflexivity.
  - apply (interpolate_length _ ssort_perm) in E1; [|discriminate]. apply (interpolate_length _ ssort_perm) in E2; [|discriminate]. rewrite !app_length. destruct E1 as [_ ->], E2 as [_ ->]. reflexivity.
Qed.
Print Assumptions C53_count_refuted.
Theorem C53_small_share_refuted : exists dbscan qsort Py Nf, (forall l, Permutation (qsort l) l) /\ (forall Py, length (dbscan Py) = length Py) /\ (0 < Nf)%Z /\
  rsg dbscan qsort 2 Py Nf = Exn IndexError.
Proof.
  set (Py := [[0; 4]; [3; 0]; [10; 40]; [40; 0]]).
  assert (EC : components (halves Py) Py = [[[0; 4]; [3; 0]]; [[10; 40]; [40; 0]]]) by reflexivity.
  assert (L1 : comp_length [[0; 4]; [3; 0]] = 5) by (apply two_length; lra). assert (L2 : comp_length [[10; 40]; [40; 0]] = 50) by (apply two_length; lra).
  assert (R1 : matlab_round (share 1 55 [[0; 4]; [3; 0]]) = 0%Z) by (apply round_unique; unfold share; rewrite L1; lra).
  assert (ET : rtotal (map comp_length [[[0; 4]; [3; 0]]; [[10; 40]; [40; 0]]]) = 55) by (unfold rtotal; cbn [map fold_right]; rewrite L1, L2; lra).
  assert (T0 : reqb 55 0 = false) by (unfold reqb; destruct (Req_EM_T 55 0); [lra|auto]).
  exists halves, ssort, Py, 1%Z. split; [apply ssort_perm|]. split; [apply halves_len|]. split; [lia|]. rewrite rsg_unfold, EC, ET. cbn [mapM]. unfold part at 1. rewrite T0, R1, two_zero by lra. reflexivity.
Qed.
Print Assumptions C53_small_share_refuted.
Example C53_case : are_components [0; 1; -1; 0]%Z [[0; 1]; [5; 5]; [9; 9]; [1; 0]] [[[0; 1]; [1; 0]]; [[5; 5]]] /\ nearest (5 / 2) 3 /\ has_length [[0; 4]; [3; 0]] 5.
Proof.
  split; [exact (components_spec [0; 1; -1; 0]%Z [[0; 1]; [5; 5]; [9; 9]; [1; 0]] eq_refl)|]. split; [unfold nearest; lra|]. replace 5 with (comp_length [[0; 4]; [3; 0]]) by (apply two_length; lra). apply comp_length_spec.
Qed.
