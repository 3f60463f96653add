From Coq Require Import List Arith Bool Reals ZArith Lia Lra Permutation.
From Verif Require Import Num Exn ListAux NewtonModel RefModel RefProof ProbModel RsgModel.
Import ListNotations.
Open Scope R_scope.

(** * rounding *)
Lemma round_spec x : 0 <= x -> (0 <= matlab_round x)%Z /\ IZR (matlab_round x) - / 2 <= x < IZR (matlab_round x) + / 2.
Proof.
  intros Hx. unfold matlab_round, rltb. destruct (Rlt_dec 0 x) as [H0|H0].
  - rewrite Rabs_right by lra. destruct (base_Int_part (x + / 2)) as [H1 H2]. set (z := Int_part (x + / 2)) in *. split; [|lra].
    assert (H : -1 < IZR z) by lra. apply (lt_IZR (-1)) in H. lia.
  - destruct (Rlt_dec x 0); [lra|]. split; [lia|]. lra.
Qed.
Lemma round_unique x z : 0 <= x -> IZR z - / 2 <= x < IZR z + / 2 -> matlab_round x = z.
Proof.
  intros Hx Hz. destruct (round_spec x Hx) as [_ H]. assert (H1 : IZR (matlab_round x) < IZR z + 1) by lra. assert (H2 : IZR z < IZR (matlab_round x) + 1) by lra. rewrite <- plus_IZR in H1, H2. apply lt_IZR in H1. apply lt_IZR in H2. lia.
Qed.
Lemma round_int z : (0 <= z)%Z -> matlab_round (IZR z) = z.
Proof. intros H. apply IZR_le in H. apply round_unique; lra. Qed.

(** * components *)
Lemma insert_lab_in a l x : In x (insert_lab a l) <-> x = a \/ In x l.
Proof.
  induction l as [|b l IH]; simpl; [intuition|]. destruct (Z.ltb_spec a b); [simpl; intuition|]. destruct (Z.eqb_spec a b); [subst; simpl; intuition|]. simpl. rewrite IH. intuition.
Qed.
Lemma unique_in l x : In x (unique l) <-> In x l.
Proof. unfold unique. induction l as [|a l IH]; simpl; [tauto|]. rewrite insert_lab_in, IH. intuition. Qed.
Lemma insert_lab_sorted a l : Sorted.StronglySorted Z.lt l -> Sorted.StronglySorted Z.lt (insert_lab a l).
Proof.
  induction 1 as [|b l Hs IH Hb]; simpl; [repeat constructor|]. destruct (Z.ltb_spec a b).
  - constructor; [constructor; auto|]. constructor; auto. rewrite Forall_forall in *. intros x Hx. specialize (Hb x Hx). lia.
  - destruct (Z.eqb_spec a b); [constructor; auto|]. constructor; auto. rewrite Forall_forall in *. intros x Hx. apply insert_lab_in in Hx. destruct Hx as [->|Hx]; [lia|auto].
Qed.
Lemma unique_sorted l : Sorted.StronglySorted Z.lt (unique l).
Proof. unfold unique. induction l; simpl; [constructor|]. apply insert_lab_sorted. auto. Qed.
Lemma pick_in k labels Py r : length labels = length Py -> In r (pick_label k labels Py) <-> exists i, nth_error labels i = Some k /\ nth_error Py i = Some r.
Proof.
  intros HL. unfold pick_label. rewrite in_map_iff. split.
  - intros ([k' r'] & E & H). cbn [snd] in E. subst r'. apply filter_In in H. destruct H as [H Hk]. cbn [fst] in Hk. apply Z.eqb_eq in Hk. subst k'. apply (In_nth _ _ (0%Z, [])) in H. destruct H as (i & Hi & E). rewrite combine_length in Hi. rewrite combine_nth in E by auto. injection E as E1 E2. exists i. split; [rewrite <- E1|rewrite <- E2]; apply nth_error_nth'; lia.
  - intros (i & H1 & H2). exists (k, r). split; auto. apply filter_In. split; [|cbn [fst]; apply Z.eqb_refl]. assert ((i < length labels)%nat) by (apply nth_error_Some; congruence). rewrite <- (nth_error_nth _ _ 0%Z H1), <- (nth_error_nth _ _ [] H2), <- combine_nth by auto. apply nth_In. rewrite combine_length. lia.
Qed.
Lemma components_nonempty labels Py X : length labels = length Py -> In X (components labels Py) -> X <> [].
Proof.
  intros HL H. unfold components in H. apply in_map_iff in H. destruct H as (k & <- & Hk). apply filter_In in Hk. destruct Hk as [Hk _]. apply (proj1 (unique_in _ _)) in Hk. apply In_nth_error in Hk. destruct Hk as (i & Hi).
  destruct (nth_error Py i) as [r|] eqn:Er; [|apply nth_error_None in Er; assert (i < length labels)%nat by (apply nth_error_Some; rewrite Hi; discriminate); lia].
  intros E. assert (Hin : In r (pick_label k labels Py)) by (apply pick_in; eauto). rewrite E in Hin. destruct Hin.
Qed.

(** * sorting *)
Lemma insert_row_perm r l : Permutation (insert_row r l) (r :: l).
Proof. induction l as [|q l IH]; simpl; auto. destruct (rleb (x0 r) (x0 q)); auto. rewrite IH. apply perm_swap. Qed.
Lemma ssort_perm l : Permutation (ssort l) l.
Proof. unfold ssort. induction l as [|a l IH]; simpl; auto. rewrite insert_row_perm. auto. Qed.

(** * distances *)
Lemma sq_nonneg (l : list R) : 0 <= fold_right (fun a s => a * a + s) 0 l.
Proof. induction l as [|a l IH]; simpl; [lra|]. pose proof (Rle_0_sqr a). unfold Rsqr in *. lra. Qed.
Lemma dist_nonneg p q : 0 <= dist p q.
Proof. unfold dist, norm2. apply sqrt_pos. Qed.
Lemma dist_zero p : forall q, length p = length q -> dist p q = 0 <-> p = q.
Proof.
  intros q H. unfold dist, norm2. split.
  - intros E. apply sqrt_eq_0 in E; [|apply sq_nonneg]. revert q H E. induction p as [|a p IH]; intros [|b q] H E; simpl in *; try lia; auto. injection H as H. pose proof (sq_nonneg (map (fun ab => fst ab - snd ab) (combine q p))). pose proof (Rle_0_sqr (b - a)) as S. unfold Rsqr in S.
    assert (E1 : (b - a) * (b - a) = 0) by lra. assert (b - a = 0) by (apply Rmult_integral in E1; destruct E1; auto). f_equal; [lra|]. apply IH; auto. lra.
  - intros ->. clear H. replace (fold_right _ 0 _) with 0; [apply sqrt_0|]. induction q as [|b q IH]; simpl; auto. rewrite <- IH. ring.
Qed.
Lemma path_nonneg P : 0 <= path_length P.
Proof. induction P as [|p [|q P] IH]; simpl in *; try lra. pose proof (dist_nonneg p q). lra. Qed.
Lemma path_zero m P : Forall (fun r => length r = m) P -> path_length P = 0 -> forall p q, In p P -> In q P -> p = q.
Proof.
  induction P as [|p [|q P] IH]; intros HF E.
  - intros p q [].
  - intros a b [<-|[]] [<-|[]]. auto.
  - change (dist p q + path_length (q :: P) = 0) in E. pose proof (dist_nonneg p q). pose proof (path_nonneg (q :: P)). inversion HF as [|? ? Hp HF']; subst. inversion HF' as [|? ? Hq HF'']; subst.
    assert (p = q) by (apply dist_zero; [congruence|lra]). subst q. assert (G : forall a b, In a (p :: P) -> In b (p :: P) -> a = b) by (apply IH; auto; lra).
    intros a b Ha Hb. apply G; [destruct Ha; [subst; simpl|]; auto|destruct Hb; [subst; simpl|]; auto].
Qed.

(** * removal of repetitions *)
Lemma row_eqb_iff p : forall q, row_eqb p q = true <-> p = q.
Proof.
  induction p as [|a p IH]; intros [|b q]; simpl; try (split; [discriminate|discriminate]); [split; auto|]. rewrite andb_true_iff, IH. unfold reqb. destruct (Req_EM_T a b); split; intros H; try (destruct H; discriminate); try congruence; [destruct H; congruence|split; auto; congruence].
Qed.
Fixpoint adj (P : list (list R)) : Prop := match P with p :: ((q :: _) as t) => p <> q /\ adj t | _ => True end.
Lemma dedupe_adj l : adj (dedupe l).
Proof.
  destruct l as [|p t]; simpl; auto. revert p. induction t as [|q t IH]; intros p; cbn [dedupe_from]; [simpl; auto|]. destruct (row_eqb p q) eqn:E.
  - apply row_eqb_iff in E. subst q. apply IH.
  - split; [intros ->; assert (row_eqb q q = true) by (apply row_eqb_iff; auto); congruence|]. apply IH.
Qed.
Lemma dedupe_in l r : In r (dedupe l) <-> In r l.
Proof.
  destruct l as [|p t]; [tauto|]. revert p. induction t as [|q t IH]; intros p; [simpl; tauto|]. cbn [dedupe dedupe_from]. destruct (row_eqb p q) eqn:E.
  - apply row_eqb_iff in E. subst q. specialize (IH p). cbn [dedupe] in IH. simpl in *. tauto.
  - specialize (IH q). cbn [dedupe] in IH. simpl in *. tauto.
Qed.
Lemma dedupe_same l : (forall p q, In p l -> In q l -> p = q) -> l <> [] -> exists p, dedupe l = [p].
Proof.
  intros H Hn. destruct (dedupe l) as [|p [|q P]] eqn:E.
  - destruct l as [|a l]; [congruence|]. discriminate.
  - eauto.
  - exfalso. pose proof (dedupe_adj l) as A. rewrite E in A. destruct A as [A _]. apply A. apply H; apply dedupe_in; rewrite E; simpl; auto.
Qed.
Lemma path_pos m P : Forall (fun r => length r = m) P -> adj P -> (2 <= length P)%nat -> 0 < path_length P.
Proof.
  destruct P as [|p [|q P]]; simpl length; try lia. intros HF [A _] _. change (0 < dist p q + path_length (q :: P)). inversion HF as [|? ? Hp HF']; subst. inversion HF'; subst. pose proof (path_nonneg (q :: P)). pose proof (dist_nonneg p q). destruct (Req_dec (dist p q) 0) as [E|]; [|lra]. apply dist_zero in E; [contradiction|congruence].
Qed.

(** * interpolation *)
Definition on_segment (P : list (list R)) (y : list R) : Prop :=
  exists j lam, (S j < length P)%nat /\ 0 <= lam <= 1 /\ y = map (fun ab => (1 - lam) * fst ab + lam * snd ab) (combine (nth j P []) (nth (S j) P [])).
Lemma seg_left (p : list R) : forall q, length p = length q -> p = map (fun ab => (1 - 0) * fst ab + 0 * snd ab) (combine p q).
Proof. induction p as [|a p IH]; intros [|b q] H; simpl in *; try lia; auto. f_equal; [ring|]. apply IH. lia. Qed.
Lemma seg_right (p : list R) : forall q, length p = length q -> q = map (fun ab => (1 - 1) * fst ab + 1 * snd ab) (combine p q).
Proof. induction p as [|a p IH]; intros [|b q] H; simpl in *; try lia; auto. f_equal; [ring|]. apply IH. lia. Qed.
Lemma on_cons p P y : on_segment P y -> on_segment (p :: P) y.
Proof. intros (j & lam & Hj & Hl & E). exists (S j), lam. split; [simpl; lia|]. auto. Qed.
Lemma interp_on m P : forall c t, Forall (fun r => length r = m) P -> adj P -> (2 <= length P)%nat -> c <= t -> on_segment P (interp t (arc c P) P).
Proof.
  induction P as [|p [|q P] IH]; intros c t HF HA HL Ht; simpl length in HL; try lia. inversion HF as [|? ? Hp HF']; subst. inversion HF' as [|? ? Hq HF'']; subst.
  assert (Hd : 0 < dist p q). { pose proof (dist_nonneg p q). destruct HA as [A _]. destruct (Req_dec (dist p q) 0) as [E|]; [apply dist_zero in E; [contradiction|congruence]|lra]. }
  assert (Left : on_segment (p :: q :: P) p). { exists 0%nat, 0. split; [simpl; lia|]. split; [lra|]. cbn [nth]. apply seg_left. congruence. }
  change (arc c (p :: q :: P)) with (c :: arc (c + dist p q) (q :: P)). set (d := c + dist p q) in *.
  assert (Ea : exists tl, arc d (q :: P) = d :: tl) by (cbn [arc]; eauto). destruct Ea as (tl & Ea).
  cbn [interp]. rewrite Ea. cbv iota. unfold rleb, rltb. destruct (Rle_dec t c); auto. destruct (Rlt_dec t d).
  - exists 0%nat, ((t - c) / (d - c)). split; [simpl; lia|]. split.
    + unfold d. replace (c + dist p q - c) with (dist p q) by ring. split; [apply Rmult_le_pos; [lra|apply Rlt_le, Rinv_0_lt_compat; auto]|]. apply (Rmult_le_reg_r (dist p q)); auto. unfold Rdiv. rewrite Rmult_assoc, Rinv_l by lra. unfold d in *. lra.
    + cbn [nth]. apply map_ext. intros [a b]. cbn [fst snd]. field. unfold d. lra.
  - rewrite <- Ea. destruct P as [|r P'].
    + cbn [arc interp]. exists 0%nat, 1. split; [simpl; lia|]. split; [lra|]. cbn [nth]. apply seg_right. congruence.
    + apply on_cons. apply IH; auto; [destruct HA; auto|simpl; lia|lra].
Qed.
Lemma removelast_length {A} (l : list A) : length (removelast l) = (length l - 1)%nat.
Proof. induction l as [|a [|b l] IH]; auto. cbn [removelast length] in *. rewrite IH. simpl. lia. Qed.
Lemma removelast_in {A} (l : list A) x : In x (removelast l) -> In x l.
Proof. induction l as [|a [|b l] IH]; [auto|intros []|]. intros [H|H]; [left; auto|right; apply IH; auto]. Qed.
Lemma last_in {A} (l : list A) d : l <> [] -> In (last l d) l.
Proof. intros H. destruct (exists_last H) as (l' & z & ->). rewrite last_last. apply in_or_app. simpl; auto. Qed.
Lemma ends_set (a b : list R) rows out : (2 <= length rows)%nat -> (do I1 <- set_first a rows; set_last b I1) = Ok out -> hd [] out = a /\ last out [] = b.
Proof.
  destruct rows as [|r [|r' rows]]; simpl length; try lia. intros _ E. cbn [set_first bind set_last] in E. assert (E' : out = removelast (a :: r' :: rows) ++ [b]) by congruence. subst out. split; [reflexivity|]. apply last_last.
Qed.
Section Interp.
Variable qsort : list (list R) -> list (list R).
Hypothesis qsort_perm : forall l, Permutation (qsort l) l.
Lemma interpolate_length X Nf out : X <> [] -> interpolate_tst qsort X Nf = Ok out -> (0 <= Nf)%Z /\ length out = Z.to_nat Nf.
Proof.
  intros HX E. unfold interpolate_tst in E. destruct (Z.ltb_spec Nf 0); [discriminate|]. split; auto.
  destruct (dedupe (qsort X)) as [|p [|q P]] eqn:ED.
  - exfalso. destruct X as [|x X]; [congruence|]. assert (In x (dedupe (qsort (x :: X)))) by (apply dedupe_in; eapply Permutation_in; [apply Permutation_sym, qsort_perm|simpl; auto]). rewrite ED in H0. destruct H0.
  - injection E as <-. apply repeat_length.
  - destruct (reqb _ 0); [injection E as <-; apply repeat_length|]. set (rows := map _ _) in E. assert (Lr : length rows = Z.to_nat Nf) by (unfold rows, linspace; rewrite !map_length, seq_length; auto). clearbody rows.
    destruct rows as [|r rows]; [discriminate|]. cbn [set_first bind set_last] in E. injection E as <-. rewrite app_length.
    change (length (removelast (p :: rows)) + 1 = Z.to_nat Nf)%nat. rewrite removelast_length. simpl in *. lia.

Qed.
Lemma interpolate_total X Nf : (1 <= Nf)%Z \/ (Nf = 0%Z /\ forall p q, In p X -> In q X -> p = q) -> exists out, interpolate_tst qsort X Nf = Ok out.
Proof.
  intros H. unfold interpolate_tst. destruct (Z.ltb_spec Nf 0); [destruct H; lia|]. destruct (dedupe (qsort X)) as [|p [|q P]] eqn:ED; eauto. destruct (reqb _ 0); eauto.
  destruct H as [H|[H1 H2]].
  - unfold linspace. destruct (Z.to_nat Nf) as [|n] eqn:En; [lia|]. cbn [seq map set_first bind set_last]. eauto.
  - exfalso. destruct (dedupe_same (qsort X)) as (r & Er).
    + intros a b Ha Hb. apply H2; eapply Permutation_in; try apply qsort_perm; auto.
    + intros E. rewrite E in ED. discriminate.
    + congruence.
Qed.
(** every point is on the path through the sorted points, the end points are the ends of the path *)
Lemma interpolate_on m X Nf out : Forall (fun r => length r = m) X -> interpolate_tst qsort X Nf = Ok out ->
  forall y, In y out -> In y X \/ on_segment (dedupe (qsort X)) y.
Proof.
  intros HF E y Hy. unfold interpolate_tst in E. destruct (Z.ltb_spec Nf 0); [discriminate|].
  assert (HP : forall r, In r (dedupe (qsort X)) -> In r X) by (intros r Hr; apply (proj1 (dedupe_in _ _)) in Hr; eapply Permutation_in; [apply qsort_perm|auto]).
  assert (HFP : Forall (fun r => length r = m) (dedupe (qsort X))) by (apply Forall_forall; intros r Hr; rewrite Forall_forall in HF; apply HF, HP; auto). pose proof (dedupe_adj (qsort X)) as A.
  destruct (dedupe (qsort X)) as [|p [|q P]] eqn:ED.
  - injection E as <-. destruct Hy.
  - injection E as <-. apply repeat_spec in Hy. subst y. left. apply HP. simpl; auto.
  - destruct (reqb _ 0); [injection E as <-; apply repeat_spec in Hy; subst y; left; apply HP; simpl; auto|]. set (L := path_length _) in E. set (rows := map _ _) in E.
    assert (HR : forall r, In r rows -> on_segment (p :: q :: P) r).
    { intros r Hr. unfold rows in Hr. apply in_map_iff in Hr. destruct Hr as (t & <- & Ht). apply (interp_on m); auto; [simpl; lia|]. unfold linspace in Ht. apply in_map_iff in Ht. destruct Ht as (i & <- & Hi). destruct (Z.to_nat Nf =? 1)%nat; [lra|]. apply Rmult_le_pos; [apply pos_INR|]. apply Rmult_le_pos; [apply path_nonneg|]. destruct (Z.to_nat Nf - 1)%nat as [|k]; [simpl; rewrite Rinv_0; lra|]. apply Rlt_le, Rinv_0_lt_compat, lt_0_INR; lia. }
    clearbody rows. destruct rows as [|r rows]; [discriminate|]. cbn [set_first bind set_last] in E. injection E as <-. apply in_app_or in Hy. destruct Hy as [Hy|[<-|[]]].
    + apply (removelast_in (p :: rows)) in Hy. destruct Hy as [<-|Hy]; [left; apply HP; simpl; auto|right; apply HR; simpl; auto].
    + left. apply HP. apply (last_in (p :: q :: P) p). discriminate.
Qed.
Lemma interpolate_ends X Nf out p q P : dedupe (qsort X) = p :: q :: P -> path_length (p :: q :: P) <> 0 -> (2 <= Nf)%Z -> interpolate_tst qsort X Nf = Ok out ->
  hd [] out = p /\ last out [] = last (p :: q :: P) [].
Proof.
  intros ED HL HN E. unfold interpolate_tst in E. destruct (Z.ltb_spec Nf 0); [discriminate|]. rewrite ED in E. unfold reqb in E. destruct (Req_EM_T (path_length (p :: q :: P)) 0); [contradiction|].
  apply ends_set in E; [|unfold linspace; rewrite !map_length, seq_length; lia]. destruct E as [E1 E2]. split; auto. rewrite E2. destruct (exists_last (l := p :: q :: P)) as (l' & z & El); [discriminate|]. rewrite El, !last_last. auto.
Qed.
End Interp.
