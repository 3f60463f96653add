(** The properties of runs of DpN, for the objects of a run. *)
From Coq Require Import List Arith Bool Reals ZArith Lia Lra Permutation.
From Verif Require Import Num Exn ListAux MiscModel StateModel StateSpec StateProof NewtonModel NewtonProof NewtonBox NewtonPop RefModel RefSpec RefProof HVXModel IndModel IndSpec StepSpec StepModel ShiftModel StepTop IterModel IterSpec IterProof IterMain IterTotal IterConv IterAffine.
Import ListNotations.
Open Scope R_scope.

Lemma trace_next {St} (it : St -> res St) l : forall o j p q, trace it o l -> nth_error (o :: l) j = Some p -> nth_error (o :: l) (S j) = Some q -> it p = Ok q.
Proof.
  induction l as [|o1 l IH]; intros o j p q Ht Hp Hq. destruct j; discriminate Hq. destruct Ht as [E Ht]. destruct j as [|j].
  - simpl in Hp, Hq. injection Hp as <-. injection Hq as <-. auto.
  - apply (IH o1 j); auto.
Qed.

Lemma Rabs_def2' a b : Rabs a <= b -> - b <= a <= b.
Proof. intros H. unfold Rabs in H. destruct (Rcase_abs a); lra. Qed.

Section Run.
Variable K : dpn_cfg.
Hypothesis W : well_posed K.
Let c := k_prob K.
Lemma wp_counts : counts_ok K.
Proof using W. unfold counts_ok. split; [apply (wp_neq K W)|apply (wp_nieq K W)]. Qed.

Lemma objects_hist rs X0 l j o : input K rs X0 -> objects K rs X0 l -> nth_error l j = Some o -> hist_ok K (length X0) j o.
Proof using W.
  intros (HN & HX & _) Ho Hj. destruct l as [|o0 l]; [destruct Ho|]. destruct Ho as [E Ht].
  apply (trace_inv (dpn_iterate K) (fun k o => hist_ok K (length X0) k o)) with (k := 0%nat) (o := o0) (l := l); auto.
  - intros k p p' Hp Ep. apply (hist_step K (wp_rows K W) wp_counts _ _ _ _ HN Hp Ep).
  - apply (init_hist K rs X0 o0); auto. apply (wp_xl K W). apply (wp_xu K W).
Qed.
Lemma objects_next rs X0 l j p q : objects K rs X0 l -> nth_error l j = Some p -> nth_error l (S j) = Some q -> exists q1, newton_iteration K p = Ok q1 /\ q = log K q1.
Proof using.
  intros Ho Hp Hq. destruct l as [|o0 l]; [destruct Ho|]. destruct Ho as [E Ht]. apply iterate_inv. eapply trace_next; eauto.
Qed.
Lemma objects_prev rs X0 l j q : objects K rs X0 l -> nth_error l (S j) = Some q -> exists p, nth_error l j = Some p.
Proof using. intros Ho Hq. destruct (nth_error l j) eqn:E; eauto. apply nth_error_None in E. assert (S j < length l)%nat by (apply nth_error_Some; congruence). lia. Qed.

(** * C112 *)
Lemma hist_prefix l : forall o j p, trace (dpn_iterate K) o l -> nth_error (o :: l) j = Some p ->
  h_X p = h_X o ++ map (fun q => primal_of K (d_state q)) (firstn j l) /\ h_Y p = h_Y o ++ map (fun q => s_Y (d_state q)) (firstn j l) /\
  h_val p = h_val o ++ map (fun q => Rmax (d_gd q) (d_igd q)) (firstn j l) /\ h_R p = h_R o ++ map (fun q => median (map euclid (d_R q))) (firstn j l).
Proof using.
  induction l as [|o1 l IH]; intros o j p Ht Hj.
  - destruct j as [|j]; [|destruct j; discriminate]. injection Hj as <-. simpl. rewrite !app_nil_r. auto.
  - destruct Ht as [E Ht]. destruct j as [|j]. injection Hj as <-. simpl. rewrite !app_nil_r. auto.
    destruct (IH o1 j p Ht Hj) as (H1 & H2 & H3 & H4). cbn [firstn map]. apply iterate_inv in E as (q1 & E & ->). destruct (iteration_hist K o q1 E) as (_ & Q2 & Q3 & Q4 & Q5).
    rewrite H1, H2, H3, H4. unfold log. cbn [h_X h_Y h_val h_R d_state d_gd d_igd d_R]. rewrite Q2, Q3, Q4, Q5, <- !app_assoc. cbn [app].
    split; [auto|split; [auto|split]].
    + do 2 f_equal. unfold curr_indicator_value, Rmax, rltb. destruct (Rlt_dec _ _); destruct (Rle_dec _ _); lra.
    + do 2 f_equal. f_equal. apply map_ext. intros v. apply norm_euclid.
Qed.
Lemma objects_history rs X0 l j o : objects K rs X0 l -> nth_error l j = Some o ->
  h_X o = map (fun q => primal_of K (d_state q)) (firstn j (tl l)) /\ h_Y o = map (fun q => s_Y (d_state q)) (firstn j (tl l)) /\
  h_val o = map (fun q => Rmax (d_gd q) (d_igd q)) (firstn j (tl l)) /\ h_R o = map (fun q => median (map euclid (d_R q))) (firstn j (tl l)).
Proof using.
  intros Ho Hj. destruct l as [|o0 l]; [destruct Ho|]. destruct Ho as [E Ht]. cbn [tl]. pose proof (hist_prefix l o0 j o Ht Hj) as H.
  unfold dpn_init in E. inv_do E s Es. injection E as <-. exact H.
Qed.
Lemma objects_population rs X0 l j o : input K rs X0 -> objects K rs X0 l -> nth_error l j = Some o ->
  length (primal_of K (d_state o)) = length X0 /\ (forall x, In x (primal_of K (d_state o)) -> length x = c_nvar (k_prob K)) /\
  s_Y (d_state o) = map (cb_point (c_func (k_prob K))) (primal_of K (d_state o)) /\ d_iter o = j.
Proof using W.
  intros Hi Ho Hj. pose proof (objects_hist rs X0 l j o Hi Ho Hj) as (H1 & H2 & H3 & _). destruct Hi as (HN & _).
  unfold primal_of, primal. rewrite map_length. split; [apply H1|]. split; [|split; auto].
  - intros x Hx. apply in_map_iff in Hx as (y & <- & Hy). rewrite firstn_length. destruct H1 as [_ H1]. rewrite (H1 y Hy). unfold dim, dim_p. lia.
  - rewrite (eval_Y K (wp_rows K W)); auto. intros E0. destruct H1 as [L _]. rewrite E0 in L. simpl in L. lia.
Qed.
Lemma run_objects rs X0 o0 fuel z r : dpn_init K rs X0 = Ok o0 -> dpn_run K fuel (Finite z) o0 = Ok r ->
  exists l, objects K rs X0 (o0 :: l) /\ o_state r = last l o0 /\ o_hist r = l /\ length l = Z.to_nat z /\ o_iter r = length l.
Proof using.
  intros E H. unfold dpn_run, fresh in H. apply run_trace in H as (l & Ht & -> & L). exists l. split; [split; auto|]. cbn [o_state o_hist o_iter]. split; auto. split; auto. split; auto. rewrite L. f_equal. lia.
Qed.

(** * C113 *)
Lemma objects_box rs X0 l : input K rs X0 -> (forall k, (k < c_nvar (k_prob K))%nat -> nth k (k_xl K) 0 <= nth k (k_xu K) 0) -> objects K rs X0 l ->
  (forall o, In o (tl l) -> notable (d_step o)) -> forall o x, In o l -> In x (primal_of K (d_state o)) -> in_box (k_xl K) (k_xu K) x.
Proof using W.
  intros Hi Hb Ho Hn. assert (H : forall j o, nth_error l j = Some o -> all_in_box K o).
  { induction j as [|j IH]; intros o Hj.
    - destruct l as [|o0 l]; [destruct Ho|]. injection Hj as <-. destruct Hi as (_ & HX & _). apply (init_in_box K rs X0); auto. apply (wp_xl K W). apply (wp_xu K W). apply Ho.
    - destruct (objects_prev rs X0 l j o Ho Hj) as (p & Hp). destruct (objects_next rs X0 l j p o Ho Hp Hj) as (q1 & E & ->).
      assert (HB : all_in_box K q1).
      { apply (box_step K wp_counts (length X0) p); auto. apply (wp_xl K W). apply (wp_xu K W). apply (objects_hist rs X0 l j p Hi Ho Hp).
        change (d_step q1) with (d_step (log K q1)). apply Hn. destruct l as [|o0 l]; [destruct Ho|]. cbn [tl]. apply nth_error_In with (n := j). exact Hj. }
      exact HB. }
  intros o x Hin. apply In_nth_error in Hin as (j & Hj). apply (H j o Hj).
Qed.
Lemma objects_margin rs X0 l j p q : input K rs X0 -> objects K rs X0 l -> nth_error l j = Some p -> nth_error l (S j) = Some q ->
  (forall x, In x (primal_of K (d_state p)) -> in_box (k_xl K) (k_xu K) x) ->
  forall x k, In x (primal_of K (d_state q)) -> (k < c_nvar (k_prob K))%nat -> nth k (k_xl K) 0 - / 10 ^ 8 <= nth k x 0 <= nth k (k_xu K) 0 + / 10 ^ 8.
Proof using W.
  intros Hi Ho Hp Hq HB x k Hx Hk. destruct (objects_next rs X0 l j p q Ho Hp Hq) as (q1 & E & ->). cbn [log d_state] in Hx. pose proof (proj1 (objects_hist rs X0 l j p Hi Ho Hp)) as HP.
  assert (T0 : 0 < / 10 ^ 8) by (apply Rinv_0_lt_compat; apply pow_lt; lra).
  destruct (Classical_Prop.classic (notable (d_step q1))) as [Hn|Hn].
  - destruct (box_step K wp_counts (length X0) p q1 (wp_xl K W) (wp_xu K W) HP HB E Hn x Hx) as (L1 & _ & HI). specialize (HI k ltac:(rewrite L1, (wp_xl K W); auto)). lra.
  - apply iteration_pieces in E as (u & E1 & E2 & E3 & E4 & E5 & E6 & E7 & ->). cbn [d_step d_state] in *.
    destruct (newton_step_pop K _ _ _ _ _ _ _ wp_counts HP E4) as [P1 _]. destruct (handle_box_pop K _ _ _ _ HP P1 E5) as (P2 & _ & _). cbn [fst] in P2.
    unfold line_search in E6. pose proof (negligible_true _ Hn) as Hz. rewrite Hz in E6. injection E6 as Esz _ _. set (N := length X0) in *.
    unfold primal_of, primal in Hx. rewrite (upd_X K _ _ _ E7) in Hx. apply in_map_iff in Hx as (y & <- & Hy). change (c_nvar (k_prob K)) with (dim_p K) in *. rewrite nth_firstn_lt by auto.
    apply (In_nth _ _ []) in Hy as (i & Hii & <-). assert (LS : length (q_size u) = N) by (rewrite <- Esz, map_length; apply P2). rewrite (moved_length _ _ _ N) in Hii by (auto; apply HP || apply P2). rewrite (moved_row _ _ _ N) by (auto; apply HP || apply P2).
    assert (Es : nth i (q_size u) 0 = 1). { rewrite <- Esz. rewrite (nth_map_default _ _ _ []) by (destruct P2; lia). auto. } rewrite Es.
    assert (Lx : length (nth i (s_X (d_state p)) []) = dim K) by (apply HP, nth_In; destruct HP; lia). assert (Ls : length (nth i (q_st u) []) = dim K) by (apply P2, nth_In; destruct P2; lia).
    assert (Hd : (dim_p K <= dim K)%nat) by (unfold dim; lia). rewrite (zip_with_nth _ _ _ _ 0 0) by lia.
    assert (Ht : Rabs (nth k (nth i (q_st u) []) 0) <= / 10 ^ 8).
    { rewrite forallb_forall in Hz. specialize (Hz (nth i (q_st u) []) ltac:(apply nth_In; destruct P2; lia)). rewrite forallb_forall in Hz. specialize (Hz (nth k (nth i (q_st u) []) 0) ltac:(apply nth_In; lia)). unfold close_to_0 in Hz. apply rleb_true in Hz. exact Hz. }
    specialize (HB (firstn (dim_p K) (nth i (s_X (d_state p)) []))). destruct HB as (_ & _ & HB). { unfold primal_of, primal. apply in_map_iff. eexists. split; [reflexivity|]. apply nth_In. destruct HP; lia. }
    specialize (HB k ltac:(rewrite firstn_length; lia)). rewrite nth_firstn_lt in HB by auto. apply Rabs_def2' in Ht. lra.
Qed.
(** * C114 *)
Lemma objects_njac rs X0 l j p q : input K rs X0 -> objects K rs X0 l -> nth_error l j = Some p -> nth_error l (S j) = Some q ->
  (notable (d_step q) -> n_jac (d_state p) + 2 * length X0 <= n_jac (d_state q) <= n_jac (d_state p) + 9 * length X0)%nat /\
  (~ notable (d_step q) -> n_jac (d_state q) = (n_jac (d_state p) + length X0)%nat).
Proof using W.
  intros Hi Ho Hp Hq. destruct (objects_next rs X0 l j p q Ho Hp Hq) as (q1 & E & ->).
  destruct (njac_step K wp_counts (length X0) p q1 (proj1 (objects_hist rs X0 l j p Hi Ho Hp)) E) as [[H1 H2]|[H1 H2]]; cbn [log d_step d_state]; split; intros H; try contradiction; auto.
Qed.
Lemma objects_njac_total rs X0 l j o : input K rs X0 -> objects K rs X0 l -> nth_error l j = Some o ->
  (length X0 * (j + 1) <= n_jac (d_state o) <= length X0 * (9 * j + 1))%nat.
Proof using W.
  intros Hi Ho. revert o. induction j as [|j IH]; intros o Hj.
  - destruct l as [|o0 l]; [destruct Ho|]. injection Hj as <-. destruct Ho as [E _]. unfold dpn_init in E. inv_do E s Es. injection E as <-. apply upd_njac in Es. cbn [d_state]. rewrite Es, map_length. cbn. lia.
  - destruct (objects_prev rs X0 l j o Ho Hj) as (p & Hp). specialize (IH p Hp). destruct (objects_njac rs X0 l j p o Hi Ho Hp Hj) as [H1 H2].
    destruct (Classical_Prop.classic (notable (d_step o))) as [Hn|Hn]; [specialize (H1 Hn)|specialize (H2 Hn)]; nia.
Qed.

Hypothesis OO : oracles_ok K.
Lemma objects_good rs X0 l j o : input K rs X0 -> objects K rs X0 l -> nth_error l j = Some o -> good K (length X0) o.
Proof using W OO.
  intros (HN & HX & Hr) Ho Hj. destruct l as [|o0 l]; [destruct Ho|]. destruct Ho as [E Ht].
  refine (trace_inv (dpn_iterate K) (fun k o => good K (length X0) o) _ l o0 0%nat _ Ht j o Hj).
  - intros k p p' Hp Ep. destruct (iterate_total K W OO (length X0) p HN Hp) as (p2 & E2 & H2). congruence.
  - destruct (init_total K W rs X0 HN HX Hr) as (o1 & E1 & H1). congruence.
Qed.
(** * C115 *)
Lemma objects_values rs X0 l j p q : input K rs X0 -> objects K rs X0 l -> nth_error l j = Some p -> nth_error l (S j) = Some q ->
  gd_is (reference_set (d_ref p)) (s_Y (d_state p)) (d_gd q) /\ igd_is (reference_set (d_ref p)) (s_Y (d_state p)) (d_igd q).
Proof using W OO.
  intros Hi Ho Hp Hq. destruct (objects_next rs X0 l j p q Ho Hp Hq) as (q1 & E & ->). cbn [log d_gd d_igd].
  apply (iteration_values K W OO (length X0) p q1); auto. apply Hi. apply (objects_good rs X0 l j p); auto.
Qed.
Lemma objects_logged rs X0 l j p o v : input K rs X0 -> objects K rs X0 l -> nth_error l j = Some p -> In o l -> nth_error (h_val o) j = Some v ->
  exists gd igd, gd_is (reference_set (d_ref p)) (s_Y (d_state p)) gd /\ igd_is (reference_set (d_ref p)) (s_Y (d_state p)) igd /\ v = Rmax gd igd.
Proof using W OO.
  intros Hi Ho Hp Hin Hv. apply In_nth_error in Hin as (k & Hk). destruct (objects_history rs X0 l k o Ho Hk) as (_ & _ & Hh & _). rewrite Hh in Hv.
  rewrite nth_error_map in Hv. destruct (nth_error (firstn k (tl l)) j) as [q|] eqn:Eq; [|discriminate]. cbn in Hv. injection Hv as <-.
  assert (Hq : nth_error l (S j) = Some q).
  { destruct l as [|o0 l]; [destruct Ho|]. cbn [tl] in Eq. cbn [nth_error]. assert (Hjk : (j < k)%nat). { assert (j < length (firstn k l))%nat by (apply nth_error_Some; congruence). rewrite firstn_length in H. lia. }
    rewrite <- (firstn_skipn k l). rewrite nth_error_app1; auto. apply nth_error_Some. congruence. }
  destruct (objects_values rs X0 l j p q Hi Ho Hp Hq) as [H1 H2]. eauto.
Qed.
(** * C117 *)
Lemma objects_total rs X0 n : input K rs X0 -> exists l, objects K rs X0 l /\ length l = S n.
Proof using W OO.
  intros (HN & HX & Hr). destruct (init_total K W rs X0 HN HX Hr) as (o & E & Hg). destruct (trace_total K W OO (length X0) n HN o Hg) as (l & L & Ht). exists (o :: l). split; [split; auto|simpl; congruence].
Qed.
Lemma run_returns rs X0 z fuel : input K rs X0 -> (z <= Z.of_nat fuel)%Z -> exists o r, dpn_init K rs X0 = Ok o /\ dpn_run K fuel (Finite z) o = Ok r.
Proof using W OO.
  intros (HN & HX & Hr) Hz. destruct (init_total K W rs X0 HN HX Hr) as (o & E & Hg). destruct (run_total K W OO (length X0) HN fuel o 0 z [] Hg ltac:(lia)) as (r & Er). exists o, r. auto.
Qed.
(** * C118, C119 *)
Lemma objects_affine rs X0 l j p q A b : input K rs X0 -> objects K rs X0 l -> nth_error l j = Some p -> nth_error l (S j) = Some q ->
  unconstrained K -> affine K A b -> k_pre K = false -> (forall x, In x (primal_of K (d_state p)) -> inside (k_xl K) (k_xu K) x) ->
  (forall i, (i < length X0)%nat -> nth i (d_size q) 0 = 1) ->
  exists T, length T = length X0 /\ (forall t, In t T -> In t (reference_set (d_ref q))) /\
  (k_type K = IGD -> Permutation T (reference_set (d_ref q))) /\
  (k_type K = GD -> forall i, (i < length X0)%nat -> is_nearest (reference_set (d_ref q)) (nth i (s_Y (d_state p)) []) (nth i T [])) /\
  forall i, (i < length X0)%nat -> forall z, length z = c_nvar (k_prob K) -> sqd (nth i (s_Y (d_state q)) []) (nth i T []) <= sqd (cb_point (c_func (k_prob K)) z) (nth i T []).
Proof using W OO.
  intros Hi Ho Hp Hq Hu HA Hpre Hin Hone. destruct (objects_next rs X0 l j p q Ho Hp Hq) as (q1 & E & ->).
  destruct (iteration_affine K W OO Hu A b (length X0) p q1 HA Hpre (proj1 Hi) (objects_good rs X0 l j p Hi Ho Hp) Hin E Hone) as (T & H1 & H2 & H3 & H4 & H5).
  exists T. split; auto. split; [|auto]. intros t Ht. apply (In_nth _ _ []) in Ht as (i & Hi' & <-). apply H2. congruence.
Qed.
Lemma objects_descent rs X0 l j p q : input K rs X0 -> objects K rs X0 l -> nth_error l j = Some p -> nth_error l (S j) = Some q ->
  unconstrained K -> k_type K = GD -> notable (d_step q) ->
  forall i, (i < length X0)%nat -> exists g g',
    gd_gradient K (length X0) (reference_set (d_ref q)) (nth i (primal_of K (d_state p)) []) g /\ nth i (d_R q) [] = g /\
    gd_gradient K (length X0) (reference_set (d_ref q)) (nth i (primal_of K (d_state q)) []) g' /\
    (euclid g' <= (1 - nth i (d_size q) 0 / 10 ^ 4) * euclid g \/ nth i (d_size q) 0 <= (6 / 10) ^ 8 \/ Rabs (euclid g - eps_mach) <= / 10 ^ 8 + / 10 ^ 5 * eps_mach).
Proof using W OO.
  intros Hi Ho Hp Hq Hu Ht Hn. destruct (objects_next rs X0 l j p q Ho Hp Hq) as (q1 & E & ->).
  apply (gd_descent K W OO Hu (length X0) p q1 Ht (proj1 Hi) (objects_good rs X0 l j p Hi Ho Hp) E Hn).
Qed.
(** * C116 *)
Lemma objects_units rs X0 l j p q : input K rs X0 -> objects K rs X0 l -> nth_error l j = Some p -> nth_error l (S j) = Some q -> d_gd q * d_gd q <= d_igd q.
Proof using W OO.
  intros Hi Ho Hp Hq. destruct (objects_values rs X0 l j p q Hi Ho Hp Hq) as [H1 H2]. refine (gd_square_le _ _ _ _ _ H1 H2).
  destruct (objects_population rs X0 l j p Hi Ho Hp) as (L & _ & E & _). intros E0. rewrite E in E0. apply map_eq_nil in E0. rewrite E0 in L. destruct Hi as (HN & _). simpl in L. lia.
Qed.
Lemma objects_residual rs X0 l j p q : input K rs X0 -> objects K rs X0 l -> nth_error l j = Some p -> nth_error l (S j) = Some q -> unconstrained K ->
  let S := reference_set (d_ref q) in let Y := s_Y (d_state p) in let X := primal_of K (d_state p) in
  length (d_R q) = length X0 /\
  (k_type K = GD \/ (k_type K = Deltap /\ d_igd q < d_gd q) -> forall i, (i < length X0)%nat -> gd_gradient K (length X0) S (nth i X []) (nth i (d_R q) [])) /\
  (k_type K = IGD \/ (k_type K = Deltap /\ d_gd q <= d_igd q) -> exists T, Permutation T S /\ (forall P, Permutation P T -> sum_dist Y T <= sum_dist Y P) /\
     forall i, (i < length X0)%nat -> gradient_to K 2 (nth i T []) (nth i X []) (nth i (d_R q) [])).
Proof using W OO.
  intros Hi Ho Hp Hq Hu. destruct (objects_next rs X0 l j p q Ho Hp Hq) as (q1 & E & ->).
  pose proof (iteration_residual K W OO Hu (length X0) p q1 (proj1 Hi) (objects_good rs X0 l j p Hi Ho Hp) E) as (H1 & H2 & H3). cbn zeta. cbn [log d_ref d_R d_gd d_igd]. split; auto. split.
  - intros HT. apply H2. destruct HT as [-> | [-> HT]]; auto. cbn. destruct (rltb _ _) eqn:Er; auto. apply rltb_false in Er. lra.
  - intros HT. apply H3. destruct HT as [-> | [-> HT]]; auto. cbn. destruct (rltb _ _) eqn:Er; auto. apply rltb_true in Er. lra.
Qed.
End Run.
