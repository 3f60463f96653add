(** Runs of DpN: populations, history, box, counters. *)
From Coq Require Import List Arith Bool Reals ZArith Lia Lra.
From Verif Require Import Num Exn ListAux MiscModel StateModel StateSpec StateProof NewtonModel NewtonProof NewtonBox NewtonPop RefModel RefProof HVXModel IndModel StepModel ShiftModel StepTop IterModel IterSpec IterProof.
Import ListNotations.
Open Scope R_scope.

(** * traces *)
Section Trace.
Context {St : Type} (iterate : St -> res St).
Lemma trace_iterates : forall l o, trace iterate o l <-> iterates iterate (length l) o = Ok l.
Proof.
  induction l as [|o' l IH]; simpl; intros o. split; auto. split.
  - intros [-> H]. simpl. apply IH in H. rewrite H. auto.
  - intros H. apply bind_inv in H as (o1 & E & H). apply bind_inv in H as (l1 & E1 & H). injection H as -> ->. split; auto. apply IH. auto.
Qed.
Lemma run_trace fuel : forall o i z h r, run iterate fuel (mkOpt o i (Finite z) None h) = Ok r ->
  exists l, trace iterate o l /\ r = mkOpt (last l o) (i + length l) (Finite z) (Some (i + length l)%nat) (h ++ l) /\ length l = Z.to_nat (z - Z.of_nat i).
Proof.
  induction fuel as [|fuel IH]; intros o i z h r H; cbn [run] in H; unfold terminate, reached in H; cbn [o_max o_iter o_state o_stop o_hist] in H; destruct (Z.leb_spec z (Z.of_nat i)) as [Hz|Hz].
  - injection H as <-. exists []. simpl. rewrite Nat.add_0_r, app_nil_r. repeat split; auto. lia.
  - discriminate.
  - injection H as <-. exists []. simpl. rewrite Nat.add_0_r, app_nil_r. repeat split; auto. lia.
  - apply bind_inv in H as (o' & E & H). apply IH in H as (l & Hl & -> & HL). exists (o' :: l). split; [split; auto|]. split; [|simpl; lia].
    cbn [length]. replace (S i + length l)%nat with (i + S (length l))%nat by lia. f_equal.
    + destruct l as [|a l]; auto. cbn [last]. assert (Hlast : forall (l : list St) a x y, last (a :: l) x = last (a :: l) y).
      { induction l0 as [|b l0 IHl]; intros; auto. cbn [last] in *. apply (IHl b). } apply (Hlast l a).
    + rewrite <- app_assoc. auto.
Qed.
(** an invariant of the iteration holds all along *)
Lemma trace_inv (P : nat -> St -> Prop) : (forall k o o', P k o -> iterate o = Ok o' -> P (S k) o') ->
  forall l o k, P k o -> trace iterate o l -> forall j o', nth_error (o :: l) j = Some o' -> P (k + j)%nat o'.
Proof.
  intros HI. induction l as [|o1 l IH]; intros o k H0 Ht j o' Hj.
  - destruct j as [|j]; simpl in Hj; [injection Hj as <-; rewrite Nat.add_0_r; auto|destruct j; discriminate].
  - destruct Ht as [E Ht]. destruct j as [|j]; simpl in Hj; [injection Hj as <-; rewrite Nat.add_0_r; auto|].
    replace (k + S j)%nat with (S k + j)%nat by lia. apply (IH o1); auto. eapply HI; eauto.
Qed.
End Trace.

Section Dpn.
Variable K : dpn_cfg.
Let c := k_prob K.
Hypothesis Hrw : rowwise_all c.
Hypothesis Hct : counts_ok K.

Lemma iterate_inv o o' : dpn_iterate K o = Ok o' -> exists o1, newton_iteration K o = Ok o1 /\ o' = log K o1.
Proof using. unfold dpn_iterate. intros H. inv_do H o1 E. injection H as <-. eauto. Qed.
Lemma iteration_hist o o1 : newton_iteration K o = Ok o1 -> d_iter o1 = d_iter o /\ h_X o1 = h_X o /\ h_Y o1 = h_Y o /\ h_val o1 = h_val o /\ h_R o1 = h_R o.
Proof using. intros H. apply iteration_pieces in H as (q & _ & _ & _ & _ & _ & _ & _ & ->). cbn. auto. Qed.

(** what holds after [k] iterations *)
Definition hist_ok (N k : nat) (o : dpn) : Prop :=
  pop K N (s_X (d_state o)) /\ evaluated K (d_state o) /\ d_iter o = k /\
  length (h_X o) = k /\ length (h_Y o) = k /\ length (h_val o) = k /\ length (h_R o) = k /\
  (forall j, (j < k)%nat -> length (nth j (h_X o) []) = N /\ nth j (h_Y o) [] = map (cb_point (c_func c)) (nth j (h_X o) [])) /\
  (k <> 0%nat -> last (h_X o) [] = primal_of K (d_state o) /\ last (h_Y o) [] = s_Y (d_state o)).
Lemma hist_step N k o o' : (0 < N)%nat -> hist_ok N k o -> dpn_iterate K o = Ok o' -> hist_ok N (S k) o'.
Proof using Hrw Hct.
  intros HN (H1 & H2 & H3 & H4 & H5 & H6 & H7 & H8 & H9) E. apply iterate_inv in E as (o1 & E & ->).
  destruct (iteration_pop K Hct o o1 N H1 E) as (P1 & P2 & _). destruct (iteration_hist o o1 E) as (Q1 & Q2 & Q3 & Q4 & Q5).
  unfold hist_ok, log. cbn [d_state d_iter h_X h_Y h_val h_R]. rewrite Q1, Q2, Q3, Q4, Q5, !app_length. cbn [length].
  assert (HX : s_X (d_state o1) <> []) by (destruct P1 as [L _]; intros E0; rewrite E0 in L; simpl in L; lia).
  repeat (split; [solve [auto | lia]|]). split.
  - intros j Hj. destruct (Nat.eq_dec j k) as [->|Hne].
    + rewrite !app_nth2, H4, H5, Nat.sub_diag by lia. cbn [nth]. split. unfold primal_of, primal. rewrite map_length. apply P1. apply (eval_Y K Hrw); auto.
    + rewrite !app_nth1 by lia. apply H8. lia.
  - intros _. rewrite !last_last. auto.
Qed.
Lemma init_hist rs X0 o : (forall x, In x X0 -> length x = dim_p K) -> length (k_xl K) = dim_p K -> length (k_xu K) = dim_p K ->
  dpn_init K rs X0 = Ok o -> hist_ok (length X0) 0 o.
Proof using.
  intros HX Hl Hu H. unfold dpn_init in H. inv_do H s E. injection H as <-. unfold hist_ok. cbn.
  pose proof (upd_X K _ _ _ E) as EX. split; [|split; [apply (upd_evaluated K _ _ _ E)|]].
  - rewrite EX. split; [apply map_length|]. intros x Hx. apply in_map_iff in Hx as (y & <- & Hy). rewrite app_length, repeat_length. unfold clip_row.
    rewrite !zip_with_length; rewrite ?zip_with_length; rewrite ?(HX y Hy); auto.
  - repeat (split; [auto; try lia|]). congruence.
Qed.

(** * the box *)
Definition all_in_box (o : dpn) : Prop := forall x, In x (primal_of K (d_state o)) -> in_box (k_xl K) (k_xu K) x.
Lemma notable_false st : notable st -> forallb (forallb close_to_0) st = false.
Proof using.
  intros (row & t & H1 & H2 & H3). destruct (forallb (forallb close_to_0) st) eqn:E; auto. exfalso.
  rewrite forallb_forall in E. specialize (E row H1). rewrite forallb_forall in E. specialize (E t H2). unfold close_to_0 in E. apply rleb_true in E. lra.
Qed.
Lemma negligible_true st : ~ notable st -> forallb (forallb close_to_0) st = true.
Proof using.
  intros H. apply forallb_forall. intros row Hr. apply forallb_forall. intros t Ht. unfold close_to_0. apply rleb_true. apply Rnot_lt_le. intros Hlt. apply H. exists row, t. auto.
Qed.
Lemma box_step N o o' : length (k_xl K) = dim_p K -> length (k_xu K) = dim_p K -> pop K N (s_X (d_state o)) -> all_in_box o -> newton_iteration K o = Ok o' ->
  notable (d_step o') -> all_in_box o'.
Proof using Hct.
  intros Hl Hu HP HB H Hn. apply iteration_pieces in H as (q & E1 & E2 & E3 & E4 & E5 & E6 & E7 & ->). cbn [d_step] in Hn. unfold all_in_box. cbn [d_state].
  destruct (newton_step_pop K _ _ _ _ _ _ N Hct HP E4) as [P1 L1]. destruct (handle_box_pop K _ _ _ N HP P1 E5) as (P2 & L2 & HBX). cbn [fst snd] in *.
  pose proof (line_search_length K _ _ _ _ _ _ _ N HP P2 E6) as L3. cbn [fst] in L3.
  pose proof (line_search_bounds K _ _ _ _ _ _ _ N (proj1 HP) L2 (notable_false _ Hn) E6) as LB. cbn [fst] in LB.
  unfold primal_of. rewrite (upd_X K _ _ _ E7). intros x Hx. unfold primal in Hx. apply in_map_iff in Hx as (y & <- & Hy).
  apply (In_nth _ _ []) in Hy as (i & Hi & <-). rewrite (moved_length _ _ _ N) in Hi by (auto; apply HP || apply P2). rewrite (moved_row _ _ _ N) by (auto; apply HP || apply P2).
  set (s := d_state o) in *. set (X := s_X s) in *. set (st := q_st q) in *.
  assert (LXN : length X = N) by apply HP. assert (LSN : length st = N) by apply P2. assert (LSN0 : length (q_st0 q) = N) by apply P1.
  assert (LX : length (nth i X []) = dim K) by (apply HP, nth_In; lia).
  assert (LS : length (nth i st []) = dim K) by (apply P2, nth_In; lia).
  assert (LS0 : length (nth i (q_st0 q) []) = dim K) by (apply P1, nth_In; lia).
  assert (Hd : (dim_p K <= dim K)%nat) by (unfold dim; lia).
  assert (EP : nth i (primal_of K s) [] = firstn (dim_p K) (nth i X [])) by (unfold primal_of, primal; rewrite (nth_map_default _ _ _ []) by (fold X; lia); auto).
  specialize (HBX i Hi). rewrite EP in HBX. unfold box_row in HBX.
  assert (Hin : in_box (k_xl K) (k_xu K) (firstn (dim_p K) (nth i X []))).
  { apply HB. rewrite <- EP. apply nth_In. unfold primal_of, primal. rewrite map_length. fold s; fold X; lia. }
  destruct Hin as (B1 & B2 & B3).
  set (p := firstn (dim_p K) (nth i X [])) in *. assert (Lp : length p = dim_p K) by (unfold p; rewrite firstn_length; lia).
  destruct (dpn_box (k_xl K) (k_xu K) p (firstn (dim_p K) (nth i (q_st0 q) []))) as [st' m'] eqn:EB.
  destruct (dpn_box_safe (k_xl K) (k_xu K) p (eq_sym B1) (eq_sym B2) B3 (firstn (dim_p K) (nth i (q_st0 q) [])) _ _ ltac:(rewrite firstn_length; lia) EB) as (Ls' & m & -> & Hm & Hsafe & _).
  cbn [fst snd fin bind] in HBX. injection HBX as HS Hmx.
  specialize (LB i Hi). rewrite <- Hmx in LB. specialize (LB ltac:(lra)).
  change (c_nvar (k_prob K)) with (dim_p K).
  assert (Lz : length (zip_with (fun u v => u + nth i (q_size q) 0 * v) (nth i X []) (nth i st [])) = dim K) by (rewrite zip_with_length; congruence).
  assert (Lf : length (firstn (dim_p K) (zip_with (fun u v => u + nth i (q_size q) 0 * v) (nth i X []) (nth i st []))) = dim_p K) by (rewrite firstn_length; lia).
  split; [congruence|]. split; [congruence|]. rewrite Lf. intros k Hk. rewrite nth_firstn_lt by auto. rewrite (zip_with_nth _ _ _ _ 0 0) by lia.
  specialize (Hsafe (nth i (q_size q) 0) LB k ltac:(lia)). unfold p in Hsafe. rewrite nth_firstn_lt in Hsafe by auto.
  rewrite <- HS. rewrite app_nth1 by lia. exact Hsafe.
Qed.
Lemma clip_in_box xl xu x : length xl = length x -> length xu = length x -> (forall k, (k < length x)%nat -> nth k xl 0 <= nth k xu 0) -> in_box xl xu (clip_row xl xu x).
Proof using.
  intros Hl Hu Hw. unfold clip_row. assert (L : length (zip_with Rmax x xl) = length x) by (apply zip_with_length; auto).
  assert (L' : length (zip_with Rmin (zip_with Rmax x xl) xu) = length x) by (rewrite zip_with_length; congruence).
  split; [congruence|]. split; [congruence|]. rewrite L'. intros k Hk. rewrite (zip_with_nth _ _ _ _ 0 0) by lia. rewrite (zip_with_nth _ _ _ _ 0 0) by lia. specialize (Hw k Hk).
  split. apply Rmin_glb; auto. apply Rmax_r. apply Rmin_r.
Qed.
Lemma init_in_box rs X0 o : (forall x, In x X0 -> length x = dim_p K) -> length (k_xl K) = dim_p K -> length (k_xu K) = dim_p K ->
  (forall k, (k < dim_p K)%nat -> nth k (k_xl K) 0 <= nth k (k_xu K) 0) -> dpn_init K rs X0 = Ok o -> all_in_box o.
Proof using.
  intros HX Hl Hu Hw H. unfold dpn_init in H. inv_do H s E. injection H as <-. unfold all_in_box, primal_of. cbn [d_state]. rewrite (upd_X K _ _ _ E).
  intros x Hx. unfold primal in Hx. rewrite map_map in Hx. apply in_map_iff in Hx as (y & <- & Hy). specialize (HX y Hy).
  pose proof (clip_in_box (k_xl K) (k_xu K) y ltac:(congruence) ltac:(congruence) ltac:(rewrite HX; auto)) as B.
  change (c_nvar (k_prob K)) with (dim_p K). replace (dim_p K) with (length (clip_row (k_xl K) (k_xu K) y) + 0)%nat by (destruct B as (B1 & _); lia).
  rewrite firstn_app_2. cbn [firstn]. rewrite app_nil_r. exact B.
Qed.

(** * the number of Jacobian evaluations *)
Lemma upd_njac s0 X s : upd K s0 X = Ok s -> n_jac s = (n_jac s0 + length X)%nat.
Proof using. intros H. apply (step_counters (zero_row K) (zero_mat K) (k_prob K) s0 (OpUpdate X true true) s) in H. apply H. Qed.
Lemma upd_one_njac s0 x i s : upd_one K s0 x i = Ok s -> n_jac s = S (n_jac s0).
Proof using. intros H. apply (step_counters (zero_row K) (zero_mat K) (k_prob K) s0 (OpOne x i) s) in H. destruct H as (H & _). simpl in H. lia. Qed.
Lemma phi_njac a s st i w al r : phi_func K a s st i w al = Ok r -> snd (snd r) = S (snd w).
Proof using.
  unfold phi_func. intros H. inv_do H s' E. inv_do H d Ed. destruct d as [[g h] rs]. inv_do H Rl ER. inv_do H ri Eri. injection H as <-. cbn [snd].
  apply upd_one_njac in E. exact E.
Qed.
Lemma search_njac (phi : refset * nat -> R -> res (R * (refset * nat))) n : (forall w al r, phi w al = Ok r -> snd (snd r) = S (snd w)) ->
  forall phi0 s2 p2 s1 w r, search phi n phi0 s2 p2 s1 w = Ok r -> (snd w + Nat.min 1 n <= snd (snd r) <= snd w + n)%nat.
Proof using.
  intros Hphi. induction n as [|n IH]; cbn [search]; intros phi0 s2 p2 s1 w r H. injection H as <-. cbn. lia.
  inv_do H pw E. apply Hphi in E. destruct (armijo _ _ _ _). injection H as <-. cbn [snd]. lia. apply IH in H. lia.
Qed.
Lemma search_all_njac a s st Rm mx is : forall w r, search_all K a s st Rm mx is w = Ok r -> (snd w + length is <= snd (snd r) <= snd w + 8 * length is)%nat.
Proof using.
  induction is as [|i is IH]; cbn [search_all length]; intros w r H. injection H as <-. cbn. lia.
  inv_do H m Em. inv_do H Ri ERi. inv_do H r1 E1. inv_do H rs Ers. injection H as <-. cbn [snd]. apply IH in Ers.
  apply search_njac in E1; [|intros; eapply phi_njac; eauto]. simpl Nat.min in E1. lia.
Qed.
(** one evaluation per point for the new population, and between 1 and 8 per point for the line search, if it takes place *)
Lemma njac_step N o o' : pop K N (s_X (d_state o)) -> newton_iteration K o = Ok o' ->
  (notable (d_step o') /\ n_jac (d_state o) + 2 * N <= n_jac (d_state o') <= n_jac (d_state o) + 9 * N)%nat \/
  (~ notable (d_step o') /\ n_jac (d_state o') = (n_jac (d_state o) + N)%nat).
Proof using Hct.
  intros HP H. destruct (iteration_pop K Hct _ _ _ HP H) as ([HN' _] & _). apply iteration_pieces in H as (q & E1 & E2 & E3 & E4 & E5 & E6 & E7 & ->). cbn [d_step d_state] in *.
  pose proof (upd_njac _ _ _ E7) as EJ. rewrite (upd_X K _ _ _ E7) in HN'. rewrite HN' in EJ. cbn [set_njac n_jac] in EJ. unfold line_search in E6. destruct HP as [HN _]. rewrite HN in E6.
  destruct (forallb (forallb close_to_0) (q_st q)) eqn:Ez.
  - right. injection E6 as _ _ Enj. split. intros Hn. apply notable_false in Hn. congruence. lia.
  - left. apply search_all_njac in E6. cbn [snd] in E6. rewrite seq_length in E6. split; [|lia].
    destruct (Classical_Prop.classic (notable (q_st q))) as [Hn|Hn]; auto. apply negligible_true in Hn. congruence.
Qed.
End Dpn.
