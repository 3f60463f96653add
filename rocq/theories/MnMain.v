(** One iteration of MMDNewton: success and what it does. *)
From Coq Require Import List Arith Bool Reals ZArith Lia Lra Permutation.
From Verif Require Import Num Exn ListAux MiscModel StateModel StateSpec StateProof NewtonModel NewtonProof NewtonBox NewtonPop RefModel RefSpec RefProof RefTop RefShift HVTop HVXModel HVXProof IndModel IndSpec IndProof IndTop MMDModel MMDSpec MMDSym MMDTop StepModel StepSpec StepProof ShiftModel ShiftSpec ShiftMain StepTop StepMain StepIter StepLast IterModel IterSpec IterProof IterMain IterTotal IterConv MnModel MnSpec MnProof.
From Verif Require PropsShift.
Import ListNotations.
Open Scope R_scope.

Lemma mrs_consistent comp e T : consistent (mrs comp e T).
Proof.
  exists T, (ids (length T)). split; [reflexivity|]. split. unfold ids. rewrite map_length, seq_length. auto. split.
  - intros k Hk. exists 0%nat, k, T. split. apply ids_nth; auto. split; [reflexivity|]. auto.
  - intros k k' p H1 H2.
    assert (B : forall k p, nth_error (ids (length T)) k = Some (Some p) -> p = (0%nat, k)).
    { intros q p0 Hq. assert (Hlt : (q < length T)%nat). { assert (L : length (ids (length T)) = length T) by (unfold ids; rewrite map_length, seq_length; auto). rewrite <- L. apply nth_error_Some. congruence. }
      rewrite ids_nth in Hq by auto. congruence. }
    apply B in H1. apply B in H2. congruence.
Qed.
Lemma mrs_eta_ok m comp e T : length e = m -> rows m T -> eta_ok (mrs comp e T).
Proof.
  intros He HT M mi k c i H1 H2. cbn in H1. injection H1 as <- <-. 
  assert (Hlt : (k < length T)%nat). { assert (L : length (ids (length T)) = length T) by (unfold ids; rewrite map_length, seq_length; auto). rewrite <- L. apply nth_error_Some. congruence. }
  rewrite ids_nth in H2 by auto. injection H2 as <- <-. exists e. split; [reflexivity|]. rewrite He. apply HT, nth_In. auto.
Qed.

Lemma drift_lengths t es : forall C C', length es = length C -> drift t es C C' -> length (concat C') = length (concat C).
Proof.
  intros C. revert es. induction C as [|a C IH]; intros es C' Le [L H]. destruct C'; [auto|discriminate]. destruct C' as [|a' C']; [discriminate|]. destruct es as [|e es]; [discriminate|].
  cbn [concat]. rewrite !app_length. destruct (H 0%nat a e eq_refl eq_refl) as (b & Eb & Lb & _). injection Eb as <-. rewrite Lb. f_equal. apply (IH es). simpl in Le; lia. split. simpl in L; lia. intros k. apply (H (S k)).
Qed.

Section Mn.
Variable M : mn_cfg.
Hypothesis P : mn_posed M.
Let K := n_base M.
Let c := k_prob K.
Let m := k_nobj K.
Let W : well_posed K := np_problem M P.
Let OO : oracles_ok K := np_oracles M P.
Local Notation before := (MnProof.before M).
Local Notation after := (MnProof.after M).
Local Notation reads := (MnProof.reads M).

(** * the shift *)
Definition moves_matched (iter : nat) (Y steps : list (list R)) (rs rs' : refset) (lg : list (nat * list R)) : Prop :=
  logged (mmd_moves iter Y (reference_set rs) steps) (reference_set rs') lg /\
  forall k, (k < length Y)%nat -> exists e w, rs_eta rs = [e] /\ shifted w e (nth k (reference_set rs) []) (nth k (reference_set rs') []) /\
    (mmd_moves iter Y (reference_set rs) steps k -> w = 0.08) /\ (~ mmd_moves iter Y (reference_set rs) steps k -> w = 0).
Lemma mshift_matched iter N Y steps rs : (0 < N)%nat -> matched K N rs -> length Y = N -> (iter <> 0%nat -> length steps = N) ->
  exists rs' lg, mmd_shift iter N Y steps rs = Ok (rs', lg) /\ matched K N rs' /\ rs_eta rs' = rs_eta rs /\ rs_ref rs' = rs_ref rs /\ moves_matched iter Y steps rs rs' lg.
Proof using.
  intros HN (comp & e & T & Hf & -> & LT & RT) HY Hst.
  set (st' := match iter with O => repeat [] N | S _ => steps end).
  assert (Ls : length st' = length T). { unfold st'. destruct iter. rewrite repeat_length; auto. rewrite Hst; auto. }
  assert (Es : mmd_shift iter N Y steps (mrs comp e T) = mmd_shift iter N Y st' (mrs comp e T)). { unfold st'. destruct iter; reflexivity. }
  assert (HT : T <> []) by (intros E; rewrite E in LT; simpl in LT; lia).
  destruct (mmd_shift_spec iter Y st' (mrs comp e T) T (ids (length T)) (mrs_consistent comp e T) (mrs_eta_ok m comp e T (proj1 Hf) RT) eq_refl ltac:(congruence) HT Ls) as (rs' & lg & T' & E & _ & _ & Em & LT' & Hlg & Hk).
  assert (Hmv : forall k, mmd_moves iter Y T steps k <-> mmd_moves iter Y T st' k). { intros k. unfold st', mmd_moves. destruct iter; tauto. }
  rewrite LT in E. assert (HR : reference_set rs' = T') by (unfold reference_set; rewrite Em; auto).
  (* the shape of the result *)
  pose proof E as E0. unfold mmd_shift in E0. inv_do E0 mask Ek. inv_do E0 rs2 Es2. inv_do E0 lg2 Elg. injection E0 as -> ->.
  unfold shift_ref in Es2. cbn [mrs rs_matched rs_eta rs_medoids rs_ref rs_Yidx rs_rematch] in Es2. rewrite LT in Es2.
  assert (Hix : forall k, In k (indices_of mask) -> (k < N)%nat).
  { intros k Hk0. unfold indices_of in Hk0. apply positions_iff in Hk0 as [Hk0 _].
    destruct (mmd_masks_spec iter Y (reference_set (mrs comp e T)) st' HT ltac:(congruence)) as (mask' & E' & L' & _). rewrite HY in E', L'. rewrite E' in Ek. injection Ek as <-. lia. }
  destruct (shift_fold_ids K 0.08 e N (indices_of mask) (proj1 Hf) Hix T LT RT) as (T2 & EF & L2 & R2). rewrite EF in Es2. cbn [bind fst snd] in Es2. injection Es2 as <-.
  exists (mrs comp e T2), lg. assert (Emrs : mkRS [comp] [e] (Some [seq 0 N]) true [Some T2] (Some (T2, ids N)) = mrs comp e T2) by (unfold mrs; rewrite L2; reflexivity).
  rewrite Emrs in *. rewrite Es. split; auto. split. exists comp, e, T2. auto. split; [reflexivity|]. split; [reflexivity|]. unfold moves_matched. cbn [reference_set mrs rs_matched rs_eta] in *. subst T2. split.
  - destruct Hlg as [G1 G2]. split; auto. intros k r. rewrite G2, Hmv. reflexivity.
  - intros k Hlt. rewrite HY, <- LT in Hlt. destruct (Hk k Hlt) as (c0 & i0 & e0 & w & B1 & B2 & B3 & B4 & B5). rewrite ids_nth in B1 by auto. injection B1 as <- <-. cbn in B2. injection B2 as <-.
    exists e, w. split; auto. split; auto. rewrite Hmv. auto.
Qed.
Lemma mshift_unmatched iter N Y steps rs : (0 < N)%nat -> unmatched M N rs -> length Y = N -> (iter <> 0%nat -> length steps = N) ->
  exists rs' lg, mmd_shift iter N Y steps rs = Ok (rs', lg) /\ unmatched M N rs' /\ rs_eta rs' = rs_eta rs /\ drift 0.08 (rs_eta rs) (rs_ref rs) (rs_ref rs').
Proof using.
  intros HN HU HY Hst. pose proof (unmatched_ref M N rs HU) as ER. destruct HU as (U1 & U2 & U3 & U4 & U5).
  assert (Hne : reference_set rs <> []). { rewrite ER. intros E. rewrite E in U5. simpl in U5. lia. }
  set (st' := match iter with O => repeat [] N | S _ => steps end).
  assert (Ls : length st' = length Y). { unfold st'. destruct iter. rewrite repeat_length; auto. rewrite Hst; auto. }
  destruct (mmd_masks_spec iter Y (reference_set rs) st' Hne Ls) as (mask & E & L & _). rewrite HY in E, L.
  assert (Es : mmd_masks iter N Y (reference_set rs) steps = Ok mask). { rewrite <- E. unfold st'. destruct iter; reflexivity. }
  unfold mmd_shift. rewrite Es. cbn [bind].
  destruct (unmatched_shift rs 0.08 (Some (indices_of mask)) U1 ltac:(lia)) as (rs' & E1 & M1 & M2 & R1). rewrite E1. cbn [bind].
  assert (HL : length (reference_set rs') = length (concat (rs_ref rs))).
  { unfold reference_set. rewrite M1, R1. apply (length_shifted_ref (fun k => scale 0.08 (nth k (rs_eta rs) []))). }
  rewrite log_total. 2:{ intros k Hk. unfold indices_of in Hk. apply positions_iff in Hk. rewrite HL. lia. }
  cbn [bind]. eexists _, _. split; [reflexivity|].
  assert (LC : length (rs_ref rs') = length (rs_ref rs)) by (rewrite R1, map_length, combine_length, seq_length; lia).
  assert (Hnth : forall k comp, nth_error (rs_ref rs) k = Some comp -> nth_error (rs_ref rs') k = Some (map (fun r => add_vec r (scale 0.08 (nth k (rs_eta rs) []))) comp)).
  { intros k comp Hk. assert (Hc : (k < length (rs_ref rs))%nat) by (apply nth_error_Some; congruence).
    rewrite R1, nth_error_map. rewrite (List.nth_error_nth' _ (0%nat, [])) by (rewrite combine_length, seq_length, Nat.min_id; auto).
    rewrite combine_nth by apply seq_length. rewrite seq_nth by auto. cbn [option_map fst snd Nat.add]. rewrite (nth_error_nth _ _ [] Hk). auto. }
  assert (Hrow : forall k comp e r, nth_error (rs_ref rs) k = Some comp -> nth_error (rs_eta rs) k = Some e -> In r comp -> length r = m /\ length e = m).
  { intros k comp e r Hk He Hr. split. apply U4. apply in_concat. exists comp. split; auto. eapply nth_error_In; eauto. apply U3. eapply nth_error_In; eauto. }
  assert (HD : drift 0.08 (rs_eta rs) (rs_ref rs) (rs_ref rs')).
  { split; auto. intros k comp e Hk He. eexists. split; [apply Hnth; eauto|]. split. rewrite map_length; auto. intros i Hi. rewrite (nth_map_default _ _ _ []) by auto.
    rewrite (nth_error_nth _ _ [] He). destruct (Hrow k comp e (nth i comp []) Hk He (nth_In _ _ Hi)) as [A B].
    split. rewrite add_vec_length; auto. rewrite scale_length; congruence. intros j. rewrite add_vec_nth, scale_nth; auto. rewrite scale_length; congruence. }
  split; [|split; auto]. split; auto. split. rewrite M2. congruence. split. rewrite M2; auto. split.
  - intros r Hr. apply in_concat in Hr as (comp' & Hc & Hr). apply In_nth_error in Hc as (k & Hk). destruct (nth_error (rs_ref rs) k) as [comp|] eqn:Ec.
    2:{ apply nth_error_None in Ec. assert (k < length (rs_ref rs'))%nat by (apply nth_error_Some; congruence). lia. }
    rewrite (Hnth k comp Ec) in Hk. injection Hk as <-. apply in_map_iff in Hr as (r0 & <- & Hr0).
    destruct (nth_error (rs_eta rs) k) as [e|] eqn:Ee. 2:{ apply nth_error_None in Ee. assert (k < length (rs_ref rs))%nat by (apply nth_error_Some; congruence). lia. }
    rewrite (nth_error_nth _ _ [] Ee). destruct (Hrow k comp e r0 Ec Ee Hr0) as [A B]. rewrite add_vec_length; auto. rewrite scale_length; congruence.
  - rewrite (drift_lengths 0.08 (rs_eta rs) (rs_ref rs)); auto.
Qed.
Definition shifts (iter N : nat) (Y steps : list (list R)) (rs rs' : refset) (lg : list (nat * list R)) : Prop :=
  after N rs' /\ rs_eta rs' = rs_eta rs /\
  if n_match M then rs_ref rs' = rs_ref rs /\ moves_matched iter Y steps rs rs' lg else drift 0.08 (rs_eta rs) (rs_ref rs) (rs_ref rs').
Lemma shift_total iter N Y steps rs : (0 < N)%nat -> after N rs -> length Y = N -> (iter <> 0%nat -> length steps = N) ->
  exists rs' lg, mmd_shift iter N Y steps rs = Ok (rs', lg) /\ shifts iter N Y steps rs rs' lg.
Proof using.
  intros HN Ha HY Hst. unfold shifts, MnProof.after in *. destruct (n_match M).
  - destruct (mshift_matched iter N Y steps rs HN Ha HY Hst) as (rs' & lg & E & H1 & H2 & H3 & H4). exists rs', lg. auto.
  - destruct (mshift_unmatched iter N Y steps rs HN Ha HY Hst) as (rs' & lg & E & H1 & H2 & H3). exists rs', lg. auto.
Qed.

(** * the step size *)
(** 1 if the median of the components is about 0; otherwise the first accepted of 1, 1/2, ..., 1/32, or 1/64 *)
Definition negligible_step (st : list (list R)) : bool := near_resolution (median (concat (map (firstn (dim_p K)) st))).
Definition sized (N : nat) (s : pstate) (X st Rm : list (list R)) (rs rs' : refset) (a : R) : Prop :=
  (negligible_step st = true /\ a = 1 /\ rs' = rs) \/
  (negligible_step st = false /\ exists k, (k <= 6)%nat /\ a = (/ 2) ^ k /\ reads N rs rs' /\
    ((k < 6)%nat -> trial M N s X st rs (reference_set rs') (norm (concat Rm)) a true) /\
    (forall k', (k' < k)%nat -> exists r1, reads N rs r1 /\ trial M N s X st rs (reference_set r1) (norm (concat Rm)) ((/ 2) ^ k') false)).
Lemma search_total N s X st Rm rs i : (0 < N)%nat -> pop K N X -> holds K s X -> matrix N (dim K) st -> after N rs -> quarter i ->
  exists a rs' i', mn_search M rs i s st Rm (snd (mmd_box st)) = Ok (a, (rs', i')) /\ quarter i' /\ sized N s X st Rm rs rs' a /\ after N rs'.
Proof using P.
  intros HN HP H Hst Ha Hq. unfold mn_search. fold K. change (near_resolution _) with (negligible_step st). destruct (negligible_step st) eqn:En.
  - exists 1, rs, i. split; auto. split; auto. split; auto. left. auto.
  - assert (Hne : st <> []) by (intros E; rewrite E in Hst; destruct Hst as [L _]; simpl in L; lia). rewrite PropsShift.mmd_box_min by auto. cbn [bind].
    destruct (halving_spec M P N s X st (norm (concat Rm)) 6 HN HP H Hst 1 (rs, i) (after_before M N rs Ha) Hq) as (k & w' & Hk & E & Q & R1 & _ & A & B). rewrite E. rewrite Rmult_1_l in *. destruct w' as [rs' i']. cbn [fst snd] in *.
    exists ((/ 2) ^ k), rs', i'. split; auto. split; auto. pose proof (R1 ltac:(lia)) as RR. split; [|apply RR]. right. split; auto. exists k. split; auto. split; auto. split; auto. split; auto. intros k' Hk'. destruct (B k' Hk') as (r1 & C1 & C2). rewrite Rmult_1_l in C2. exists r1. auto.
Qed.

(** * one iteration *)
Record pieces : Type := mkPieces { p_v : R; p_1 : refset; p_2 : refset; p_lg : list (nat * list R); p_st : list (list R); p_R : list (list R); p_3 : refset; p_a : R; p_4 : refset; p_i : mmdm; p_s : pstate }.
Definition grad_rows (N : nat) (s : pstate) (T : list (list R)) : list (list R) := mk2 N (dim_p K) (gradm M s T).
Definition hess_rows (N : nat) (s : pstate) (T : list (list R)) : list (list R) := flat N (dim_p K) (hessm M s T).
Record facts (N : nat) (o o' : mn) (q : pieces) : Prop := {
  f_reads1 : reads N (w_ref o) (p_1 q);
  f_value : targets M (reference_set (w_ref o)) (s_Y (w_state o)) (reference_set (p_1 q)) /\ discrepancy M (reference_set (p_1 q)) (s_Y (w_state o)) (p_v q);
  f_shift : shifts (w_iter o) N (s_Y (w_state o)) (map (firstn (dim_p K)) (w_step o)) (p_1 q) (p_2 q) (p_lg q);
  f_reads3 : reads N (p_2 q) (p_3 q);
  f_targets : targets M (reference_set (p_2 q)) (s_Y (w_state o)) (reference_set (p_3 q));
  f_R : mn_R M (w_state o) (grad_rows N (w_state o) (reference_set (p_3 q))) = Ok (p_R q);
  f_step : mmd_step (k_solve K) (k_lstsq K) (k_chol K) (dim_p K) (dim_d K) (is_constrained K) (k_pre K) (hess_rows N (w_state o) (reference_set (p_3 q))) (points_of K (w_state o) (grad_rows N (w_state o) (reference_set (p_3 q)))) = Ok (p_st q, p_R q);
  f_shapes : matrix N (dim K) (p_st q) /\ matrix N (dim K) (p_R q);
  f_size : sized N (w_state o) (s_X (w_state o)) (p_st q) (p_R q) (p_3 q) (p_4 q) (p_a q);
  f_after : after N (p_4 q);
  f_quarter : quarter (p_i q);
  f_upd : upd K (w_state o) (mmd_update (p_a q) (s_X (w_state o)) (p_st q)) = Ok (p_s q);
  f_pop : pop K N (mmd_update (p_a q) (s_X (w_state o)) (p_st q));
  f_holds : holds K (p_s q) (mmd_update (p_a q) (s_X (w_state o)) (p_st q));
  f_res : o' = mkMn (p_s q) (p_4 q) (p_i q) (S (w_iter o)) (Some (p_v q)) (p_st q) (p_R q) (Some (p_a q)) (e_X o) (e_Y o) (e_val o) (e_R o) (e_med o ++ p_lg q)
}.
Definition good (N : nat) (o : mn) : Prop :=
  (exists X, pop K N X /\ holds K (w_state o) X) /\ before N (w_ref o) /\ quarter (w_ind o) /\ (w_iter o <> 0%nat -> after N (w_ref o) /\ length (w_step o) = N).
Lemma iteration_total N o : (0 < N)%nat -> good N o -> exists o' q, mn_iteration M o = Ok o' /\ facts N o o' q.
Proof using P.
  intros HN ((X & HP & H) & Hb & Hq & Hi). destruct (pop_Y K W N _ X HP H) as [LY RY]. unfold mn_iteration. fold K. pose proof (holds_X _ _ _ H) as EX. rewrite EX. replace (length X) with N by (symmetry; apply HP).
  destruct (value_total M P N (w_ref o) (w_ind o) (s_Y (w_state o)) HN Hb LY RY (proj1 Hq)) as (v & rs1 & Ev & R1 & T1 & D1). rewrite Ev. cbn [bind fst snd].
  destruct (shift_total (w_iter o) N (s_Y (w_state o)) (map (firstn (dim_p K)) (w_step o)) rs1 HN (proj1 R1) LY ltac:(intros Hne; rewrite map_length; apply Hi; auto)) as (rs2 & lg & Es & S1). rewrite Es. cbn [bind fst snd].
  destruct (mn_step_total M P N (w_state o) X rs2 (w_ind o) HN HP H (after_before M N _ (proj1 S1)) Hq) as (st & Rm & rs3 & i3 & En & M1 & M2 & R3 & T3 & Q3 & ER & ES). rewrite En. cbn [bind].
  change (fst (mmd_box st)) with st.
  destruct (search_total N (w_state o) X st Rm rs3 i3 HN HP H M1 (proj1 R3) Q3) as (a & rs4 & i4 & El & Q4 & Z4 & A4). rewrite El. cbn [bind fst snd].
  pose proof (trial_pop M N X st a HP M1) as HT. destruct (upd_total K W (w_state o) N _ HN HT) as (s' & E & H'). rewrite E. cbn [bind].
  eexists _, (mkPieces v rs1 rs2 lg st Rm rs3 a rs4 i4 s'). split; [reflexivity|]. rewrite <- EX in *. constructor; cbn [p_v p_1 p_2 p_lg p_st p_R p_3 p_a p_4 p_i p_s]; auto.
Qed.
Lemma facts_good N o o' q : facts N o o' q -> good N o' /\ w_iter o' = S (w_iter o).
Proof using.
  intros F. rewrite (f_res _ _ _ _ F). split; [|reflexivity]. split. eexists. split. apply (f_pop _ _ _ _ F). apply (f_holds _ _ _ _ F). cbn [w_ref w_ind w_iter w_step]. split. apply after_before, (f_after _ _ _ _ F).
  split. apply (f_quarter _ _ _ _ F). intros _. split. apply (f_after _ _ _ _ F). apply (proj1 (f_shapes _ _ _ _ F)).
Qed.
Lemma log_good N o : good N o -> good N (mn_log M o).
Proof using. intros H. exact H. Qed.
Lemma iterate_total N o : (0 < N)%nat -> good N o -> exists o' q, mn_iterate M o = Ok (mn_log M o') /\ mn_iteration M o = Ok o' /\ facts N o o' q /\ good N (mn_log M o').
Proof using P.
  intros HN Hg. destruct (iteration_total N o HN Hg) as (o' & q & E & F). exists o', q. unfold mn_iterate. rewrite E. split; auto. split; auto. split; auto. apply log_good, (facts_good N o o' q F).
Qed.
Lemma init_total rs X0 : mn_input M rs X0 -> exists o, mn_init M rs X0 = Ok o /\ good (length X0) o /\ w_ref o = rs /\ w_iter o = 0%nat.
Proof using P.
  intros (HN & HX & Hr). unfold mn_init. fold K.
  assert (HP : pop K (length X0) (map (fun x => clip_row (k_xl K) (k_xu K) x ++ repeat 0 (dim_d K)) X0)).
  { split. apply map_length. intros y Hy. apply in_map_iff in Hy as (x & <- & Hx). rewrite app_length, repeat_length. unfold clip_row. rewrite !zip_with_length. unfold IterProof.dim. rewrite (HX x Hx). reflexivity.
    rewrite (HX x Hx). symmetry. apply (wp_xl K W). rewrite zip_with_length. rewrite (HX x Hx). symmetry. apply (wp_xu K W). rewrite (HX x Hx). symmetry. apply (wp_xl K W). }
  destruct (upd_total K W init (length X0) _ HN HP) as (s & E & H). rewrite E. cbn [bind]. eexists. split; [reflexivity|]. split; [|split; reflexivity].
  split. exists (map (fun x => clip_row (k_xl K) (k_xu K) x ++ repeat 0 (dim_d K)) X0). auto. cbn [w_ref w_ind w_iter]. split; [|split]. 2: apply new_quarter. 2: congruence.
  unfold MnProof.before. destruct (n_match M).
  - destruct Hr as (comp & e & E1 & Le & Lc & Rc). injection E1 as <-. right. exists comp, e. split; [|reflexivity]. split; auto.
  - destruct Hr as (comps & es & E1 & Le & Re & Rc & Lc). destruct comps as [|co comps]; [discriminate|]. injection E1 as <-. split; [reflexivity|]. cbn [rs_eta rs_ref]. auto.
Qed.
End Mn.
