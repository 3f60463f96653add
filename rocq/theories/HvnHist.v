(** Runs of HVN: history, box, standstill, line search. *)
From Coq Require Import List Arith Bool Reals ZArith Lia Lra Psatz Permutation.
From Verif Require Import Num Exn ListAux MiscModel StateModel StateSpec StateProof NewtonModel NewtonProof NewtonBox NewtonPop RefModel RefSpec HVTop HVXModel HVXProof IndModel IndSpec IndProof StepModel StepSpec StepProof StepTop StepMain StepIter StepLast ShiftModel IterModel IterSpec IterProof IterMain IterTotal HvnModel HvnSpec HvnProof HvnMain HvnRun.
From Verif Require PropsNewton.
Import ListNotations.
Open Scope R_scope.

Section Hvn.
Variable V : hvn_cfg.
Hypothesis P : hvn_posed V.
Let K := as_dpn V.
Let c := v_prob V.
Let W : well_posed K := hp_problem V P.

(** * traces *)
Lemma objects_sound X0 l : hvn_input V X0 -> hvn_objects V X0 l -> forall o, In o l -> sound V o.
Proof using P.
  intros HI. destruct l as [|o0 l]; [intros []|]. intros [E Ht] o Ho. destruct (init_sound V P X0 o0 HI E) as [S0 _].
  clear E. revert o0 S0 Ht Ho. induction l as [|o1 l IH]; intros o0 S0 Ht Ho; simpl in Ho. destruct Ho as [<-|[]]; auto.
  destruct Ht as [E Ht]. destruct Ho as [<-|Ho]; auto. apply (IH o1); auto. apply (iterate_sound V P o0); auto.
Qed.
Lemma objects_step X0 l k o o' : hvn_input V X0 -> hvn_objects V X0 l -> nth_error l k = Some o -> nth_error l (S k) = Some o' ->
  sound V o /\ hvn_iterate V o = Ok o'.
Proof using P.
  intros HI HO Ho Ho'. split. apply (objects_sound X0 l HI HO). eapply nth_error_In; eauto.
  destruct l as [|o0 l]; [destruct HO|]. destruct HO as [_ Ht]. revert o0 k Ht Ho Ho'. induction l as [|o1 l IH]; intros o0 k Ht Ho Ho'.
  - destruct k; discriminate.
  - destruct Ht as [E Ht]. destruct k as [|k]; simpl in Ho, Ho'. congruence. apply (IH o1 k Ht Ho). exact Ho'.
Qed.
Lemma trace_history l : forall o k ok, trace (hvn_iterate V) o l -> nth_error (o :: l) k = Some ok ->
  n_iter ok = (n_iter o + k)%nat /\
  g_X ok = g_X o ++ map (fun q => vprimal V (n_state q)) (firstn k l) /\ g_Y ok = g_Y o ++ map (fun q => s_Y (n_state q)) (firstn k l) /\
  g_val ok = g_val o ++ map n_value (firstn k l) /\ g_R ok = g_R o ++ map (fun q => median (map norm (n_R q))) (firstn k l).
Proof using.
  induction l as [|o1 l IH]; intros o k ok Ht Hk.
  - destruct k as [|k]; [|destruct k; discriminate]. injection Hk as <-. cbn [firstn map]. rewrite !app_nil_r. rewrite Nat.add_0_r. auto.
  - destruct k as [|k]. injection Hk as <-. cbn [firstn map]. rewrite !app_nil_r. rewrite Nat.add_0_r. auto.
    destruct Ht as [E Ht]. cbn [nth_error] in Hk. destruct (IH o1 k ok Ht Hk) as (H0 & H1 & H2 & H3 & H4). rewrite H0, H1, H2, H3, H4. cbn [firstn map].
    unfold hvn_iterate in E. inv_do E o2 E2. injection E as <-. cbn [hvn_log n_iter g_X g_Y g_val g_R n_state n_value n_R].
    unfold hvn_iteration in E2. inv_do E2 s E3. inv_do E2 v E4. inv_do E2 d E5. inv_do E2 r E6. destruct r as [[st Rm] size]. inv_do E2 s' E7. injection E2 as <-.
    cbn [n_iter g_X g_Y g_val g_R n_state n_value n_R]. rewrite <- !app_assoc. repeat split; auto; try lia.
Qed.

(** * one iteration in terms of rows *)
Lemma new_row o o1 idx s d i : pieces V o o1 idx s d -> (i < length idx)%nat ->
  nth i (s_X s) [] = nth (nth i idx 0%nat) (s_X (n_state o)) [] /\ (nth i idx 0 < length (s_X (n_state o)))%nat /\
  nth i (s_X (n_state o1)) [] = zip_with (fun u v => u + nth i (n_size o1) 0 * v) (nth i (s_X s) []) (nth i (n_step o1) []) /\
  length (nth i (s_X s) []) = vdim V /\ length (nth i (n_step o1) []) = vdim V /\ length (nth i (s_X (n_state o1)) []) = vdim V.
Proof using.
  intros Q Hi. pose proof (holds_X K _ _ (q_holds V _ _ _ _ _ Q)) as EX. pose proof (q_pop V _ _ _ _ _ Q) as [LP HP].
  destruct (q_step V _ _ _ _ _ Q) as ((L1 & M1) & _ & L3).
  assert (LX : length (s_X s) = length idx) by (rewrite EX; apply rows_at_length).
  assert (E1 : nth i (s_X s) [] = nth (nth i idx 0%nat) (s_X (n_state o)) []) by (rewrite EX, rows_at_nth; auto).
  assert (Lr : length (nth i (s_X s) []) = vdim V) by (rewrite EX; apply (HP (nth i _ [])), nth_In; rewrite rows_at_length; auto).
  assert (Ls : length (nth i (n_step o1) []) = vdim V) by (apply M1, nth_In; lia).
  assert (E2 : nth i (s_X (n_state o1)) [] = zip_with (fun u v => u + nth i (n_size o1) 0 * v) (nth i (s_X s) []) (nth i (n_step o1) [])).
  { destruct (q_new V _ _ _ _ _ Q) as [H _]. rewrite (holds_X K _ _ H). rewrite (moved_row _ _ _ (length idx)); auto. }
  split; auto. split. destruct (q_thin V _ _ _ _ _ Q) as (_ & Hb & _). specialize (Hb (nth i idx 0%nat) (nth_In _ _ Hi)). unfold vprimal, primal in Hb. rewrite map_length in Hb. auto.
  split; auto. split; auto. split; auto. rewrite E2, NewtonProof.zip_with_length; congruence.
Qed.
Lemma primal_nth s i j : (i < length (s_X s))%nat -> (j < vdim_p V)%nat -> nth j (nth i (vprimal V s) []) 0 = nth j (nth i (s_X s) []) 0.
Proof using.
  intros Hi Hj. unfold vprimal, primal. rewrite (nth_map_default _ _ _ []) by auto. apply nth_firstn_lt. auto.
Qed.
(** the step size of a layer: [mx] the maximal one *)
Lemma layer_size o o1 idx s d l : pieces V o o1 idx s d -> In l (map snd d) -> exists t st Rm mx a, getitem s l = Ok t /\ s_X t = rows_at [] (s_X s) l /\
  holds K t (rows_at [] (s_X s) l) /\ pop K (length l) (rows_at [] (s_X s) l) /\ matrix (length l) (vdim V) st /\ rows_at [] (n_step o1) l = st /\ (forall i, In i l -> nth i (n_size o1) 0 = a) /\
  max_step_size (v_limit V) (v_xl V) (v_xu V) (vprimal V t) (map (firstn (vdim_p V)) st) = Ok mx /\
  vbacktrack 6 (vphi V t st) (norm (concat Rm)) mx = Ok a /\ vstep V t = Ok (st, Rm).
Proof using.
  intros Q Hin. destruct (q_layer V _ _ _ _ _ Q l Hin) as (t & st & Rm & a & H1 & H2 & H3 & H4 & H5 & H6 & H7 & H8 & H9 & H10).
  unfold vlayer_size in H5. rewrite H1 in H5. cbn [bind] in H5. inv_do H5 mx Em. exists t, st, Rm, mx, a. pose proof (holds_X K _ _ H2). auto 12.
Qed.
Lemma layer_shape l t st X : holds K t (rows_at [] X l) -> pop K (length l) (rows_at [] X l) -> matrix (length l) (vdim V) st ->
  PropsNewton.same_shape (length (v_xl V)) (v_xl V) (v_xu V) (vprimal V t) (map (firstn (vdim_p V)) st).
Proof using P.
  intros H HP [L1 M1]. destruct (vprimal_rows V (length l) _ t HP H) as [LP RP]. pose proof (wp_xl K W) as Hl. pose proof (wp_xu K W) as Hu. cbn in Hl, Hu. fold (vdim_p V) in Hl, Hu.
  repeat split; auto; try congruence. rewrite map_length; congruence. intros r Hr. rewrite Hl; auto.
  intros r Hr. apply in_map_iff in Hr as (q & <- & Hq). rewrite firstn_length, (M1 q Hq), Hl. unfold vdim. lia.
Qed.

(** * the box *)
Lemma box_iteration o o1 idx s d i : v_limit V = true -> pieces V o o1 idx s d -> (i < length idx)%nat ->
  (forall j, (j < vdim_p V)%nat -> nth j (v_xl V) 0 <= nth j (nth i (s_X s) []) 0 <= nth j (v_xu V) 0) ->
  forall j, (j < vdim_p V)%nat ->
    3 / 4 * (nth j (nth i (s_X s) []) 0 - nth j (v_xl V) 0) <= nth j (nth i (s_X (n_state o1)) []) 0 - nth j (v_xl V) 0 /\
    3 / 4 * (nth j (v_xu V) 0 - nth j (nth i (s_X s) []) 0) <= nth j (v_xu V) 0 - nth j (nth i (s_X (n_state o1)) []) 0.
Proof using P.
  intros HL Q Hi HB j Hj. destruct (new_row _ _ _ _ _ i Q Hi) as (_ & _ & ER & Lr & Ls & _).
  destruct (q_part V _ _ _ _ _ Q) as (D1 & D2 & D3). specialize (D3 i Hi). apply in_concat in D3 as (l & Hin & Hil).
  destruct (layer_size _ _ _ _ _ l Q Hin) as (t & st & Rm & mx & a & H1 & EX & H2 & H3 & H4 & H5 & H6 & H7 & H8 & _). rewrite HL in H7.
  apply (In_nth _ _ 0%nat) in Hil as (q & Hq & Eq). pose proof (H6 i) as Ha. rewrite <- Eq in Ha at 1. specialize (Ha (nth_In _ _ Hq)).
  destruct (max_step_key _ _ _ _ _ (layer_shape l t st _ H2 H3 H4) H7) as [Hm Hk].
  destruct (vprimal_rows V (length l) _ t H3 H2) as [LP RP]. pose proof (wp_xl K W) as Hl. cbn in Hl. fold (vdim_p V) in Hl.
  specialize (Hk q j ltac:(lia) ltac:(lia)). cbv zeta in Hk.
  assert (Lt : length (s_X t) = length l) by (rewrite EX; apply rows_at_length).
  rewrite primal_nth in Hk by lia. rewrite EX, rows_at_nth, Eq in Hk by auto.
  assert (Es : nth j (nth q (map (firstn (vdim_p V)) st) []) 0 = nth j (nth i (n_step o1) []) 0).
  { rewrite (nth_map_default _ _ _ []) by (rewrite (proj1 H4); auto). rewrite nth_firstn_lt by auto. rewrite <- H5, rows_at_nth, Eq by auto. reflexivity. }
  rewrite Es in Hk. destruct (vbacktrack_spec _ _ _ _ _ H8) as (k & _ & Ea & _). pose proof (half_pow k) as Hp.
  assert (Hj' : (j < vdim V)%nat) by (unfold vdim; lia).
  assert (EN : nth j (nth i (s_X (n_state o1)) []) 0 = nth j (nth i (s_X s) []) 0 + a * nth j (nth i (n_step o1) []) 0).
  { rewrite ER, (zip_with_nth _ _ _ _ 0 0), Ha by lia. reflexivity. }
  rewrite EN. specialize (HB j Hj). destruct Hk as [K1 K2].
  rewrite (Rabs_right (_ - nth j (v_xl V) 0)) in K1 by lra. rewrite (Rabs_right (nth j (v_xu V) 0 - _)) in K2 by lra.
  set (x := nth j (nth i (s_X s) []) 0) in *. set (w := nth j (nth i (n_step o1) []) 0) in *. set (lo := nth j (v_xl V) 0) in *. set (up := nth j (v_xu V) 0) in *.
  assert (Hm0 : 0 <= mx) by lra. assert (Ham : 0 <= a <= mx) by (subst a; nra).
  destruct (Rtotal_order w 0) as [Hw|[Hw|Hw]]; [specialize (K1 Hw)|rewrite Hw in *|specialize (K2 Hw)]; split; try nra.
Qed.
(** a point on the boundary whose step points outwards stops its layer *)
Lemma stall_iteration o o1 idx s d l i j : v_limit V = true -> pieces V o o1 idx s d -> In l (map snd d) -> In i l -> (j < vdim_p V)%nat ->
  (nth j (nth i (s_X s) []) 0 = nth j (v_xl V) 0 /\ nth j (nth i (n_step o1) []) 0 < 0 \/ nth j (nth i (s_X s) []) 0 = nth j (v_xu V) 0 /\ 0 < nth j (nth i (n_step o1) []) 0) ->
  forall i', In i' l -> nth i' (s_X (n_state o1)) [] = nth i' (s_X s) [].
Proof using P.
  intros HL Q Hin Hil Hj Hb i' Hi'. destruct (q_part V _ _ _ _ _ Q) as (D1 & _ & _). destruct (D1 l Hin) as [_ Hlt].
  destruct (layer_size _ _ _ _ _ l Q Hin) as (t & st & Rm & mx & a & H1 & EX & H2 & H3 & H4 & H5 & H6 & H7 & H8 & _). rewrite HL in H7.
  apply (In_nth _ _ 0%nat) in Hil as (q & Hq & Eq).
  destruct (max_step_key _ _ _ _ _ (layer_shape l t st _ H2 H3 H4) H7) as [Hm Hk].
  destruct (vprimal_rows V (length l) _ t H3 H2) as [LP RP]. pose proof (wp_xl K W) as Hl. cbn in Hl. fold (vdim_p V) in Hl.
  specialize (Hk q j ltac:(lia) ltac:(lia)). cbv zeta in Hk.
  assert (Lt : length (s_X t) = length l) by (rewrite EX; apply rows_at_length).
  rewrite primal_nth in Hk by lia. rewrite EX, rows_at_nth, Eq in Hk by auto.
  assert (Es : nth j (nth q (map (firstn (vdim_p V)) st) []) 0 = nth j (nth i (n_step o1) []) 0).
  { rewrite (nth_map_default _ _ _ []) by (rewrite (proj1 H4); auto). rewrite nth_firstn_lt by auto. rewrite <- H5, rows_at_nth, Eq by auto. reflexivity. }
  rewrite Es in Hk. assert (E0 : mx = 0).
  { destruct Hk as [K1 K2]. destruct Hb as [[B1 B2]|[B1 B2]].
    - specialize (K1 B2). rewrite B1, Rminus_diag_eq, Rabs_R0 in K1 by auto. nra.
    - specialize (K2 B2). rewrite B1, Rminus_diag_eq, Rabs_R0 in K2 by auto. nra. }
  subst mx. destruct (vbacktrack_spec _ _ _ _ _ H8) as (k & _ & Ea & _). rewrite Rmult_0_l in Ea. subst a.
  destruct (new_row _ _ _ _ _ i' Q (Hlt i' Hi')) as (_ & _ & ER & Lr & Ls & _). rewrite ER, (H6 i' Hi'). apply (nth_ext _ _ 0 0). rewrite NewtonProof.zip_with_length; congruence.
  intros n Hn. rewrite NewtonProof.zip_with_length in Hn by congruence. rewrite (zip_with_nth _ _ _ _ 0 0) by lia. lra.
Qed.

(** * the line search *)
Lemma norm_euclid v : norm v = euclid v.
Proof using. unfold norm, euclid. f_equal. induction v as [|a v IH]; auto. cbn [map fold_right]. rewrite IH. unfold sumR. cbn [map fold_right]. simpl. ring. Qed.
Lemma merit_start t X N st Rm : (0 < N)%nat -> pop K N X -> holds K t X -> vstep V t = Ok (st, Rm) -> residual_norm V t (norm (concat Rm)).
Proof using P.
  intros HN HP H E. unfold vstep in E. inv_do E gh Eg. destruct gh as [g Hs]. cbn [fst snd] in E. exists g, Rm. rewrite (gradient_total V t _ Eg). split; auto. split; [apply norm_euclid|].
  assert (Hg : matrix N (vdim_p V) g).
  { unfold hv_derivatives in Eg. inv_do Eg q Eq. injection Eg as <- _. destruct (vprimal_rows V N _ t HP H) as [-> _]. apply grad_rows_matrix. }
  unfold hvn_step, global_step in E. inv_do E RH ER. destruct RH as [R1 dH]. cbn [fst snd] in *. inv_do E DR EDR. inv_do E st' Est. injection E as _ <-.
  split; intros Hc; rewrite Hc in ER.
  - unfold compute_R in ER. injection ER as <- _. unfold vpoints. rewrite map_map. cbn [pt_grad]. rewrite (holds_X K _ _ H). destruct HP as [-> _]. destruct Hg as [Lg _]. rewrite <- Lg. apply HVTop.map_nth_seq.
  - destruct (compute_R_spec (vdim_p V) (vdim_d V) (vpoints V t g) (points_shaped K W N t X g Hc HP H Hg)) as (R2 & dH2 & E2 & HR). congruence.
Qed.
Lemma merit_trial t X N st al p : (0 < N)%nat -> pop K N X -> holds K t X -> matrix N (vdim V) st -> vphi V t st al = Ok p ->
  exists t' X', moved_by al X st X' /\ evaluated_at V t' X' /\ residual_norm V t' p.
Proof using P.
  intros HN HP H Hst E. unfold vphi in E. inv_do E t' Et. inv_do E g Eg. inv_do E RH ER. injection E as <-. rewrite (holds_X K _ _ H) in Et.
  pose proof (trial_pop V N X st al HP Hst) as HT. destruct (vupd_total V P t N _ HN HT) as (t2 & E2 & H2). assert (t2 = t') by congruence. subst t2.
  exists t', (trial X st al). destruct HP as [LX HX]. destruct Hst as [LS HS]. split; [|split].
  - unfold trial. split. rewrite NewtonProof.zip_with_length; congruence. intros i Hi. rewrite (zip_with_nth _ _ _ _ [] []) by lia.
    assert (L1 : length (nth i X []) = vdim V) by (apply HX, nth_In; auto). assert (L2 : length (nth i st []) = vdim V) by (apply HS, nth_In; lia).
    split. rewrite NewtonProof.zip_with_length; congruence. intros j Hj. rewrite (zip_with_nth _ _ _ _ 0 0) by lia. reflexivity.
  - split. apply (holds_X K _ _ H2). eauto.
  - exists g, (fst RH). split; auto. split; [apply norm_euclid|].
    assert (Hg : matrix N (vdim_p V) g).
    { unfold hv_gradient in Eg. inv_do Eg q Eq. injection Eg as <-. destruct (vprimal_rows V N _ t' HT H2) as [-> _]. apply grad_rows_matrix. }
    split; intros Hc; rewrite Hc in ER.
    + unfold compute_R in ER. injection ER as <-. cbn [fst]. unfold vpoints. rewrite map_map. cbn [pt_grad]. rewrite (holds_X K _ _ H2). destruct HT as [-> _]. destruct Hg as [Lg _]. rewrite <- Lg. apply HVTop.map_nth_seq.
    + destruct (compute_R_spec (vdim_p V) (vdim_d V) (vpoints V t' g) (points_shaped K W N t' _ g Hc HT H2 Hg)) as (R2 & dH2 & E3 & HR). assert (RH = (R2, Some dH2)) by congruence. subst RH. auto.
Qed.
End Hvn.
