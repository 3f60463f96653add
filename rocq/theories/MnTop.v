(** The properties of runs of MMDNewton, for the objects of a run. *)
From Coq Require Import List Arith Bool Reals ZArith Lia Lra Permutation.
From Verif Require Import Num Exn ListAux MiscModel StateModel StateSpec StateProof NewtonModel NewtonProof NewtonBox NewtonPop RefModel RefSpec RefProof RefTop RefShift HVDSpec HVTop HVXModel HVXSpec HVXProof IndModel IndSpec IndProof IndTop MMDModel MMDSpec MMDSym MMDTop StepModel StepSpec StepProof ShiftModel ShiftSpec ShiftMain StepTop StepMain StepIter StepLast IterModel IterSpec IterProof IterMain IterTotal IterConv IterAffine IterTop HvnSpec MnModel MnSpec MnProof MnMain.
From Verif Require PropsShift PropsStep.
Import ListNotations.
Open Scope R_scope.

Lemma shifted_0 e r r' : shifted 0 e r r' -> r' = r.
Proof. intros [L H]. apply (nth_ext _ _ 0 0); auto. intros j Hj. rewrite H. ring. Qed.
Lemma drift_trans t t' es C C1 C2 : length es = length C -> drift t es C C1 -> drift t' es C1 C2 -> drift (t + t') es C C2.
Proof.
  intros HL [L1 H1] [L2 H2]. split; [congruence|]. intros k comp e Hc He. destruct (H1 k comp e Hc He) as (c1 & E1 & Q1 & S1). destruct (H2 k c1 e E1 He) as (c2 & E2 & Q2 & S2).
  exists c2. split; auto. split; [congruence|]. intros i Hi. destruct (S1 i Hi) as [A1 A2]. destruct (S2 i ltac:(lia)) as [B1 B2]. split; [congruence|]. intros j. rewrite B2, A2. ring.
Qed.
Lemma drift_0 es C : drift 0 es C C.
Proof. split; auto. intros k comp e Hc He. exists comp. split; auto. split; auto. intros i Hi. split; auto. intros j. ring. Qed.
Lemma armijo_cases' c r0 a p : armijo c (Fin r0) a (Fin p) = true -> p <= (1 - c * a) * r0 \/ near_eps (Fin r0) = true.
Proof. unfold armijo. intros H. apply orb_true_iff in H as [H|H]; auto. left. cbn in H. apply rleb_true in H. auto. Qed.
Lemma best_match_perm S S' Y T : Permutation S S' -> best_match S Y T -> best_match S' Y T.
Proof. intros HP (H1 & (rest & H2) & H3). split; auto. split; auto. exists rest. eapply perm_trans; eauto. Qed.
Lemma mmd_update_moved a X st N d : matrix N d X -> matrix N d st -> moved_by a X st (mmd_update a X st).
Proof.
  intros [LX RX] [LS RS]. unfold mmd_update, moved_by.
  assert (LZ : length (zip_with (zip_with (fun x t => x + a * t)) X st) = N) by (rewrite NewtonProof.zip_with_length; congruence). rewrite LZ. split; [auto|]. intros i Hi. rewrite LX in Hi.
  assert (Lx : length (nth i X []) = d) by (apply RX, nth_In; lia). assert (Ls : length (nth i st []) = d) by (apply RS, nth_In; lia).
  rewrite (zip_with_nth _ _ _ _ [] []) by lia. rewrite NewtonProof.zip_with_length by congruence. split; [auto|]. intros j Hj. rewrite (zip_with_nth _ _ _ _ 0 0) by lia. auto.
Qed.
Lemma armijo_fails c r0 a p : armijo c (Fin r0) a (Fin p) = false -> (1 - c * a) * r0 < p.
Proof. unfold armijo. intros H. apply orb_false_iff in H as [H _]. cbn in H. apply rleb_false in H. auto. Qed.

Section Run.
Variable M : mn_cfg.
Hypothesis P : mn_posed M.
Let K := n_base M.
Let W : well_posed K := np_problem M P.
Let OO : oracles_ok K := np_oracles M P.

Lemma mobjects_good rs X0 l j o : mn_input M rs X0 -> mn_objects M rs X0 l -> nth_error l j = Some o -> good M (length X0) o /\ w_iter o = j.
Proof using P.
  intros Hi Ho Hj. destruct l as [|o0 l]; [destruct Ho|]. destruct Ho as [E Ht]. pose proof (proj1 Hi) as HN.
  refine (trace_inv (mn_iterate M) (fun k o => good M (length X0) o /\ w_iter o = k) _ l o0 0%nat _ Ht j o Hj).
  - intros k p p' [Hp Hk] Ep. destruct (iterate_total M P (length X0) p HN Hp) as (p2 & q & E2 & E3 & F & G). rewrite E2 in Ep. injection Ep as <-. split; auto. cbn [mn_log w_iter]. rewrite (f_res _ _ _ _ _ F). cbn. congruence.
  - destruct (init_total M P rs X0 Hi) as (o1 & E1 & G & _ & I). rewrite E1 in E. injection E as <-. auto.
Qed.
Lemma mobjects_next rs X0 l j p o : mn_input M rs X0 -> mn_objects M rs X0 l -> nth_error l j = Some p -> nth_error l (S j) = Some o ->
  exists o1 q, facts M (length X0) p o1 q /\ o = mn_log M o1.
Proof using P.
  intros Hi Ho Hp Hq. destruct (mobjects_good rs X0 l j p Hi Ho Hp) as [G _]. destruct (iterate_total M P (length X0) p (proj1 Hi) G) as (p2 & q & E2 & E3 & F & _).
  destruct l as [|o0 l]; [destruct Ho|]. destruct Ho as [E Ht]. pose proof (trace_next _ _ _ _ _ _ Ht Hp Hq) as E4. rewrite E2 in E4. injection E4 as <-. eauto.
Qed.
Lemma mobjects_prev rs X0 l j q : mn_objects M rs X0 l -> nth_error l (S j) = Some q -> exists p, nth_error l j = Some p.
Proof using. intros Ho Hq. destruct (nth_error l j) eqn:E; eauto. apply nth_error_None in E. assert (S j < length l)%nat by (apply nth_error_Some; congruence). lia. Qed.

(** * C128 *)
Lemma iteration_same p q : mn_iteration M p = Ok q -> e_X q = e_X p /\ e_Y q = e_Y p /\ e_val q = e_val p /\ e_R q = e_R p.
Proof using.
  unfold mn_iteration. intros E. inv_do E v Ev. inv_do E sh Esh. inv_do E ns Ens. destruct ns as [[[st0 Rm] rs3] i3]. inv_do E ls Els. inv_do E s' Es'. injection E as <-. cbn. auto.
Qed.
Lemma mhist_prefix l : forall o j p, trace (mn_iterate M) o l -> nth_error (o :: l) j = Some p ->
  e_X p = e_X o ++ map (fun q => primal_of K (w_state q)) (firstn j l) /\ e_Y p = e_Y o ++ map (fun q => s_Y (w_state q)) (firstn j l) /\
  e_val p = e_val o ++ map w_value (firstn j l) /\ e_R p = e_R o ++ map (fun q => median (map euclid (w_R q))) (firstn j l).
Proof using.
  induction l as [|o1 l IH]; intros o j p Ht Hj.
  - destruct j as [|j]; [|destruct j; discriminate]. injection Hj as <-. simpl. rewrite !app_nil_r. auto.
  - destruct Ht as [E Ht]. destruct j as [|j]. injection Hj as <-. simpl. rewrite !app_nil_r. auto.
    destruct (IH o1 j p Ht Hj) as (H1 & H2 & H3 & H4). cbn [firstn map]. unfold mn_iterate in E. inv_do E q1 E1. injection E as <-. destruct (iteration_same o q1 E1) as (Q2 & Q3 & Q4 & Q5).
    rewrite H1, H2, H3, H4. unfold mn_log. cbn [e_X e_Y e_val e_R w_state w_value w_R]. rewrite Q2, Q3, Q4, Q5, <- !app_assoc. cbn [app].
    split; [auto|split; [auto|split; [auto|]]]. do 2 f_equal. f_equal. apply map_ext. intros v. apply norm_euclid.
Qed.
Lemma mobjects_history rs X0 l j o : mn_objects M rs X0 l -> nth_error l j = Some o ->
  e_X o = map (fun q => primal_of K (w_state q)) (firstn j (tl l)) /\ e_Y o = map (fun q => s_Y (w_state q)) (firstn j (tl l)) /\
  e_val o = map w_value (firstn j (tl l)) /\ e_R o = map (fun q => median (map euclid (w_R q))) (firstn j (tl l)).
Proof using.
  intros Ho Hj. destruct l as [|o0 l]; [destruct Ho|]. destruct Ho as [E Ht]. cbn [tl]. pose proof (mhist_prefix l o0 j o Ht Hj) as H.
  unfold mn_init in E. inv_do E s Es. injection E as <-. exact H.
Qed.
Lemma good_primal N o : (0 < N)%nat -> good M N o -> length (primal_of K (w_state o)) = N /\ rows (c_nvar (k_prob K)) (primal_of K (w_state o)) /\
  s_Y (w_state o) = map (cb_point (c_func (k_prob K))) (primal_of K (w_state o)).
Proof using.
  intros HN ((X & HP & H) & _). unfold primal_of, primal. fold K in HP, H. rewrite (holds_X _ _ _ H), map_length. split; [apply HP|]. split.
  - intros x Hx. apply in_map_iff in Hx as (y & <- & Hy). rewrite firstn_length. destruct HP as [_ HP]. rewrite (HP y Hy). unfold dim, dim_p. lia.
  - unfold holds, data in H. injection H as E1 E2 _ _ _ _ _. rewrite E2, map_map. reflexivity.
Qed.
Lemma mobjects_population rs X0 l j o : mn_input M rs X0 -> mn_objects M rs X0 l -> nth_error l j = Some o ->
  length (primal_of K (w_state o)) = length X0 /\ (forall x, In x (primal_of K (w_state o)) -> length x = c_nvar (k_prob K)) /\
  s_Y (w_state o) = map (cb_point (c_func (k_prob K))) (primal_of K (w_state o)) /\ w_iter o = j.
Proof using P.
  intros Hi Ho Hj. destruct (mobjects_good rs X0 l j o Hi Ho Hj) as [G I]. destruct (good_primal (length X0) o (proj1 Hi) G) as (H1 & H2 & H3). auto.
Qed.
Lemma mrun_objects rs X0 o0 fuel z r : mn_init M rs X0 = Ok o0 -> mn_run M fuel (Finite z) o0 = Ok r ->
  exists l, mn_objects M rs X0 (o0 :: l) /\ o_state r = last l o0 /\ o_hist r = l /\ length l = Z.to_nat z /\ o_iter r = length l.
Proof using.
  intros E H. unfold mn_run, fresh in H. apply run_trace in H as (l & Ht & -> & L). exists l. split; [split; auto|]. cbn [o_state o_hist o_iter]. split; auto. split; auto. split; auto. rewrite L. f_equal. lia.
Qed.
(** * C129 *)
Lemma mobjects_values rs X0 l j p q : mn_input M rs X0 -> mn_objects M rs X0 l -> nth_error l j = Some p -> nth_error l (S j) = Some q ->
  exists T v, w_value q = Some v /\ targets M (reference_set (w_ref p)) (s_Y (w_state p)) T /\ discrepancy M T (s_Y (w_state p)) v.
Proof using P.
  intros Hi Ho Hp Hq. destruct (mobjects_next rs X0 l j p q Hi Ho Hp Hq) as (o1 & u & F & ->). exists (reference_set (p_1 u)), (p_v u). split. rewrite (f_res _ _ _ _ _ F). reflexivity. apply (f_value _ _ _ _ _ F).
Qed.
Lemma mobjects_logged rs X0 l j p o v : mn_input M rs X0 -> mn_objects M rs X0 l -> nth_error l j = Some p -> In o l -> nth_error (e_val o) j = Some v ->
  exists T r, v = Some r /\ targets M (reference_set (w_ref p)) (s_Y (w_state p)) T /\ discrepancy M T (s_Y (w_state p)) r.
Proof using P.
  intros Hi Ho Hp Hin Hv. apply In_nth_error in Hin as (k & Hk). destruct (mobjects_history rs X0 l k o Ho Hk) as (_ & _ & Hh & _). rewrite Hh in Hv.
  rewrite nth_error_map in Hv. destruct (nth_error (firstn k (tl l)) j) as [q|] eqn:Eq; [|discriminate]. cbn in Hv. injection Hv as <-.
  assert (Hq : nth_error l (S j) = Some q).
  { destruct l as [|o0 l]; [destruct Ho|]. cbn [tl] in Eq. cbn [nth_error]. assert (Hjk : (j < k)%nat). { assert (j < length (firstn k l))%nat by (apply nth_error_Some; congruence). rewrite firstn_length in H. lia. }
    rewrite <- (firstn_skipn k l). rewrite nth_error_app1; auto. apply nth_error_Some. congruence. }
  apply (mobjects_values rs X0 l j p q Hi Ho Hp Hq).
Qed.
(** * C130 *)
Lemma mtrace_total N n : (0 < N)%nat -> forall o, good M N o -> exists l, length l = n /\ trace (mn_iterate M) o l.
Proof using P.
  intros HN. induction n as [|n IH]; intros o Hg. exists []. split; simpl; auto.
  destruct (iterate_total M P N o HN Hg) as (o' & q & E & _ & _ & Hg'). destruct (IH _ Hg') as (l & Ll & Ht). exists (mn_log M o' :: l). split; simpl; auto.
Qed.
Lemma mobjects_total rs X0 n : mn_input M rs X0 -> exists l, mn_objects M rs X0 l /\ length l = S n.
Proof using P.
  intros Hi. destruct (init_total M P rs X0 Hi) as (o & E & Hg & _). destruct (mtrace_total (length X0) n (proj1 Hi) o Hg) as (l & L & Ht). exists (o :: l). split; [split; auto|simpl; congruence].
Qed.
Lemma mrun_total N : (0 < N)%nat -> forall fuel o i z h, good M N o -> (z - Z.of_nat i <= Z.of_nat fuel)%Z -> exists r, NewtonModel.run (mn_iterate M) fuel (mkOpt o i (Finite z) None h) = Ok r.
Proof using P.
  intros HN. induction fuel as [|fuel IH]; intros o i z h Hg Hf; cbn [NewtonModel.run]; unfold terminate, reached; cbn [o_max o_iter o_state o_stop o_hist]; destruct (Z.leb_spec z (Z.of_nat i)) as [Hz|Hz]; eauto; try lia.
  destruct (iterate_total M P N o HN Hg) as (o' & q & E & _ & _ & Hg'). rewrite E. cbn [bind]. apply IH; auto. lia.
Qed.
Lemma mrun_returns rs X0 z fuel : mn_input M rs X0 -> (z <= Z.of_nat fuel)%Z -> exists o r, mn_init M rs X0 = Ok o /\ mn_run M fuel (Finite z) o = Ok r.
Proof using P.
  intros Hi Hz. destruct (init_total M P rs X0 Hi) as (o & E & Hg & _). destruct (mrun_total (length X0) (proj1 Hi) fuel o 0 z [] Hg ltac:(lia)) as (r & Er). exists o, r. auto.
Qed.
(** the set is not matched and has fewer points than the population *)
Lemma msmall rs X0 comps es : n_match M = false -> (0 < length X0)%nat -> (forall x, In x X0 -> length x = c_nvar (k_prob K)) ->
  components (k_nobj K) 1 comps es rs -> (length (concat comps) < length X0)%nat -> exists o, mn_init M rs X0 = Ok o /\ mn_iterate M o = Exn IndexError.
Proof using P.
  intros Hm HN HX (E1 & Le & Re & Rc & Lc) Hlt. unfold mn_init. fold K.
  assert (HP : pop K (length X0) (map (fun x => clip_row (k_xl K) (k_xu K) x ++ repeat 0 (dim_d K)) X0)).
  { split. apply map_length. intros y Hy. apply in_map_iff in Hy as (x & <- & Hx). rewrite app_length, repeat_length. unfold clip_row. rewrite !NewtonProof.zip_with_length. unfold IterProof.dim. rewrite (HX x Hx). reflexivity.
    rewrite (HX x Hx). symmetry. apply (wp_xl K W). rewrite NewtonProof.zip_with_length. rewrite (HX x Hx). symmetry. apply (wp_xu K W). rewrite (HX x Hx). symmetry. apply (wp_xl K W). }
  destruct (upd_total K W init (length X0) _ HN HP) as (s & E & H). rewrite E. cbn [bind]. eexists. split; [reflexivity|].
  destruct (pop_Y K W (length X0) s _ HP H) as [LY RY]. unfold mn_iterate, mn_iteration, mn_value. cbn [w_state w_ref w_ind w_iter w_step]. rewrite Hm.
  assert (Er : rs_matched rs = None /\ rs_eta rs = es /\ rs_ref rs = comps). { destruct comps as [|co comps]; [discriminate|]. injection E1 as <-. auto. }
  destruct Er as (Er1 & Er2 & Er3). assert (Eref : reference_set rs = concat comps) by (unfold reference_set; rewrite Er1, Er3; auto).
  rewrite (mmd_value _ (the_mmd M rs) (s_Y s) (k_nobj K)).
  - cbn [bind snd]. rewrite (holds_X _ _ _ H), (proj1 HP). rewrite PropsShift.C100_unmatched_error; auto. rewrite Er2, Er3. lia. rewrite Er3. auto.
  - intros E0. rewrite E0 in LY. simpl in LY. lia.
  - cbn [the_mmd m_ref]. rewrite Eref. intros E0. rewrite E0 in Lc. simpl in Lc. lia.
  - exact RY.
  - cbn [the_mmd m_ref]. rewrite Eref. exact Rc.
Qed.

(** * C131 *)
Lemma mobjects_eta rs X0 l j o : mn_input M rs X0 -> mn_objects M rs X0 l -> nth_error l j = Some o -> rs_eta (w_ref o) = rs_eta rs /\ (n_match M = true -> rs_ref (w_ref o) = rs_ref rs).
Proof using P.
  intros Hi Ho. revert o. induction j as [|j IH]; intros o Hj.
  - destruct l as [|o0 l]; [destruct Ho|]. injection Hj as <-. destruct Ho as [E _]. destruct (init_total M P rs X0 Hi) as (o1 & E1 & _ & R1 & _). rewrite E1 in E. injection E as <-. rewrite R1. auto.
  - destruct (mobjects_prev rs X0 l j o Ho Hj) as (p & Hp). destruct (IH p Hp) as [I1 I2]. destruct (mobjects_next rs X0 l j p o Hi Ho Hp Hj) as (o1 & u & F & ->).
    rewrite (f_res _ _ _ _ _ F). cbn [mn_log w_ref]. destruct (f_reads1 _ _ _ _ _ F) as (_ & A1 & A2 & _). destruct (f_shift _ _ _ _ _ F) as (_ & B1 & B2). destruct (f_reads3 _ _ _ _ _ F) as (_ & C1 & C2 & _).
    assert (D : rs_eta (p_4 u) = rs_eta (p_3 u) /\ rs_ref (p_4 u) = rs_ref (p_3 u)). { destruct (f_size _ _ _ _ _ F) as [(_ & _ & ->)|(_ & k & _ & _ & R & _)]; auto. destruct R as (_ & ? & ? & _). auto. }
    destruct D as [D1 D2]. rewrite D1, D2. split. congruence. intros Hm. rewrite Hm in B2. destruct B2 as [B2 _]. rewrite C2, B2, A2. auto.
Qed.
Lemma after_perm N o o1 u : facts M N o o1 u -> Permutation (reference_set (p_4 u)) (reference_set (p_2 u)).
Proof using.
  intros F. destruct (f_shift _ _ _ _ _ F) as (S1 & _). destruct (f_reads3 _ _ _ _ _ F) as (A3 & _ & _ & P3 & _). specialize (P3 S1).
  destruct (f_size _ _ _ _ _ F) as [(_ & _ & ->)|(_ & k & _ & _ & R & _)]; auto. destruct R as (_ & _ & _ & P4 & _). eapply perm_trans; [apply P4; auto|auto].
Qed.
Lemma mobjects_matched rs X0 l j p q e : mn_input M rs X0 -> mn_objects M rs X0 l -> nth_error l j = Some p -> nth_error l (S j) = Some q -> n_match M = true -> rs_eta rs = [e] ->
  let steps := map (firstn (c_nvar (k_prob K))) (w_step p) in
  exists T T' lg, best_match (reference_set (w_ref p)) (s_Y (w_state p)) T /\ length T' = length T /\ Permutation (reference_set (w_ref q)) T' /\
    (forall i, (i < length X0)%nat -> mmd_moves j (s_Y (w_state p)) T steps i -> shifted 0.08 e (nth i T []) (nth i T' [])) /\
    (forall i, (i < length X0)%nat -> ~ mmd_moves j (s_Y (w_state p)) T steps i -> nth i T' [] = nth i T []) /\
    e_med q = e_med p ++ lg /\ logged (mmd_moves j (s_Y (w_state p)) T steps) T' lg.
Proof using P.
  intros Hi Ho Hp Hq Hm He steps. pose proof (mobjects_good rs X0 l j p Hi Ho Hp) as [G Ij]. pose proof (mobjects_eta rs X0 l j p Hi Ho Hp) as [Ee _].
  destruct (mobjects_population rs X0 l j p Hi Ho Hp) as (LP & _ & EY & _).
  assert (LY : length (s_Y (w_state p)) = length X0) by (rewrite EY, map_length; auto).
  destruct (mobjects_next rs X0 l j p q Hi Ho Hp Hq) as (o1 & u & F & ->).
  destruct (f_reads1 _ _ _ _ _ F) as (A1 & A2 & _). destruct (f_value _ _ _ _ _ F) as [T1 _]. destruct (f_shift _ _ _ _ _ F) as (S1 & S2 & S3). rewrite Hm in S3. destruct S3 as [_ [S3 S4]]. pose proof (after_perm _ _ _ _ F) as HPm.
  unfold targets in T1. rewrite Hm in T1. unfold after in A1, S1. rewrite Hm in A1, S1. destruct (matched_ref _ _ _ A1) as [L1 _]. destruct (matched_ref _ _ _ S1) as [L2 _]. rewrite Ij in *.
  exists (reference_set (p_1 u)), (reference_set (p_2 u)), (p_lg u). split; auto. split; [congruence|]. rewrite (f_res _ _ _ _ _ F). cbn [mn_log w_ref e_med].
  split; auto. split; [|split; [|split; auto]]; intros i Hlt HM; destruct (S4 i ltac:(lia)) as (e' & w & B1 & B2 & B3 & B4); rewrite A2, Ee, He in B1; injection B1 as <-.
  - rewrite (B3 HM) in B2. auto.
  - rewrite (B4 HM) in B2. apply shifted_0 in B2. auto.
Qed.
Lemma mobjects_unmatched rs X0 l j o comps es : mn_input M rs X0 -> mn_objects M rs X0 l -> nth_error l j = Some o -> n_match M = false -> new_refset comps es None = Ok rs ->
  drift (0.08 * INR j) es comps (rs_ref (w_ref o)) /\ reference_set (w_ref o) = concat (rs_ref (w_ref o)).
Proof using P.
  intros Hi Ho Hj Hm E. assert (Er : rs_matched rs = None /\ rs_eta rs = es /\ rs_ref rs = comps). { destruct comps as [|co comps]; [discriminate|]. injection E as <-. auto. }
  destruct Er as (Er1 & Er2 & Er3). split.
  2:{ destruct (mobjects_good rs X0 l j o Hi Ho Hj) as [(_ & Hb & _) _]. unfold before in Hb. rewrite Hm in Hb. apply (unmatched_ref M (length X0)); auto. }
  assert (Le : length es = length comps). { destruct Hi as (_ & _ & Hr). rewrite Hm in Hr. destruct Hr as (cs & es' & E' & L' & _). assert (rs_ref rs = cs /\ rs_eta rs = es'). { destruct cs as [|co cs]; [discriminate|]. injection E' as <-. auto. } destruct H as [H1 H2]. congruence. }
  revert o Hj. induction j as [|j IH]; intros o Hj.
  - destruct l as [|o0 l]; [destruct Ho|]. injection Hj as <-. destruct Ho as [E0 _]. destruct (init_total M P rs X0 Hi) as (o1 & E1 & _ & R1 & _). rewrite E1 in E0. injection E0 as <-. rewrite R1, Er3. simpl INR. rewrite Rmult_0_r. apply drift_0.
  - destruct (mobjects_prev rs X0 l j o Ho Hj) as (p & Hp). specialize (IH p Hp). destruct (mobjects_eta rs X0 l j p Hi Ho Hp) as [I1 _]. destruct (mobjects_next rs X0 l j p o Hi Ho Hp Hj) as (o1 & u & F & ->).
    rewrite (f_res _ _ _ _ _ F). cbn [mn_log w_ref]. destruct (f_reads1 _ _ _ _ _ F) as (_ & _ & _ & _ & A). destruct (f_shift _ _ _ _ _ F) as (_ & _ & B). rewrite Hm in B. destruct (f_reads3 _ _ _ _ _ F) as (_ & _ & _ & _ & C).
    assert (D : p_4 u = p_3 u). { destruct (f_size _ _ _ _ _ F) as [(_ & _ & ->)|(_ & k & _ & _ & R & _)]; auto. destruct R as (_ & _ & _ & _ & D). auto. }
    rewrite D, (C Hm). rewrite (A Hm) in B. rewrite I1, Er2 in B. rewrite S_INR. replace (0.08 * (INR j + 1)) with (0.08 * INR j + 0.08) by ring. apply (drift_trans _ _ _ _ (rs_ref (w_ref p))); auto.
Qed.
(** * C132 *)
Lemma mobjects_njac rs X0 l j o : mn_input M rs X0 -> mn_objects M rs X0 l -> nth_error l j = Some o -> n_jac (w_state o) = (length X0 * (j + 1))%nat.
Proof using P.
  intros Hi Ho. revert o. induction j as [|j IH]; intros o Hj.
  - destruct l as [|o0 l]; [destruct Ho|]. injection Hj as <-. destruct Ho as [E _]. unfold mn_init in E. inv_do E s Es. injection E as <-. apply upd_njac in Es. cbn [w_state]. rewrite Es, map_length. cbn. lia.
  - destruct (mobjects_prev rs X0 l j o Ho Hj) as (p & Hp). specialize (IH p Hp). destruct (mobjects_next rs X0 l j p o Hi Ho Hp Hj) as (o1 & u & F & ->).
    rewrite (f_res _ _ _ _ _ F). cbn [mn_log w_state]. pose proof (f_upd _ _ _ _ _ F) as E. apply upd_njac in E. rewrite E, IH, (proj1 (f_pop _ _ _ _ _ F)). lia.
Qed.

(** * C133, C134 *)
Lemma grad_matrix N s T : matrix N (c_nvar (k_prob K)) (grad_rows M N s T).
Proof using. apply mk2_matrix. Qed.
Section Smooth.
Hypothesis HS : mn_smooth M.
Lemma the_smooth rs : smooth_m (the_mmd M rs).
Proof using P HS. constructor; cbn [the_mmd m_nvar m_nobj m_func m_jac m_hess]. intros x Hx. apply (wp_func K W x Hx). apply (ns_jac M HS). apply (ns_hess M HS). Qed.
Definition T_ok (N : nat) (T : list (list R)) : Prop := T <> [] /\ rows (k_nobj K) T /\ (n_match M = true -> length T = N).
Lemma holds_primal N s X : (0 < N)%nat -> pop K N X -> holds K s X ->
  length (primal_of K s) = N /\ rows (c_nvar (k_prob K)) (primal_of K s) /\ s_Y s = map (cb_point (c_func (k_prob K))) (primal_of K s) /\
  forall i, (i < N)%nat -> nth i (primal_of K s) [] = pr (k_prob K) (nth i (s_X s) []).
Proof using.
  intros HN HP H. destruct (primal_cols K N s X HN HP H) as (L & _ & E). split; auto. split; [|split; auto].
  - intros x Hx. unfold primal_of, primal in Hx. rewrite (holds_X _ _ _ H) in Hx. apply in_map_iff in Hx as (y & <- & Hy). rewrite firstn_length. destruct HP as [_ HP]. rewrite (HP y Hy). unfold dim, dim_p. lia.
  - unfold primal_of, primal. rewrite (holds_X _ _ _ H). unfold holds, data in H. injection H as E1 E2 _ _ _ _ _. rewrite E2, map_map. reflexivity.
Qed.
Lemma quarter_eq : 1 / 4 = 0.25. Proof using. lra. Qed.
Lemma gradient_ok N s X T : (0 < N)%nat -> pop K N X -> holds K s X -> T_ok N T -> is_gradient M T (primal_of K s) (grad_rows M N s T).
Proof using P HS.
  intros HN HP H (HT0 & HTr & HTl). destruct (holds_primal N s X HN HP H) as (LX & RX & EY & NX). split. { fold K. rewrite LX. apply grad_matrix. }
  rewrite LX. fold K. intros i k Hi Hk. unfold grad_rows. rewrite mk2_nth by auto. unfold gradm, discrepancy, dYt. fold K. set (o := mkMMD (c_nvar (k_prob K)) (k_nobj K) T (cb_point (c_func (k_prob K))) (cb_point (c_jac (k_prob K))) (k_hess K)).
  assert (So : smooth_m o). { constructor; cbn. intros x Hx. apply (wp_func K W x Hx). apply (ns_jac M HS). apply (ns_hess M HS). }
  assert (Hne : primal_of K s <> []) by (intros E; rewrite E in LX; simpl in LX; lia). assert (Hag : agree_m o (primal_of K s) None None) by (split; auto).
  destruct (n_match M).
  - destruct (mmdm_gradient (n_kern M) (fun _ _ => True) o (new_mmdm 0.25) (fun _ => Ok T) (primal_of K s) None None false i k T (ns_kern M HS) So RX Hag eq_refl ltac:(rewrite LX; auto) HTr ltac:(lia) Hk ltac:(repeat split)) as (G & Hh & s' & E1 & D).
    destruct (mmdm_deriv_value (n_kern M) o (new_mmdm 0.25) (fun _ => Ok T) (primal_of K s) None None false T So RX Hne Hag eq_refl ltac:(rewrite LX; auto)) as (G' & Hh' & s'' & E2 & EG & _). rewrite E1 in E2. injection E2 as <- _ _.
    rewrite (EG i k ltac:(lia) Hk) in D. cbn [fst traced lookup find new_mmdm mm_grad mm_beta] in D. rewrite quarter_eq. cbn [o m_func m_nobj m_jac] in D. rewrite <- EY in D.
    replace (sumn (k_nobj K) (fun a => Jat M s i a k * mmdm_dY (n_kern M) 0.25 (s_Y s) T i a)) with (sumn (k_nobj K) (fun a => mmdm_dY (n_kern M) 0.25 (s_Y s) T i a * cb_point (c_jac (k_prob K)) (nth i (primal_of K s) []) a k)). exact D.
    apply sumn_ext. intros a Ha. rewrite (NX i Hi). apply Rmult_comm.
  - destruct (mmd_gradient (n_kern M) (fun _ _ => True) o (primal_of K s) None None false i k (ns_kern M HS) So HT0 HTr RX Hag ltac:(lia) Hk ltac:(repeat split)) as (G & Hh & E1 & D).
    destruct (mmd_deriv_value (n_kern M) o (primal_of K s) None None false So HT0 RX Hne Hag) as (G' & Hh' & E2 & EG & _). rewrite E1 in E2. injection E2 as <- _.
    rewrite (EG i k ltac:(lia) Hk) in D. cbn [o m_func m_nobj m_jac m_ref] in D. rewrite <- EY in D.
    replace (sumn (k_nobj K) (fun a => Jat M s i a k * mmd_dY (n_kern M) (s_Y s) T i a)) with (sumn (k_nobj K) (fun a => mmd_dY (n_kern M) (s_Y s) T i a * cb_point (c_jac (k_prob K)) (nth i (primal_of K s) []) a k)). exact D.
    apply sumn_ext. intros a Ha. rewrite (NX i Hi). apply Rmult_comm.
Qed.
Lemma hessian_ok N s X T : (0 < N)%nat -> pop K N X -> holds K s X -> T_ok N T -> is_hessian M T (primal_of K s) (hess_rows M N s T).
Proof using P HS.
  intros HN HP H (HT0 & HTr & HTl). destruct (holds_primal N s X HN HP H) as (LX & RX & EY & NX). split. { fold K. rewrite LX. apply flat_matrix. }
  rewrite LX. fold K. intros i k j l Hi Hk Hj Hl. unfold hess_rows. fold K. change (dim_p K) with (c_nvar (k_prob K)). rewrite flat_nth by auto. unfold hessm, discrepancy, dYt, dY2t. fold K. set (o := mkMMD (c_nvar (k_prob K)) (k_nobj K) T (cb_point (c_func (k_prob K))) (cb_point (c_jac (k_prob K))) (k_hess K)).
  assert (So : smooth_m o). { constructor; cbn. intros x Hx. apply (wp_func K W x Hx). apply (ns_jac M HS). apply (ns_hess M HS). }
  assert (Hne : primal_of K s <> []) by (intros E; rewrite E in LX; simpl in LX; lia). assert (Hag : agree_m o (primal_of K s) None None) by (split; auto).
  assert (Hsym : forall a b, (a < m_nobj o)%nat -> (b < m_nobj o)%nat -> i <> j -> k_dxdy (n_kern M) (m_func o (nth j (primal_of K s) [])) (m_func o (nth i (primal_of K s) [])) a b = k_dxdy (n_kern M) (m_func o (nth i (primal_of K s) [])) (m_func o (nth j (primal_of K s) [])) a b).
  { intros a b Ha Hb _. apply (ns_sym M HS); auto; apply (wp_func K W), RX, nth_In; lia. }
  destruct (n_match M).
  - destruct (mmdm_hessian (n_kern M) (fun _ _ => True) o (new_mmdm 0.25) (fun _ => Ok T) (primal_of K s) None None i k j l T (ns_kern M HS) So RX Hag eq_refl ltac:(rewrite LX; auto) HTr ltac:(lia) ltac:(lia) Hk Hl ltac:(repeat split) Hsym eq_refl) as (G & Hh & s' & E1 & D).
    destruct (mmdm_deriv_value (n_kern M) o (new_mmdm 0.25) (fun _ => Ok T) (primal_of K s) None None true T So RX Hne Hag eq_refl ltac:(rewrite LX; auto)) as (G' & Hh' & s'' & E2 & _ & EH). rewrite E1 in E2. injection E2 as _ <- _.
    rewrite (EH i k j l ltac:(lia) ltac:(lia) Hk Hl) in D. cbn [fst traced lookup find new_mmdm mm_grad mm_hess mm_beta] in D. rewrite quarter_eq. cbn [o m_func m_nobj m_jac m_hess] in D. rewrite <- EY in D.
    rewrite (assemble_ext _ _ (Jat M s) (fun i => cb_point (c_jac (k_prob K)) (nth i (primal_of K s) [])) (Hat M s) (fun i => k_hess K (nth i (primal_of K s) []))). exact D.
    intros i0 j0. rewrite (NX i Hi). reflexivity. intros i0 j0. rewrite (NX j Hj). reflexivity. intros i0 j0 q0. rewrite (NX i Hi). reflexivity.
  - destruct (mmd_hessian (n_kern M) (fun _ _ => True) o (primal_of K s) None None i k j l (ns_kern M HS) So HT0 HTr RX Hag ltac:(lia) ltac:(lia) Hk Hl ltac:(repeat split) Hsym) as (G & Hh & E1 & D).
    destruct (mmd_deriv_value (n_kern M) o (primal_of K s) None None true So HT0 RX Hne Hag) as (G' & Hh' & E2 & _ & EH). rewrite E1 in E2. injection E2 as _ <-.
    rewrite (EH i k j l ltac:(lia) ltac:(lia) Hk Hl) in D. cbn [o m_func m_nobj m_jac m_hess m_ref] in D. rewrite <- EY in D.
    rewrite (assemble_ext _ _ (Jat M s) (fun i => cb_point (c_jac (k_prob K)) (nth i (primal_of K s) [])) (Hat M s) (fun i => k_hess K (nth i (primal_of K s) []))). exact D.
    intros i0 j0. rewrite (NX i Hi). reflexivity. intros i0 j0. rewrite (NX j Hj). reflexivity. intros i0 j0 q0. rewrite (NX i Hi). reflexivity.
Qed.
Lemma residual_ok N s X T Rm : (0 < N)%nat -> pop K N X -> holds K s X -> T_ok N T -> mn_R M s (grad_rows M N s T) = Ok Rm -> is_residual M s T Rm.
Proof using P HS.
  intros HN HP H HT E. exists (grad_rows M N s T). split. apply (gradient_ok N s X); auto. unfold mn_R in E. fold K in E. fold K. split; intros Ec; rewrite Ec in E.
  - cbn in E. injection E as <-. unfold points_of. rewrite map_map. cbn [pt_grad]. apply (nth_ext _ _ [] []). rewrite map_length, seq_length, (holds_X _ _ _ H). destruct HP as [L _]. rewrite L. symmetry. apply (proj1 (grad_matrix N s T)).
    intros i Hi. rewrite map_length, seq_length in Hi. rewrite (nth_map_default _ _ _ 0%nat) by (rewrite seq_length; auto). rewrite seq_nth by auto. reflexivity.
  - destruct (compute_R_spec (dim_p K) (dim_d K) (points_of K s (grad_rows M N s T)) (points_shaped K W N s X _ Ec HP H (grad_matrix N s T))) as (Rm' & dH & E' & HR). rewrite E' in E. cbn in E. injection E as <-. apply HR.
Qed.
Lemma T_ok_after N rs : (0 < N)%nat -> after M N rs -> T_ok N (reference_set rs).
Proof using.
  intros HN Ha. destruct (before_ref M N rs HN (after_before M N rs Ha)) as [H1 H2]. split; auto. split; auto. intros Hm. unfold after in Ha. rewrite Hm in Ha. apply (matched_ref _ _ _ Ha).
Qed.
Lemma targets_self S T Y : (n_match M = true -> Permutation S T) -> (n_match M = false -> S = T) -> targets M S Y T -> targets M T Y T.
Proof using. unfold targets. destruct (n_match M); auto. intros H _. apply best_match_perm. auto. Qed.

Lemma targets_any S T T' Y : (n_match M = true -> Permutation S T') -> (n_match M = false -> S = T') -> targets M S Y T -> targets M T' Y T.
Proof using. unfold targets. destruct (n_match M); intros H1 H2 H3. apply (best_match_perm S); auto. rewrite <- H2; auto. Qed.
Lemma mobjects_merit rs X0 l j p q : mn_input M rs X0 -> mn_objects M rs X0 l -> nth_error l j = Some p -> nth_error l (S j) = Some q ->
  let X := s_X (w_state p) in let r := euclid (concat (w_R q)) in let ref := reference_set (w_ref q) in
  exists a, w_size q = Some a /\ moved_by a X (w_step q) (s_X (w_state q)) /\ is_evaluated M (w_state q) /\
  ((a = 1 /\ exists x, median (concat (map (firstn (c_nvar (k_prob K))) (w_step q))) = Fin x /\ Rabs (x - / 10 ^ 15) <= / 10 ^ 8 + / 10 ^ 5 * / 10 ^ 15) \/
   exists k, (k <= 6)%nat /\ a = (/ 2) ^ k /\
   ((k < 6)%nat -> exists Rm, targets M ref (s_Y (w_state q)) ref /\ is_residual M (w_state q) ref Rm /\
     (euclid (concat Rm) <= (1 - a / 10 ^ 6) * r \/ Rabs (r - eps_mach) <= / 10 ^ 8 + / 10 ^ 5 * eps_mach)) /\
   (forall k', (k' < k)%nat -> exists s T Rm, moved_by ((/ 2) ^ k') X (w_step q) (s_X s) /\ is_evaluated M s /\ targets M ref (s_Y s) T /\ is_residual M s T Rm /\
     (1 - (/ 2) ^ k' / 10 ^ 6) * r < euclid (concat Rm))).
Proof using P HS.
  intros Hi Ho Hp Hq X r ref. pose proof (proj1 Hi) as HN. subst X r ref. destruct (mobjects_next rs X0 l j p q Hi Ho Hp Hq) as (o1 & u & F & ->). destruct (mobjects_good rs X0 l j p Hi Ho Hp) as [((X1 & HP & H) & _) _].
  fold K in HP, H. pose proof (holds_X _ _ _ H) as EX1.
  assert (Hmv : forall a, moved_by a (s_X (w_state p)) (p_st u) (mmd_update a (s_X (w_state p)) (p_st u))). { intros a. apply (mmd_update_moved a _ _ (length X0) (dim K)). rewrite EX1. exact HP. apply (f_shapes _ _ _ _ _ F). }
  assert (Hev : forall s0 X' s', upd K s0 X' = Ok s' -> is_evaluated M s'). { intros s0 X' s' E. exists s0. fold K. rewrite (upd_X K _ _ _ E). auto. }
  exists (p_a u). rewrite (f_res _ _ _ _ _ F). cbn [mn_log w_size w_state w_step w_ref w_R]. split; auto. split. { rewrite (upd_X K _ _ _ (f_upd _ _ _ _ _ F)). apply Hmv. } split. { apply (Hev _ _ _ (f_upd _ _ _ _ _ F)). }
  destruct (f_size _ _ _ _ _ F) as [(Hn & Ha & _)|(Hn & k & Hk & Ha & HR & Hc & Hf)]; [left|right].
  - split; auto. unfold negligible_step in Hn. fold K in Hn. change (dim_p K) with (c_nvar (k_prob K)) in Hn. destruct (median _) as [x| | |]; try discriminate. exists x. split; auto. cbn in Hn. apply rleb_true in Hn. exact Hn.
  - exists k. split; auto. split; auto. pose proof (proj1 (f_reads3 _ _ _ _ _ F)) as A3. destruct HR as (R1 & _ & _ & R4 & R5). specialize (R4 A3). split.
    + intros Hlt. destruct (Hc Hlt) as (s' & S & v & E & _ & [PS ES] & HT & (Rm & ER & Ev) & HA). fold K in E. pose proof (f_upd _ _ _ _ _ F) as EU. fold K in EU. rewrite EU in E. injection E as <-.
      exists Rm. split. { apply (targets_self S); auto. intros Hm. eapply perm_trans. apply PS; auto. apply Permutation_sym. auto. intros Hm. rewrite (ES Hm), R5; auto. }
      split. apply (residual_ok (length X0) _ _ _ Rm HN (f_pop _ _ _ _ _ F) (f_holds _ _ _ _ _ F)); auto. apply T_ok_after; auto.
      apply armijo_cases' in HA as [HA|HA]; [left|right].
      * rewrite Ev, !norm_euclid in HA. unfold Rdiv. rewrite (Rmult_comm (p_a u)). exact HA.
      * rewrite norm_euclid in HA. cbn in HA. apply rleb_true in HA. exact HA.
    + intros k' Hk'. destruct (Hf k' Hk') as (r1 & (Q1 & _) & s' & S & v & E & H' & [PS ES] & HT & (Rm & ER & Ev) & HA). exists s', (reference_set r1), Rm. split. { rewrite (upd_X K _ _ _ E). apply Hmv. } split. { apply (Hev _ _ _ E). }
      split. { apply (targets_any S); auto. intros Hm. eapply perm_trans. apply PS; auto. apply Permutation_sym; auto. intros Hm. rewrite (ES Hm), R5; auto. }
      split. { apply (residual_ok (length X0) _ (mmd_update ((/ 2) ^ k') (s_X (w_state p)) (p_st u)) _ Rm HN); auto. apply trial_pop. rewrite EX1; auto. apply (f_shapes _ _ _ _ _ F). apply T_ok_after; auto. }
      apply armijo_fails in HA. rewrite Ev, !norm_euclid in HA. unfold Rdiv. rewrite (Rmult_comm ((/ 2) ^ k')). exact HA.
Qed.
Lemma mobjects_newton rs X0 l j p q : mn_input M rs X0 -> mn_objects M rs X0 l -> nth_error l j = Some p -> nth_error l (S j) = Some q ->
  let X := primal_of K (w_state p) in let n := c_nvar (k_prob K) in let nc := (c_neq (k_prob K) + c_nieq (k_prob K))%nat in
  exists T g H, Permutation T (reference_set (w_ref q)) /\ targets M (reference_set (w_ref q)) (s_Y (w_state p)) T /\ is_gradient M T X g /\ is_hessian M T X H /\ is_residual M (w_state p) T (w_R q) /\
    let A := if k_pre K then precond (k_chol K) H else H in let ps := points_of K (w_state p) g in
    matrix (length X0) (n + nc) (w_step q) /\ ((exists st, matrix (length X0) (n + nc) st /\ linear_kkt false n nc A ps st) -> linear_kkt false n nc A ps (w_step q)) /\
    (is_constrained K = true -> inactive_zero n nc ps (w_step q)).
Proof using P HS.
  intros Hi Ho Hp Hq X n nc. pose proof (proj1 Hi) as HN. destruct (mobjects_next rs X0 l j p q Hi Ho Hp Hq) as (o1 & u & F & ->). destruct (mobjects_good rs X0 l j p Hi Ho Hp) as [((X1 & HP & H) & _) _].
  fold K in HP, H. destruct (f_reads3 _ _ _ _ _ F) as (A3 & _ & _ & P3 & E3). pose proof (proj1 (f_shift _ _ _ _ _ F)) as A2. specialize (P3 A2). pose proof (after_perm _ _ _ _ F) as P4.
  pose proof (T_ok_after _ _ HN A3) as HT. set (T := reference_set (p_3 u)) in *.
  exists T, (grad_rows M (length X0) (w_state p) T), (hess_rows M (length X0) (w_state p) T). rewrite (f_res _ _ _ _ _ F). cbn [mn_log w_state w_ref w_R w_step].
  assert (PT : Permutation T (reference_set (p_4 u))) by (eapply perm_trans; [exact P3|apply Permutation_sym; auto]).
  split; auto. split. { pose proof (f_targets _ _ _ _ _ F) as HB. unfold targets in *. destruct (n_match M) eqn:Hm. eapply best_match_perm; [|exact HB]. apply Permutation_sym; auto.
    fold T in HB. destruct (f_size _ _ _ _ _ F) as [(_ & _ & ->)|(_ & k & _ & _ & R & _)]; auto. destruct R as (_ & _ & _ & _ & R). rewrite (R Hm). reflexivity. }
  split. apply (gradient_ok _ _ X1); auto. split. apply (hessian_ok _ _ X1); auto. split. apply (residual_ok (length X0) _ X1); auto. apply (f_R _ _ _ _ _ F).
  cbn zeta. set (g := grad_rows M (length X0) (w_state p) T) in *. set (Hs := hess_rows M (length X0) (w_state p) T) in *.
  split. apply (f_shapes _ _ _ _ _ F). pose proof (f_step _ _ _ _ _ F) as ES. fold T K g Hs in ES.
  assert (LPs : length (points_of K (w_state p) g) = length X0) by (rewrite points_length; rewrite (holds_X _ _ _ H); apply HP).
  assert (HHs : matrix (length (points_of K (w_state p) g) * dim_p K) (length (points_of K (w_state p) g) * dim_p K) Hs) by (rewrite LPs; apply flat_matrix).
  destruct (is_constrained K) eqn:Ec.
  - destruct (PropsStep.C72_mmd (k_solve K) (k_lstsq K) (k_chol K) (oo_solve K OO) (oo_lstsq K OO) (dim_p K) (dim_d K) (k_pre K) Hs (points_of K (w_state p) g)) as (st & Rm' & E1 & M1 & _ & Z1 & L1).
    lia. apply (points_shaped K W (length X0) _ X1 g Ec HP H (grad_matrix _ _ _)). auto. rewrite E1 in ES. injection ES as <- _. rewrite LPs in *. split; auto.
  - destruct (PropsStep.C72_mmd_unconstrained (k_solve K) (k_lstsq K) (k_chol K) (oo_solve K OO) (oo_lstsq K OO) (dim_p K) (dim_d K) (k_pre K) Hs (points_of K (w_state p) g)) as (st & E1 & M1 & L1).
    lia. apply (points_grad K (length X0) _ X1 g HP H (grad_matrix _ _ _)). auto. rewrite E1 in ES. injection ES as <- _. rewrite LPs in *.
    assert (Enc : nc = 0%nat) by (unfold nc; apply (unconstrained_dim K (IterTop.wp_counts K W) Ec)). rewrite Enc, Nat.add_0_r. split; [auto|discriminate].
Qed.
End Smooth.
(** * C135 *)
Lemma bounds_unused xl xu o : mn_iterate (with_bounds M xl xu) o = mn_iterate M o.
Proof using. reflexivity. Qed.
End Run.
