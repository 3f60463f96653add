(** Runs of HVN: errors, history, box, line search. *)
From Coq Require Import List Arith Bool Reals ZArith Lia Lra Psatz Permutation.
From Verif Require Import Num Exn ListAux MiscModel StateModel StateSpec StateProof NewtonModel NewtonProof NewtonBox NewtonPop RefModel HVTop HVXModel HVXProof StepModel StepSpec StepProof StepTop StepMain StepIter StepLast ShiftModel IterModel IterSpec IterProof IterMain IterTotal HvnModel HvnSpec HvnProof HvnMain.
From Verif Require PropsNewton.
Import ListNotations.
Open Scope R_scope.

(** * the maximal step size *)
Lemma max_step_key xl xu X st m : PropsNewton.same_shape (length xl) xl xu X st -> max_step_size true xl xu X st = Ok m ->
  0 <= m <= 1 /\ forall i j, (i < length X)%nat -> (j < length xl)%nat ->
    let t := nth j (nth i st []) 0 in let a := nth j (nth i X []) 0 in
    (t < 0 -> m * - t <= / 4 * Rabs (a - nth j xl 0)) /\ (0 < t -> m * t <= / 4 * Rabs (nth j xu 0 - a)).
Proof.
  intros (E1 & E2 & E3 & E4 & E5) Hm. pose proof (max_step_value xl xu X st m Hm) as (H1 & H2 & H3).
  assert (Hmul : forall D w s, 0 < w -> s <= / 4 * (D / w) -> s * w <= / 4 * D).
  { intros D w s Hw Hle. replace (/ 4 * D) with (/ 4 * (D / w) * w) by (field; lra). apply Rmult_le_compat_r; lra. }
  split.
  - split; auto. destruct H3 as [->|((D & w) & Hin & ->)]; [lra|]. cbn [fst snd]. apply filter_In in Hin as [Hin Hlt]. apply rltb_true in Hlt. cbn [snd] in Hlt.
    assert (HD : 0 <= D).
    { apply in_combine_l in Hin. assert (Hz : forall l l' d, In d (zip_with (fun a b => Rabs (a - b)) l l') -> 0 <= d).
      { clear. induction l as [|a l IH]; intros [|b l'] d Hd; simpl in Hd; try contradiction. destruct Hd as [<-|Hd]. apply Rabs_pos. eapply IH; eauto. }
      apply in_app_iff in Hin as [Hin|Hin]; eapply Hz; eauto. }
    apply Rmult_le_pos; [lra|]. apply Rmult_le_pos; auto. apply Rlt_le, Rinv_0_lt_compat, Rabs_pos_lt. lra.
  - intros i j Hi Hj. cbv zeta. split; intros Ht.
    + specialize (H2 _ (sel_lower xl xu X st E2 E4 E5 E3 i j Hi Hj Ht)). cbn [fst snd] in H2. rewrite (Rabs_left (nth j (nth i st []) 0)) in H2 by auto. apply Hmul; lra.
    + specialize (H2 _ (sel_upper xl xu X st E2 E4 E5 E3 i j Hi Hj Ht)). cbn [fst snd] in H2. rewrite Rabs_Ropp, (Rabs_right (nth j (nth i st []) 0)) in H2 by lra. apply Hmul; lra.
Qed.
Lemma half_pow k : 0 < (/ 2) ^ k <= 1.
Proof. induction k as [|k IH]; simpl; lra. Qed.

Section Hvn.
Variable V : hvn_cfg.
Hypothesis P : hvn_posed V.
Let K := as_dpn V.
Let c := v_prob V.
Let W : well_posed K := hp_problem V P.

(** what holds of the object between iterations *)
Definition sound (o : hvn) : Prop := exists N, (0 < N)%nat /\ pop K N (s_X (n_state o)) /\ holds K (n_state o) (s_X (n_state o)).
Lemma pieces_sound o o' idx s d : pieces V o o' idx s d -> sound (hvn_log V o').
Proof using.
  intros Q. exists (length idx). destruct (q_new V _ _ _ _ _ Q) as [H1 H2]. cbn [hvn_log n_state]. pose proof (holds_X K _ _ H1) as E. rewrite E. split; auto.
  destruct idx; [destruct (q_idx V _ _ _ _ _ Q); auto|simpl; lia].
Qed.
Lemma iterate_pieces o o' : sound o -> hvn_iterate V o = Ok o' -> exists o1 idx s d, o' = hvn_log V o1 /\ pieces V o o1 idx s d.
Proof using P.
  intros (N & HN & HP & H) E. unfold hvn_iterate in E. inv_do E o1 E1. injection E as <-. destruct (iteration_pieces V P o o1 N HN HP H E1) as (idx & s & d & Q). eauto 6.
Qed.
Lemma iterate_sound o o' : sound o -> hvn_iterate V o = Ok o' -> sound o'.
Proof using P. intros Hs E. destruct (iterate_pieces o o' Hs E) as (o1 & idx & s & d & -> & Q). apply (pieces_sound _ _ _ _ _ Q). Qed.
Lemma init_pop X0 : hvn_input V X0 -> pop K (length X0) (map (fun x => clip_row (v_xl V) (v_xu V) x ++ repeat (/ INR (length X0)) (vdim_d V)) X0).
Proof using P.
  intros [HN HX]. split. apply map_length. intros x Hx. apply in_map_iff in Hx as (y & <- & Hy). rewrite app_length, repeat_length. unfold clip_row.
  pose proof (wp_xl K W) as Hl. pose proof (wp_xu K W) as Hu. cbn in Hl, Hu. specialize (HX y Hy).
  rewrite !NewtonProof.zip_with_length; rewrite ?NewtonProof.zip_with_length; rewrite ?HX; auto.
Qed.
Lemma init_total X0 : hvn_input V X0 -> exists o, hvn_init V X0 = Ok o.
Proof using P.
  intros H. destruct (vupd_total V P init (length X0) _ (proj1 H) (init_pop X0 H)) as (s & E & _). unfold hvn_init. rewrite E. cbn [bind]. eauto.
Qed.
Lemma init_sound X0 o : hvn_input V X0 -> hvn_init V X0 = Ok o -> sound o /\ length (s_X (n_state o)) = length X0 /\ n_jac (n_state o) = length X0.
Proof using P.
  intros H E. unfold hvn_init in E. inv_do E s Es. injection E as <-. cbn [n_state]. pose proof (init_pop X0 H) as HP.
  pose proof (upd_holds K W init _ _ s (proj1 H) HP Es) as Hh. pose proof (holds_X K _ _ Hh) as EX. rewrite EX. split; [|split].
  - exists (length X0). cbn [n_state]. rewrite EX. split; [apply H|auto].
  - apply map_length.
  - change (vupd V) with (upd K) in Es. apply (upd_njac K) in Es. rewrite Es, map_length. reflexivity.
Qed.

(** * errors *)
(** value and derivatives of the hypervolume exist at all populations *)
Definition hv_defined : Prop := forall n t X, (0 < n)%nat -> pop K n X -> holds K t X -> (exists v, hv_value V (s_Y t) = Ok v) /\ exists gh, hv_derivatives V t = Ok gh.
Definition zero_rows (M : list (list R)) : Prop := forall r x, In r M -> In x r -> x = 0.
Lemma max_step_error N X st e : length X = N -> (forall x, In x X -> length x = vdim_p V) -> matrix N (vdim V) st ->
  max_step_size (v_limit V) (v_xl V) (v_xu V) X (map (firstn (vdim_p V)) st) = Exn e ->
  v_limit V = true /\ e = ValueError /\ zero_rows (map (firstn (vdim_p V)) st).
Proof using P.
  intros LX HX [LS HS] E. destruct (v_limit V) eqn:EL; [|discriminate]. split; auto.
  pose proof (wp_xl K W) as Hl. pose proof (wp_xu K W) as Hu. cbn in Hl, Hu. fold (vdim_p V) in Hl, Hu.
  assert (Hf : forall r, In r (map (firstn (vdim_p V)) st) -> length r = vdim_p V).
  { intros r Hr. apply in_map_iff in Hr as (q & <- & Hq). rewrite firstn_length, (HS q Hq). unfold vdim. lia. }
  destruct (PropsNewton.C28_defined_partial (vdim_p V) (v_xl V) (v_xu V) X (map (firstn (vdim_p V)) st)) as [_ H2].
  { repeat split; auto. rewrite map_length. congruence. }
  split.
  - unfold max_step_size in E. cbn [negb] in E. destruct (list_minR _) as [m|e'] eqn:Em; cbn [bind] in E; [discriminate|]. injection E as <-. unfold list_minR in Em. destruct (map _ _); congruence.
  - intros r x Hr Hx. apply (In_nth _ _ []) in Hr as (i & Hi & <-). apply (In_nth _ _ 0) in Hx as (j & Hj & <-). rewrite map_length in Hi.
    destruct (Req_dec (nth j (nth i (map (firstn (vdim_p V)) st) []) 0) 0) as [|Hne]; auto. exfalso.
    destruct H2 as (m & Hm). exists i, j. split; [lia|]. rewrite Hf in Hj by (apply nth_In; rewrite map_length; auto). auto. congruence.
Qed.
Lemma iteration_error o e : sound o -> hv_defined -> hvn_iteration V o = Exn e -> v_limit V = true /\ e = ValueError /\
  exists s d l t st Rm, unique_state V (n_state o) = Ok s /\ hvn_layers (is_feasible c s) (s_Y s) = Ok d /\ In l (map snd d) /\ getitem s l = Ok t /\ vstep V t = Ok (st, Rm) /\ zero_rows (map (firstn (vdim_p V)) st).
Proof using P.
  intros (N & HN & HP & H) Hd E. unfold hvn_iteration in E.
  destruct (unique_total V P (n_state o) N _ HN HP H) as (idx & s & Ei & Es & Ht & Hne & Hh & Hp & Hnj & Hl). rewrite Es in E. cbn [bind] in E.
  assert (HM : (0 < length idx)%nat) by (destruct idx; [congruence|simpl; lia]).
  destruct (Hd (length idx) s _ HM Hp Hh) as [[v Ev] _]. rewrite Ev in E. cbn [bind] in E.
  destruct (layers_total V P s (length idx) _ Hp Hh) as (d & Ed & D1 & D2 & D3). rewrite Ed in E. cbn [bind] in E.
  assert (EX : s_X s = rows_at [] (s_X (n_state o)) idx) by (apply (holds_X K); auto).
  assert (LX : length (s_X s) = length idx) by (rewrite EX; apply rows_at_length).
  assert (HLy : forall l, In l (map snd d) -> exists t st Rm, getitem s l = Ok t /\ holds K t (rows_at [] (s_X s) l) /\ pop K (length l) (rows_at [] (s_X s) l) /\
    vstep V t = Ok (st, Rm) /\ matrix (length l) (vdim V) st /\ matrix (length l) (vdim V) Rm /\ (0 < length l)%nat).
  { intros l Hin. destruct (D1 l Hin) as [_ Hb]. assert (Hln : l <> []) by (apply (layers_nonempty V P s (length idx) _ d Hp Hh HM Ed l Hin)).
    destruct (getitem_holds V P s _ _ l Hp Hh Hln Hb) as (t & E1 & H1 & P1 & _). assert (HLn : (0 < length l)%nat) by (destruct l; [congruence|simpl; lia]).
    destruct (Hd (length l) t _ HLn P1 H1) as [_ [[g Hs] Hg]]. destruct (vstep_total V P t (length l) _ g Hs HLn P1 H1 Hg) as (st & Rm & E2 & M1 & M2).
    exists t, st, Rm. rewrite EX. auto 8. }
  assert (Hstep : forall l sr, In l (map snd d) -> vlayer_step V s l = Ok sr -> length (fst sr) = length l /\ length (snd sr) = length l).
  { intros l sr Hin E1. destruct (HLy l Hin) as (t & st & Rm & F1 & _ & _ & F2 & M1 & M2 & _). unfold vlayer_step in E1. rewrite F1 in E1. cbn [bind] in E1. rewrite F2 in E1. injection E1 as <-. split; [apply M1|apply M2]. }
  destruct (layers_loop (vlayer_step V s) (vlayer_size V s) (map snd d) (map (fun _ => repeat 0 (vdim V)) (s_X s)) (map (fun _ => repeat 0 (vdim V)) (s_X s)) (map (fun _ => 1) (s_X s))) as [[[st Rm] size]|e'] eqn:EL; cbn [bind] in E.
  - exfalso. assert (Hok : exists s', vupd V s (moved (s_X s) size st) = Ok s').
    { destruct (layers_loop_spec (vlayer_step V s) (vlayer_size V s) (length idx) (map snd d) (map (fun _ => repeat 0 (vdim V)) (s_X s)) (map (fun _ => repeat 0 (vdim V)) (s_X s)) (map (fun _ => 1) (s_X s))) as (st2 & Rm2 & size2 & E2 & M1 & M2 & M3 & HA & _); try (rewrite map_length; auto); auto.
      { intros l Hin. destruct (D1 l Hin) as [B1 B2]. split; [|split]; auto. apply (layers_loop_inv _ _ _ _ _ _ _ EL l Hin). }
      assert (Eq : (st2, Rm2, size2) = (st, Rm, size)) by congruence. injection Eq as -> -> ->.
      assert (MS : matrix (length idx) (vdim V) st).
      { split; auto. intros r Hr. apply (In_nth _ _ []) in Hr as (i & Hi & <-). rewrite M1 in Hi. specialize (D3 i Hi). apply in_concat in D3 as (l & Hin & Hil). apply (In_nth _ _ 0%nat) in Hil as (j & Hj & <-).
        destruct (layers_loop_inv _ _ _ _ _ _ _ EL l Hin) as (s1 & q & a & HR). destruct (HA l s1 q a j Hin HR Hj) as (-> & _). destruct HR as (R1 & _ & R3 & _).
        destruct (HLy l Hin) as (t & st1 & Rm1 & F1 & _ & _ & F2 & Q1 & Q2 & _). unfold vlayer_step in R1. rewrite F1 in R1. cbn [bind] in R1. rewrite F2 in R1. injection R1 as -> ->. apply Q1, nth_In. rewrite R3. auto. }
      assert (PM : pop K (length idx) (moved (s_X s) size st)) by (apply moved_pop; auto; rewrite EX; auto).
      destruct (vupd_total V P s (length idx) _ HM PM) as (s' & Es' & _). eauto. }
    destruct Hok as (s' & Es').
    rewrite Es' in E. discriminate.
  - injection E as ->.
    destruct (layers_loop_error (vlayer_step V s) (vlayer_size V s) (map snd d) e (length idx) _ _ _ ltac:(rewrite map_length; exact LX) ltac:(rewrite map_length; exact LX) ltac:(rewrite map_length; exact LX) D1 Hstep EL) as (l & Hin & Hx).
    destruct (HLy l Hin) as (t & st & Rm & F1 & F2 & F3 & F4 & M1 & M2 & HLn). unfold vlayer_step in Hx. rewrite F1 in Hx. cbn [bind] in Hx. rewrite F4 in Hx.
    destruct Hx as [Hx|(sr & E1 & Hx)]; [discriminate|]. injection E1 as <-. cbn [fst snd] in Hx. unfold vlayer_size in Hx. rewrite F1 in Hx. cbn [bind] in Hx.
    destruct (vprimal_rows V (length l) _ t F3 F2) as [LP RP].
    destruct (max_step_size (v_limit V) (v_xl V) (v_xu V) (vprimal V t) (map (firstn (vdim_p V)) st)) as [mx|e'] eqn:Em; cbn [bind] in Hx.
    + exfalso. destruct (vbacktrack_total (vphi V t st) (norm (concat Rm)) 6) with (s := mx) as [a Ea]; [|congruence].
      intros al. destruct (vphi_total V P t (length l) _ st al HLn ltac:(intros t' X' P' H'; apply (Hd _ _ _ HLn P' H')) F3 F2 M1) as (p & Ep & _). eauto.
    + injection Hx as ->. destruct (max_step_error (length l) (vprimal V t) st e LP RP M1 Em) as (A1 & A2 & A3). split; auto. split; auto. exists s, d, l, t, st, Rm. auto 8.
Qed.
Lemma iterate_total o : sound o -> hv_defined -> v_limit V = false -> exists o', hvn_iterate V o = Ok o' /\ sound o'.
Proof using P.
  intros Hs Hd HL. destruct (hvn_iteration V o) as [o1|e] eqn:E.
  - exists (hvn_log V o1). assert (E' : hvn_iterate V o = Ok (hvn_log V o1)) by (unfold hvn_iterate; rewrite E; reflexivity). split; auto. apply (iterate_sound o); auto.
  - destruct (iteration_error o e Hs Hd E) as [HL' _]. congruence.
Qed.
Lemma trace_total n : hv_defined -> v_limit V = false -> forall o, sound o -> exists l, length l = n /\ trace (hvn_iterate V) o l.
Proof using P.
  intros Hd HL. induction n as [|n IH]; intros o Hs. exists []. simpl. auto. destruct (iterate_total o Hs Hd HL) as (o' & E & Hs').
  destruct (IH o' Hs') as (l & Hl & Ht). exists (o' :: l). simpl. auto.
Qed.
Lemma run_total : hv_defined -> v_limit V = false -> forall fuel o i z h, sound o -> (z - Z.of_nat i <= Z.of_nat fuel)%Z -> exists r, run (hvn_iterate V) fuel (mkOpt o i (Finite z) None h) = Ok r.
Proof using P.
  intros Hd HL. induction fuel as [|fuel IH]; intros o i z h Hs Hz; cbn [run]; unfold terminate, reached; cbn [o_max o_iter o_state o_stop o_hist]; destruct (Z.leb_spec z (Z.of_nat i)); eauto; try lia.
  destruct (iterate_total o Hs Hd HL) as (o' & -> & Hs'). cbn [bind]. apply IH; auto. lia.
Qed.
End Hvn.
