(** Pieces of an iteration of MMDNewton: shapes and success. *)
From Coq Require Import List Arith Bool Reals ZArith Lia Lra Permutation.
From Verif Require Import Num Exn ListAux MiscModel StateModel StateSpec StateProof NewtonModel NewtonProof NewtonBox NewtonPop RefModel RefSpec RefProof RefTop RefShift HVTop HVXModel HVXProof IndModel IndSpec IndProof IndTop MMDModel MMDSpec MMDSym MMDTop StepModel StepSpec StepProof ShiftModel ShiftSpec ShiftMain StepTop StepMain StepIter StepLast IterModel IterSpec IterProof IterMain IterTotal IterConv MnModel MnSpec.
From Verif Require PropsStep.
Import ListNotations.
Open Scope R_scope.

(** * what the compiled functions have seen *)
Definition all_quarter (c : cache) : Prop := forall e, In e c -> snd e = 0.25.
Definition quarter (i : mmdm) : Prop := mm_beta i = 0.25 /\ all_quarter (mm_grad i) /\ all_quarter (mm_hess i).
Lemma traced_quarter c s : all_quarter c -> fst (traced c s 0.25) = 0.25 /\ all_quarter (snd (traced c s 0.25)).
Proof.
  intros H. unfold traced, lookup. destruct (find _ c) as [e|] eqn:E; cbn [fst snd].
  - apply find_some in E as [E _]. auto.
  - split; auto. intros e [<-|He]; auto.
Qed.
Lemma new_quarter : quarter (new_mmdm 0.25).
Proof. split; auto. split; intros e []. Qed.

(** * the shift of a matched set *)
Lemma mmd_shift_first N Y steps steps' s : mmd_shift 0 N Y steps s = mmd_shift 0 N Y steps' s.
Proof. reflexivity. Qed.

Lemma flat_ext N d f g : (forall a k b l, (a < N)%nat -> (k < d)%nat -> (b < N)%nat -> (l < d)%nat -> f a k b l = g a k b l) -> flat N d f = flat N d g.
Proof.
  intros H. unfold flat. apply mk2_ext. intros r q Hr Hq. assert (Hd : d <> 0%nat) by (intros ->; lia).
  apply H; try (apply Nat.mod_upper_bound; auto); apply Nat.div_lt_upper_bound; auto; lia.
Qed.
Lemma assemble_ext dY2 dY J J' H H' p a k b l : (forall i j, J a i j = J' a i j) -> (forall i j, J b i j = J' b i j) -> (forall i j q, H a i j q = H' a i j q) ->
  assemble p dY2 dY J H a k b l = assemble p dY2 dY J' H' a k b l.
Proof.
  intros E1 E2 E3. unfold assemble. f_equal.
  - apply sumn_ext. intros x Hx. apply sumn_ext. intros y Hy. rewrite E1, E2. reflexivity.
  - destruct (a =? b)%nat; auto. apply sumn_ext. intros x Hx. rewrite E3. reflexivity.
Qed.
Lemma flat_matrix N d f : matrix (N * d) (N * d) (flat N d f).
Proof. apply mk2_matrix. Qed.

Section Mn.
Variable M : mn_cfg.
Hypothesis P : mn_posed M.
Let K := n_base M.
Let c := k_prob K.
Let m := k_nobj K.
Let W : well_posed K := np_problem M P.
Let OO : oracles_ok K := np_oracles M P.

Lemma match_full N rs Y : (0 < N)%nat -> ready K N rs -> length Y = N -> exists rs', match_ K rs Y = Ok rs' /\ matched K N rs' /\
  best_match (reference_set rs) Y (reference_set rs') /\ rs_eta rs' = rs_eta rs /\ rs_ref rs' = rs_ref rs /\ (matched K N rs -> Permutation (reference_set rs') (reference_set rs)).
Proof using P.
  intros HN Hr HL. destruct (match_ready K OO N rs Y HN Hr HL) as (rs' & E & Hm & Hi & Hp). exists rs'. split; auto. split; auto.
  destruct (match_best K OO N rs Y rs' HN Hr HL E) as (HB & _). split; auto.
  assert (HC : exists comp, rs_ref rs = [comp] /\ (N <= length comp)%nat /\ wf rs /\ rs_rematch rs = true).
  { destruct Hr as [(comp & e & M0 & Hf & -> & LM & RM)|(comp & e & Hf & ->)]; exists comp; repeat split; try reflexivity; try apply Hf; try discriminate. }
  destruct HC as (comp & HC1 & HC2 & HC3 & HC4).
  destruct (match_case K OO rs Y N HL HC3 (or_introl HC4) comp HC1 HC2) as (rs1 & X & M0 & E2 & _ & PX & _ & Hbest & ->). rewrite E2 in E. injection E as <-. cbn [rs_eta rs_ref]. rewrite HC1. auto.
Qed.

(** a set that is not matched *)
Definition unmatched (N : nat) (rs : refset) : Prop :=
  rs_matched rs = None /\ length (rs_eta rs) = length (rs_ref rs) /\ (forall e, In e (rs_eta rs) -> length e = m) /\ rows m (concat (rs_ref rs)) /\ (N <= length (concat (rs_ref rs)))%nat.
Definition before (N : nat) (rs : refset) : Prop := if n_match M then ready K N rs else unmatched N rs.
Definition after (N : nat) (rs : refset) : Prop := if n_match M then matched K N rs else unmatched N rs.
Lemma after_before N rs : after N rs -> before N rs.
Proof using. unfold after, before. destruct (n_match M); auto. intros H. left. exact H. Qed.
Lemma unmatched_ref N rs : unmatched N rs -> reference_set rs = concat (rs_ref rs).
Proof using. intros (H & _). unfold reference_set. rewrite H. reflexivity. Qed.
Lemma before_ref N rs : (0 < N)%nat -> before N rs -> reference_set rs <> [] /\ rows m (reference_set rs).
Proof using.
  intros HN H. unfold before in H. destruct (n_match M). apply (ready_ref K N); auto. rewrite (unmatched_ref N rs H). destruct H as (_ & _ & _ & H1 & H2). split; auto.
  intros E. rewrite E in H2. simpl in H2. lia.
Qed.
(** how the reference set changes when an indicator reads it *)
Definition reads (N : nat) (rs rs' : refset) : Prop :=
  after N rs' /\ rs_eta rs' = rs_eta rs /\ rs_ref rs' = rs_ref rs /\ (after N rs -> Permutation (reference_set rs') (reference_set rs)) /\ (n_match M = false -> rs' = rs).
Lemma reads_trans N r1 r2 r3 : reads N r1 r2 -> reads N r2 r3 -> reads N r1 r3.
Proof using.
  intros (A1 & A2 & A3 & A4 & A5) (B1 & B2 & B3 & B4 & B5). split; [auto|]. split; [congruence|]. split; [congruence|]. split. intros HH; exact (perm_trans (B4 A1) (A4 HH)). intros HH. rewrite B5, A5; auto.
Qed.

(** * the value *)
Lemma value_total N rs i Y : (0 < N)%nat -> before N rs -> length Y = N -> rows m Y -> mm_beta i = 0.25 ->
  exists v rs', mn_value M rs i Y = Ok (v, rs') /\ reads N rs rs' /\ targets M (reference_set rs) Y (reference_set rs') /\ discrepancy M (reference_set rs') Y v.
Proof using P.
  intros HN Hb LY RY Hi. assert (HY : Y <> []) by (intros E; rewrite E in LY; simpl in LY; lia). destruct (before_ref N rs HN Hb) as [H1 H2].
  unfold mn_value, reads, targets, discrepancy, before, after in *. destruct (n_match M).
  - destruct (match_full N rs Y HN Hb LY) as (rs' & E & Hm & HB & He & Hr & Hp). fold K. destruct (matched_ref K N rs' Hm) as [L1 R1].
    rewrite (mmdm_value _ _ _ _ Y (reference_set rs') m HY RY) by (unfold matched_rows; fold K; try rewrite E; try reflexivity; lia). cbn [bind]. rewrite E. cbn [bind].
    eexists _, _. split; [reflexivity|]. split. { split; [auto|]. split; [auto|]. split; [auto|]. split; [auto|discriminate]. } split; auto. unfold MMDM. rewrite Hi. replace (1 / 4) with 0.25 by lra. reflexivity.
  - rewrite (mmd_value _ (the_mmd M rs) Y m HY H1 RY H2). cbn [bind]. eexists _, _. split; [reflexivity|]. split. { split; [exact Hb|]. split; [auto|]. split; [auto|]. split; auto. } split; auto. reflexivity.
Qed.

(** * the derivatives *)
Definition dYt (Y T : list (list R)) : nat -> nat -> R := if n_match M then mmdm_dY (n_kern M) 0.25 Y T else mmd_dY (n_kern M) Y T.
Definition dY2t (Y T : list (list R)) : nat -> nat -> nat -> nat -> R := if n_match M then mmdm_dY2 (n_kern M) 0.25 Y T else mmd_dY2 (n_kern M) Y T.
Definition Jat (s : pstate) (i : nat) : nat -> nat -> R := cb_point (c_jac c) (pr c (nth i (s_X s) [])).
Definition Hat (s : pstate) (i : nat) : nat -> nat -> nat -> R := k_hess K (pr c (nth i (s_X s) [])).
Definition gradm (s : pstate) (T : list (list R)) (i k : nat) : R := sumn m (fun a => Jat s i a k * dYt (s_Y s) T i a).
Definition hessm (s : pstate) (T : list (list R)) : nat -> nat -> nat -> nat -> R := assemble m (dY2t (s_Y s) T) (dYt (s_Y s) T) (Jat s) (Hat s).
Lemma derivatives_ok N s X rs i hes : (0 < N)%nat -> pop K N X -> holds K s X -> before N rs -> quarter i ->
  exists rs' i', mn_derivatives M rs i s hes = Ok (mk2 N (dim_p K) (gradm s (reference_set rs')), (if hes then Some (flat N (dim_p K) (hessm s (reference_set rs'))) else None), rs', i') /\
    reads N rs rs' /\ targets M (reference_set rs) (s_Y s) (reference_set rs') /\ quarter i'.
Proof using P.
  intros HN HP H Hb (Q1 & Q2 & Q3). destruct (pop_Y K W N s X HP H) as [LY RY]. destruct (before_ref N rs HN Hb) as [H1 H2].
  destruct (primal_cols K N s X HN HP H) as (LX & CX & NX). destruct (holds_jac K N s X HP H) as (J & EJ & HJ).
  assert (HY : s_Y s <> []) by (intros E; rewrite E in LY; simpl in LY; lia).
  assert (CY : n_cols (s_Y s) = m). { destruct (s_Y s) as [|y Y]; [congruence|]. apply RY. simpl; auto. }
  assert (EX : check_X (m_nvar (the_mmd M rs)) (primal_of K s) = primal_of K s). { unfold check_X. cbn [the_mmd m_nvar]. fold K. rewrite CX, Nat.eqb_refl. reflexivity. }
  unfold mn_derivatives, reads, targets, before, after, gradm, hessm, dYt, dY2t in *. fold K. destruct (n_match M).
  - destruct (match_full N rs (s_Y s) HN Hb LY) as (rs' & E & Hm & HB & He & Hr & Hp). destruct (matched_ref K N rs' Hm) as [L1 R1].
    unfold mmdm_derivatives. rewrite EX. unfold mmd_YJ. rewrite CY. change (m_nobj (the_mmd M rs)) with m. rewrite Nat.eqb_refl. cbn [bind]. unfold matched_rows. fold K. rewrite E. cbn [bind]. cbv zeta.
    rewrite LX, LY, L1, Nat.eqb_refl. cbn [negb andb]. rewrite CX, EJ, Q1.
    pose proof (traced_quarter (mm_grad i) (shape_of (s_Y s) (reference_set rs')) Q2) as [T1 T2]. destruct (traced (mm_grad i) _ _) as [bg cg]. cbn [fst snd] in T1, T2. subst bg.
    pose proof (traced_quarter (mm_hess i) (shape_of (s_Y s) (reference_set rs')) Q3) as [T3 T4]. destruct (traced (mm_hess i) _ _) as [bh ch]. cbn [fst snd] in T3, T4. subst bh.
    assert (Eg : forall f, (forall i0 k, (i0 < N)%nat -> f i0 k = sumn m (fun a => J i0 a k * mmdm_dY (n_kern M) 0.25 (s_Y s) (reference_set rs') i0 a)) -> mk2 N (dim_p K) f = mk2 N (dim_p K) (fun i0 k => sumn m (fun a => Jat s i0 a k * mmdm_dY (n_kern M) 0.25 (s_Y s) (reference_set rs') i0 a))).
    { intros f Hf. apply mk2_ext. intros i0 k Hi0 Hk. rewrite Hf by auto. apply sumn_ext. intros a Ha. unfold Jat. rewrite HJ by auto. reflexivity. }
    rewrite (Eg _ (fun i0 k Hi0 => eq_refl)). clear Eg.
    destruct hes; cbn [bind fst snd]; [exists rs', (mkMM 0.25 cg ch)|exists rs', (mkMM 0.25 cg (mm_hess i))]; (split; [|split; [split; [auto|split; [auto|split; [auto|split; [auto|discriminate]]]]|split; [auto|split; [auto|split; auto]]]]).
    + do 5 f_equal. apply flat_ext. intros a k b l Ha Hk Hb' Hl. apply assemble_ext.
      * intros i0 j0. unfold Jat. rewrite HJ; auto. * intros i0 j0. unfold Jat. rewrite HJ; auto. * intros i0 j0 q0. unfold Hat. cbn [the_mmd m_hess]. fold K. rewrite NX; auto.
    + reflexivity.
  - unfold mmd_derivatives. rewrite EX. unfold mmd_YJ. rewrite CY. change (m_nobj (the_mmd M rs)) with m. rewrite Nat.eqb_refl. cbn [bind]. rewrite LX, LY, Nat.eqb_refl. cbn [negb]. change (m_ref (the_mmd M rs)) with (reference_set rs).
    rewrite CX, EJ. replace (match reference_set rs with [] => Exn ValueError | _ => _ end) with
      (Ok (mk2 N (dim_p K) (fun i k => sumn m (fun a => mmd_dY (n_kern M) (s_Y s) (reference_set rs) i a * J i a k)),
        if hes then Some (flat N (dim_p K) (assemble m (mmd_dY2 (n_kern M) (s_Y s) (reference_set rs)) (mmd_dY (n_kern M) (s_Y s) (reference_set rs)) J (fun i => k_hess K (nth i (primal_of K s) [])))) else None)) by (destruct (reference_set rs); [congruence|reflexivity]).
    cbn [bind fst snd]. eexists rs, i. split; [|split; [split; [exact Hb|split; [auto|split; [auto|split; auto]]]|split; [auto|split; [auto|split; auto]]]].
    do 3 f_equal. f_equal.
    + apply mk2_ext. intros i0 k Hi0 Hk. apply sumn_ext. intros a Ha. unfold Jat. rewrite HJ by auto. apply Rmult_comm.
    + destruct hes; auto. f_equal. apply flat_ext. intros a k b l Ha Hk Hb' Hl. apply assemble_ext.
      * intros i0 j0. unfold Jat. rewrite HJ; auto. * intros i0 j0. unfold Jat. rewrite HJ; auto. * intros i0 j0 q0. unfold Hat. rewrite NX; auto.
Qed.

(** * the step *)
Lemma R_total N s X g : pop K N X -> holds K s X -> matrix N (dim_p K) g -> exists Rm, mn_R M s g = Ok Rm /\ matrix N (dim K) Rm.
Proof using P.
  intros HP H Hg. unfold mn_R. fold K. assert (LPs : length (points_of K s g) = N) by (rewrite points_length; rewrite (holds_X _ _ _ H); apply HP).
  destruct (is_constrained K) eqn:Ec.
  - destruct (compute_R_spec (dim_p K) (dim_d K) (points_of K s g) (points_shaped K W N s X g Ec HP H Hg)) as (Rm & dH & E & Mx & _). rewrite LPs in Mx. rewrite E. exists Rm. split; auto.
  - exists (map pt_grad (points_of K s g)). split; [reflexivity|]. unfold dim. rewrite (unconstrained_dim K (wp_counts K W) Ec), Nat.add_0_r. split. rewrite map_length; auto.
    intros r Hr. apply in_map_iff in Hr as (p & <- & Hp). apply (points_grad K N s X g HP H Hg p Hp).
Qed.
(** the residual of a population: [is_R], and without constraints the gradient *)
Lemma mn_step_total N s X rs i : (0 < N)%nat -> pop K N X -> holds K s X -> before N rs -> quarter i ->
  exists st Rm rs' i', mn_step M rs i s = Ok (st, Rm, rs', i') /\ matrix N (dim K) st /\ matrix N (dim K) Rm /\
    reads N rs rs' /\ targets M (reference_set rs) (s_Y s) (reference_set rs') /\ quarter i' /\
    mn_R M s (mk2 N (dim_p K) (gradm s (reference_set rs'))) = Ok Rm /\
    mmd_step (k_solve K) (k_lstsq K) (k_chol K) (dim_p K) (dim_d K) (is_constrained K) (k_pre K) (flat N (dim_p K) (hessm s (reference_set rs'))) (points_of K s (mk2 N (dim_p K) (gradm s (reference_set rs')))) = Ok (st, Rm).
Proof using P.
  intros HN HP H Hb Hq. destruct (derivatives_ok N s X rs i true HN HP H Hb Hq) as (rs' & i' & E & H1 & H2 & H3). unfold mn_step. rewrite E. cbn [bind]. fold K.
  set (g := mk2 N (dim_p K) (gradm s (reference_set rs'))) in *. pose proof (mk2_matrix N (dim_p K) (gradm s (reference_set rs'))) as Hg. fold g in Hg.
  set (Hs := flat N (dim_p K) (hessm s (reference_set rs'))) in *. pose proof (flat_matrix N (dim_p K) (hessm s (reference_set rs'))) as HHs. fold Hs in HHs.
  assert (LPs : length (points_of K s g) = N) by (rewrite points_length; rewrite (holds_X _ _ _ H); apply HP).
  destruct (R_total N s X g HP H Hg) as (Rm & ER & MR).
  assert (HS : exists st, mmd_step (k_solve K) (k_lstsq K) (k_chol K) (dim_p K) (dim_d K) (is_constrained K) (k_pre K) Hs (points_of K s g) = Ok (st, Rm) /\ matrix N (dim K) st).
  { unfold mn_R in ER. fold K in ER. destruct (is_constrained K) eqn:Ec.
    - destruct (PropsStep.C72_mmd (k_solve K) (k_lstsq K) (k_chol K) (oo_solve K OO) (oo_lstsq K OO) (dim_p K) (dim_d K) (k_pre K) Hs (points_of K s g)) as (st & Rm' & E1 & M1 & _ & _).
      lia. apply (points_shaped K W N s X g Ec HP H Hg). rewrite LPs. auto. rewrite LPs in *. exists st. rewrite E1. split; auto. do 2 f_equal.
      unfold mmd_step, global_step in E1. inv_do E1 RH ERH. inv_do E1 DR EDR. inv_do E1 st1 Est. injection E1 as _ <-. rewrite ERH in ER. cbn [bind] in ER. congruence.
    - destruct (PropsStep.C72_mmd_unconstrained (k_solve K) (k_lstsq K) (k_chol K) (oo_solve K OO) (oo_lstsq K OO) (dim_p K) (dim_d K) (k_pre K) Hs (points_of K s g)) as (st & E1 & M1 & _).
      lia. apply (points_grad K N s X g HP H Hg). rewrite LPs. auto. rewrite LPs in *. exists st. rewrite E1. cbn in ER. injection ER as <-. split; auto. unfold dim. rewrite (unconstrained_dim K (wp_counts K W) Ec), Nat.add_0_r. auto. }
  destruct HS as (st & Es & Ms). rewrite Es. cbn [bind fst snd]. exists st, Rm, rs', i'. split; [reflexivity|]. split; [auto|]. split; [auto|]. split; [auto|]. split; [auto|]. split; [auto|]. split; auto.
Qed.

(** * the line search *)
Lemma trial_pop N X st al : pop K N X -> matrix N (dim K) st -> pop K N (mmd_update al X st).
Proof using.
  intros [LX HX] [LS HS]. unfold mmd_update. assert (LT : length (zip_with (zip_with (fun x t => x + al * t)) X st) = N) by (rewrite NewtonProof.zip_with_length; congruence).
  split; auto. intros x Hx. apply (In_nth _ _ []) in Hx as (i & Hi & <-).
  rewrite LT in Hi. rewrite (zip_with_nth _ _ _ _ [] []) by lia.
  assert (L1 : length (nth i X []) = IterProof.dim K) by (apply HX, nth_In; lia). assert (L2 : length (nth i st []) = IterProof.dim K) by (apply HS, nth_In; lia).
  rewrite NewtonProof.zip_with_length; congruence.
Qed.
(** the merit of a population for the targets [T] *)
Definition merit (s : pstate) (N : nat) (T : list (list R)) (v : R) : Prop :=
  exists Rm, mn_R M s (mk2 N (dim_p K) (gradm s T)) = Ok Rm /\ v = norm (concat Rm).
Lemma phi_ok N s X st w al : (0 < N)%nat -> pop K N X -> holds K s X -> matrix N (dim K) st -> before N (fst w) -> quarter (snd w) ->
  exists v w' s', mn_phi M s st w al = Ok (v, w') /\ 0 <= v /\ reads N (fst w) (fst w') /\ quarter (snd w') /\
    upd K s (mmd_update al X st) = Ok s' /\ holds K s' (mmd_update al X st) /\ targets M (reference_set (fst w)) (s_Y s') (reference_set (fst w')) /\ merit s' N (reference_set (fst w')) v.
Proof using P.
  intros HN HP H Hst Hb Hq. unfold mn_phi. fold K. rewrite (holds_X _ _ _ H). pose proof (trial_pop N X st al HP Hst) as HT.
  destruct (upd_total K W s N _ HN HT) as (s' & E & H'). rewrite E. cbn [bind].
  destruct (derivatives_ok N s' _ (fst w) (snd w) false HN HT H' Hb Hq) as (rs' & i' & E1 & R1 & R2 & R3). rewrite E1. cbn [bind].
  destruct (R_total N s' _ _ HT H' (mk2_matrix N (dim_p K) (gradm s' (reference_set rs')))) as (Rm & ER & MR). rewrite ER. cbn [bind].
  exists (norm (concat Rm)), (rs', i'), s'. cbn [fst snd]. split; [reflexivity|]. split. apply sqrt_pos. split; [auto|]. split; [auto|]. split; [auto|]. split; [auto|]. split; [auto|]. exists Rm. auto.
Qed.
(** the result of the search: the first accepted step, or the seventh *)
Definition from (N : nat) (rs : refset) (S : list (list R)) : Prop :=
  (after N rs -> n_match M = true -> Permutation S (reference_set rs)) /\ (n_match M = false -> S = reference_set rs).
Lemma from_reads N rs rs' S : reads N rs rs' -> from N rs' S -> from N rs S.
Proof using.
  intros (R1 & _ & _ & R4 & R5) [F1 F2]. split. intros Ha Hm. eapply perm_trans; [apply F1; auto|auto]. intros Hm. rewrite F2; auto. rewrite R5; auto.
Qed.
Definition trial (N : nat) (s : pstate) (X st : list (list R)) (rs : refset) (T : list (list R)) (phi0 a : R) (b : bool) : Prop :=
  exists s' S v, upd K s (mmd_update a X st) = Ok s' /\ holds K s' (mmd_update a X st) /\ from N rs S /\ targets M S (s_Y s') T /\ merit s' N T v /\ armijo (/ 10 ^ 6) (Fin phi0) a (Fin v) = b.
Lemma halving_spec N s X st phi0 n : (0 < N)%nat -> pop K N X -> holds K s X -> matrix N (dim K) st ->
  forall a w, before N (fst w) -> quarter (snd w) -> exists k w', (k <= n)%nat /\ halving (mn_phi M s st) n phi0 a w = Ok (a * (/ 2) ^ k, w') /\ quarter (snd w') /\
    ((0 < n)%nat -> reads N (fst w) (fst w')) /\ (n = 0%nat -> w' = w) /\
    ((k < n)%nat -> trial N s X st (fst w) (reference_set (fst w')) phi0 (a * (/ 2) ^ k) true) /\
    (forall k', (k' < k)%nat -> exists rs', reads N (fst w) rs' /\ trial N s X st (fst w) (reference_set rs') phi0 (a * (/ 2) ^ k') false).
Proof using P.
  intros HN HP H Hst. induction n as [|n IH]; intros a w Hb Hq; cbn [halving].
  - exists 0%nat, w. split; auto. split. rewrite Rmult_1_r. auto. split; auto. split; [lia|]. split; auto. split; [lia|]. intros k' Hk'. lia.
  - destruct (phi_ok N s X st w a HN HP H Hst Hb Hq) as (v & w1 & s1 & E & V0 & R1 & Q1 & U1 & H1 & T1 & M1). rewrite E. cbn [bind fst snd].
    assert (F0 : from N (fst w) (reference_set (fst w))) by (split; auto).
    destruct (armijo _ _ _ _) eqn:Ea.
    + exists 0%nat, w1. rewrite Rmult_1_r. split; [lia|]. split; auto. split; auto. split; auto. split; [lia|]. split; [|intros k' Hk'; lia]. intros _. exists s1, (reference_set (fst w)), v. repeat (split; [auto|]). auto.
    + destruct (IH (a * / 2) w1 (after_before N _ (proj1 R1)) Q1) as (k & w2 & Hk & E2 & Q2 & R2 & Z2 & A2 & B2). exists (S k), w2. split; [lia|].
      assert (Ek : forall k, a * / 2 * (/ 2) ^ k = a * (/ 2) ^ S k) by (intros; simpl; ring). rewrite Ek in *. split; auto. split; auto. split.
      { intros _. destruct n as [|n]. rewrite (Z2 eq_refl). exact R1. eapply reads_trans; [exact R1|]. apply R2. lia. }
      split; [lia|]. split.
      * intros Hlt. destruct (A2 ltac:(lia)) as (s2 & S2 & v2 & C1 & C1' & C2 & C3). exists s2, S2, v2. split; auto. split; auto. split; auto. apply (from_reads N _ (fst w1)); auto.
      * intros [|k'] Hk'.
        -- rewrite Rmult_1_r. exists (fst w1). split; auto. exists s1, (reference_set (fst w)), v. repeat (split; [auto|]). auto.
        -- destruct (B2 k' ltac:(lia)) as (rs' & D1 & s2 & S2 & v2 & C1 & C1' & C2 & C3). exists rs'. split. eapply reads_trans; eauto. rewrite Ek in *. exists s2, S2, v2. split; auto. split; auto. split; auto. apply (from_reads N _ (fst w1)); auto.
Qed.
End Mn.
