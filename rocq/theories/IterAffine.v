(** Affine objectives and descent for GD. *)
From Coq Require Import List Arith Bool Reals ZArith Lia Lra Psatz Permutation.
From Verif Require Import Num Exn ListAux MiscModel StateModel StateSpec StateProof NewtonModel NewtonProof NewtonBox NewtonPop RefModel RefSpec RefProof RefTop RefShift HVXModel HVXProof HVXTop IndModel IndSpec IndProof IndTop StepModel StepSpec StepProof ShiftModel ShiftMain StepTop StepMain StepDpn StepLast StepSolver IterModel IterSpec IterProof IterMain IterTotal IterConv.
Import ListNotations.
Open Scope R_scope.

Lemma mk2_row {A} n q (f : nat -> nat -> A) i : (i < n)%nat -> nth i (mk2 n q f) [] = map (f i) (seq 0 q).
Proof. intros H. unfold mk2. rewrite (nth_map_default _ _ _ 0%nat) by (rewrite seq_length; auto). rewrite seq_nth by auto. reflexivity. Qed.
Lemma map_seq_nth (f : nat -> R) q k : (k < q)%nat -> nth k (map f (seq 0 q)) 0 = f k.
Proof. intros H. rewrite (nth_map_default _ _ _ 0%nat) by (rewrite seq_length; auto). rewrite seq_nth by auto. reflexivity. Qed.

Lemma box_inside xl xu x step : length xl = length x -> length xu = length x -> length step = length x -> inside xl xu x -> fst (dpn_box xl xu x step) = step.
Proof.
  intros L1 L2 L3 Hin. unfold dpn_box. assert (Hb : forall i, (i < length x)%nat -> nth i xl 0 <= nth i x 0 <= nth i xu 0) by (intros i Hi; specialize (Hin i Hi); lra).
  destruct (nanmin_pos xl xu x L1 L2 Hb (box_ratios xl xu x step)) as [E|E].
  { intros v Hv. right. apply (In_nth _ _ NaN) in Hv as (i & Hi & <-). rewrite (ratios_length xl xu x) in Hi by auto. destruct (Nat.lt_ge_cases i (length x)) as [H|H].
    - rewrite (ratios_low xl xu x) by auto. apply (ratio_posv xl xu x L1 L2 Hb). specialize (Hin i H). lra.
    - replace i with (length x + (i - length x))%nat by lia. rewrite (ratios_up xl xu x) by (auto; lia). apply (ratio_posv xl xu x L1 L2 Hb). specialize (Hin (i - length x)%nat ltac:(lia)). lra. }
  - rewrite E. cbn [cap1]. unfold is_fzero, reqb. destruct (Req_EM_T 1 0); [lra|reflexivity].
  - destruct (nanmin (box_ratios xl xu x step)) as [r| | |]; simpl in E; try contradiction; cbn [cap1].
    + destruct (rltb r 1) eqn:Er; cbn [is_fzero]; unfold reqb; [destruct (Req_EM_T r 0)|destruct (Req_EM_T 1 0)]; try lra; reflexivity.
    + cbn [is_fzero]. unfold reqb. destruct (Req_EM_T 1 0); [lra|reflexivity].
Qed.
Lemma near_is_nearest S y : S <> [] -> is_nearest S y (nth (argminR (map (dist2 y) S)) S []).
Proof.
  intros HS. assert (HL : (argminR (map (dist2 y) S) < length S)%nat) by (rewrite <- (map_length (dist2 y)); apply argminR_lt; destruct S; simpl; congruence). split. apply nth_In; auto.
  intros r Hr. pose proof (argminR_min (map (dist2 y) S) (dist2 y r) (in_map _ _ _ Hr)) as H. rewrite (nth_map_default _ _ _ []) in H by auto. rewrite !dist2_edist in H. unfold edist in H. apply sqrt_le_0; auto; apply sqd_nonneg.
Qed.
Lemma search_descent (phi : refset * nat -> R -> res (R * (refset * nat))) k (P : refset * nat -> Prop) (f : R -> R) :
  (forall w al r, P w -> phi w al = Ok r -> P (snd r) /\ fst r = f al) ->
  forall phi0 s2 p2 s1 w r, 0 <= s1 -> P w -> search phi k phi0 s2 p2 s1 w = Ok r ->
  P (snd r) /\ (armijo (/ 10 ^ 4) (Fin phi0) (fst r) (Fin (f (fst r))) = true \/ fst r <= (6 / 10) ^ k * s1).
Proof.
  intros Hphi. induction k as [|k IH]; intros phi0 s2 p2 s1 w r Hs Hw E; cbn [search] in E. injection E as <-. cbn. split; auto. right. lra.
  inv_do E pw Ep. destruct (Hphi _ _ _ Hw Ep) as [Hw' Ef]. destruct (armijo _ _ _ _) eqn:Ea. injection E as <-. cbn [fst snd]. split; auto. left. rewrite <- Ef. auto.
  pose proof (next_step_bounds s2 s1 (Fin p2) (Fin (fst pw)) Hs) as B. assert (B0 : 0 <= next_step s2 s1 (Fin p2) (Fin (fst pw))) by lra. destruct (IH _ _ _ _ _ _ B0 Hw' E) as [Q1 [Q2|Q2]]; split; auto. right.
  simpl. assert (0 <= (6 / 10) ^ k) by (apply pow_le; lra). eapply Rle_trans; [exact Q2|]. nra.
Qed.
Lemma norm_euclid v : norm v = euclid v.
Proof. unfold norm, euclid. f_equal. induction v as [|a v IH]; auto. cbn [map fold_right]. rewrite IH. unfold sumR. cbn [map fold_right]. simpl. ring. Qed.
Lemma box_max xl xu x st r : fin (snd (dpn_box xl xu x st)) = Ok r -> 0 <= r <= 1.
Proof.
  assert (H : forall s, fin (cap1 (nanmin (box_ratios xl xu x s))) = Ok r -> 0 <= r <= 1).
  { intros s E. destruct (nanmin_ok (box_ratios xl xu x s)) as (N1 & _ & _). { intros v Hv. eapply ratio_in; eauto. }
    destruct (nanmin (box_ratios xl xu x s)) as [q| | |]; simpl in E, N1; try contradiction; try (injection E as <-; lra). destruct (rltb q 1) eqn:Eq; injection E as <-; [apply rltb_true in Eq|]; lra. }
  unfold dpn_box. destruct (is_fzero _); cbn [snd]; apply H.
Qed.
Section Conv.
Variable K : dpn_cfg.
Hypothesis W : well_posed K.
Hypothesis OO : oracles_ok K.
Let c := k_prob K.
Let m := k_nobj K.
Let n := dim_p K.

(** * the reference set keeps its members *)
Lemma derivatives_perm a N s X rs hes g h rs' : (0 < N)%nat -> pop K N X -> holds K s X -> matched K N rs -> derivatives K a rs s hes = Ok (g, h, rs') ->
  matched K N rs' /\ Permutation (reference_set rs') (reference_set rs) /\ (a = TheGD -> rs' = rs).
Proof using W OO.
  intros HN HP H Hm E. destruct (pop_Y K W N s X HP H) as [LY RY]. destruct a; unfold derivatives in E.
  - inv_do E gh Egh. inv_do E g' Eg. destruct gh as [gg hh]. inv_do E h' Eh. injection E as <- <- <-. auto.
  - inv_do E r1 Em. inv_do E gh Egh. injection E as <- <- <-. destruct (match_best K OO N rs (s_Y s) r1 HN (or_introl Hm) LY Em) as (_ & M1 & P). split; auto. split; auto. discriminate.
Qed.
Lemma phi_perm a N s X st i w al r : (0 < N)%nat -> pop K N X -> holds K s X -> pop K N st -> (i < N)%nat -> matched K N (fst w) -> phi_func K a s st i w al = Ok r ->
  matched K N (fst (snd r)) /\ Permutation (reference_set (fst (snd r))) (reference_set (fst w)) /\ (a = TheGD -> fst (snd r) = fst w).
Proof using W OO.
  intros HN HP H HS Hi Hm E. unfold phi_func in E.
  assert (Lt : length (trial_point s st i al) = dim K).
  { unfold trial_point. rewrite (holds_X _ _ _ H). rewrite zip_with_length. apply HP, nth_In. destruct HP; lia. rewrite (proj2 HP), (proj2 HS); auto; apply nth_In; [destruct HS|destruct HP]; lia. }
  destruct (upd_one_total K W (set_njac s (snd w)) N X i _ HP (holds_njac K s X _ H) Hi Lt) as (s' & E' & H'). rewrite E' in E. cbn [bind] in E.
  inv_do E d Ed. destruct d as [[g h] rs']. inv_do E Rl ER. inv_do E ri Eri. injection E as <-. cbn [fst snd].
  apply (derivatives_perm a N s' _ _ _ _ _ _ HN (pop_set K N X i _ HP Lt) H' Hm Ed).
Qed.
Lemma search_perm (a : indicator) N (phi : refset * nat -> R -> res (R * (refset * nat))) k :
  (forall w al r, matched K N (fst w) -> phi w al = Ok r -> matched K N (fst (snd r)) /\ Permutation (reference_set (fst (snd r))) (reference_set (fst w)) /\ (a = TheGD -> fst (snd r) = fst w)) ->
  forall phi0 s2 p2 s1 w r, matched K N (fst w) -> search phi k phi0 s2 p2 s1 w = Ok r ->
  matched K N (fst (snd r)) /\ Permutation (reference_set (fst (snd r))) (reference_set (fst w)) /\ (a = TheGD -> fst (snd r) = fst w).
Proof using.
  intros Hphi. induction k as [|k IH]; intros phi0 s2 p2 s1 w r Hw E; cbn [search] in E. injection E as <-. cbn. auto.
  inv_do E pw Ep. destruct (Hphi _ _ _ Hw Ep) as (M1 & P1 & Q1). destruct (armijo _ _ _ _). injection E as <-. cbn [fst snd]. auto.
  destruct (IH _ _ _ _ _ _ M1 E) as (M2 & P2 & Q2). split; auto. split. eapply perm_trans; eauto. intros Ha. rewrite (Q2 Ha). auto.
Qed.
Lemma search_all_perm a N s X st Rm mx is : (0 < N)%nat -> pop K N X -> holds K s X -> pop K N st -> (forall i, In i is -> (i < N)%nat) ->
  forall w r, matched K N (fst w) -> search_all K a s st Rm mx is w = Ok r ->
  matched K N (fst (snd r)) /\ Permutation (reference_set (fst (snd r))) (reference_set (fst w)) /\ (a = TheGD -> fst (snd r) = fst w).
Proof using W OO.
  intros HN HP H HS. induction is as [|i is IH]; intros Hb w r Hw E; cbn [search_all] in E. injection E as <-. cbn. auto.
  inv_do E mi Em. inv_do E Ri ERi. inv_do E r1 E1. inv_do E r2 E2. injection E as <-. cbn [fst snd].
  destruct (search_perm a N _ 8 (fun w al r Hw E => phi_perm a N s X st i w al r HN HP H HS (Hb i (or_introl eq_refl)) Hw E) _ _ _ _ _ _ Hw E1) as (M1 & P1 & Q1).
  destruct (IH (fun j Hj => Hb j (or_intror Hj)) _ _ M1 E2) as (M2 & P2 & Q2). split; auto. split. eapply perm_trans; eauto. intros Ha. rewrite (Q2 Ha). auto.
Qed.
Lemma line_search_perm a N s X st Rm mx rs r : (0 < N)%nat -> pop K N X -> holds K s X -> pop K N st -> matched K N rs -> line_search K a rs s st Rm mx = Ok r ->
  matched K N (fst (snd r)) /\ Permutation (reference_set (fst (snd r))) (reference_set rs) /\ (a = TheGD -> fst (snd r) = rs).
Proof using W OO.
  intros HN HP H HS Hm E. unfold line_search in E. destruct (forallb _ _). injection E as <-. cbn. auto.
  apply (search_all_perm a N s X st Rm mx _ HN HP H HS) in E; auto. intros i Hi. rewrite (holds_X _ _ _ H) in Hi. apply in_seq in Hi. destruct HP. lia.
Qed.

(** * the targets of a step *)
Definition target_list (a : indicator) (rs : refset) (s : pstate) (rs' : refset) : list (list R) :=
  match a with TheGD => nearest_targets (reference_set rs) (s_Y s) | TheIGD => reference_set rs' end.
Definition weight (a : indicator) (N : nat) : R := match a with TheGD => 2 / INR N | TheIGD => 2 end.
Lemma derivatives_value a N s X rs hes g h rs' : (0 < N)%nat -> pop K N X -> holds K s X -> matched K N rs -> derivatives K a rs s hes = Ok (g, h, rs') ->
  let T := target_list a rs s rs' in
  g = mk2 N n (gradf K (weight a N) s T) /\ h = (if hes then Some (mk3 N n n (hessf K (weight a N) s T)) else None) /\ matched K N rs' /\ length T = N /\ rows m T.
Proof using W OO.
  intros HN HP H Hm E. destruct (derivatives_perm _ _ _ _ _ _ _ _ _ HN HP H Hm E) as (M1 & _ & _). destruct (matched_ref K N rs Hm) as [L R]. destruct (matched_ref K N rs' M1) as [L' R'].
  destruct (ready_ref K N rs HN (or_introl Hm)) as [Hne _]. destruct (pop_Y K W N s X HP H) as [LY RY]. destruct a; cbn [target_list weight].
  - rewrite (gd_derivatives_ok K W N s X rs hes HN HP H Hne R) in E. injection E as <- <- <-. split; auto. split; auto. split; auto. unfold nearest_targets. rewrite map_length. split; auto.
    intros t Ht. apply in_map_iff in Ht as (y & <- & _). apply R. apply nth_In. rewrite <- (map_length (dist2 y)). apply argminR_lt. destruct (reference_set rs); simpl; congruence.
  - assert (Em : match_ K rs (s_Y s) = Ok rs') by (unfold derivatives in E; inv_do E r1 E1; inv_do E gh E2; congruence).
    rewrite (igd_derivatives_ok K W N s X rs rs' hes HN HP H Em L' R') in E. injection E as <- <-. auto.
Qed.

(** * affine objectives *)
Hypothesis Hun : unconstrained K.
Lemma un_constrained : is_constrained K = false.
Proof using Hun. unfold is_constrained. destruct Hun as [-> ->]. auto. Qed.
Lemma un_dim : dim K = n.
Proof using W Hun. unfold dim. rewrite (unconstrained_dim K (wp_counts K W) un_constrained). unfold n. lia. Qed.
Lemma newton_step_value a N s X rs st Rm rs' : (0 < N)%nat -> pop K N X -> holds K s X -> matched K N rs -> newton_step K a rs s = Ok (st, Rm, rs') ->
  let T := target_list a rs s rs' in let C := weight a N in
  matched K N rs' /\ Permutation (reference_set rs') (reference_set rs) /\ (a = TheGD -> rs' = rs) /\ length T = N /\ rows m T /\
  Rm = mk2 N n (gradf K C s T) /\
  (k_pre K = false -> forall i, (i < N)%nat -> nth i st [] = newton_dir (k_solve K) (k_lstsq K) (mk2 n n (hessf K C s T i)) (map (gradf K C s T i) (seq 0 n))).
Proof using W OO Hun.
  intros HN HP H Hm E. unfold newton_step in E. inv_do E d Ed. destruct d as [[g h] r1]. pose proof (derivatives_value _ _ _ _ _ _ _ _ _ HN HP H Hm Ed) as (Eg & Eh & M1 & LT & RT).
  destruct (derivatives_perm _ _ _ _ _ _ _ _ _ HN HP H Hm Ed) as (_ & P1 & Q1). cbn zeta in *. rewrite Eh in E. cbn beta iota in E. rewrite un_constrained in E.
  set (C := weight a N) in *. set (T := target_list a rs s r1) in *. fold n in E.
  assert (Hg : matrix N n g) by (rewrite Eg; apply mk2_matrix).
  assert (LP : length (points_of K s g) = N) by (rewrite points_length; rewrite (holds_X _ _ _ H); apply HP).
  assert (LH : length (mk3 N n n (hessf K C s T)) = length (points_of K s g)) by (rewrite LP; unfold mk3; rewrite map_length, seq_length; auto).
  assert (MH : forall B, In B (mk3 N n n (hessf K C s T)) -> matrix n n B).
  { intros B HB. unfold mk3 in HB. apply in_map_iff in HB as (i & <- & _). apply mk2_matrix. }
  destruct (dpn_unconstrained (k_solve K) (k_lstsq K) (k_chol K) (oo_solve K OO) (oo_lstsq K OO) n (dim_d K) (k_pre K) _ _ LH MH (points_grad K N s X g HP H Hg)) as (st1 & Es & [M2 M3] & Hd).
  rewrite Es in E. cbn [bind fst snd] in E. injection E as <- <- <-. cbn zeta. fold C. fold T. split; auto. split; auto. split; auto. split; auto. split; auto. split.
  - rewrite <- Eg. apply (list_eq_nth []). rewrite map_length, LP. symmetry. apply Hg. intros i Hi. rewrite map_length, LP in Hi. unfold points_of. rewrite map_map. cbn [pt_grad].
    rewrite (nth_map_default _ _ _ 0%nat) by (rewrite seq_length, (holds_X _ _ _ H); destruct HP; lia). rewrite seq_nth by (rewrite (holds_X _ _ _ H); destruct HP; lia). reflexivity.
  - intros Hpre i Hi. rewrite Hpre in Hd.
    rewrite (Hd i (mk2 n n (hessf K C s T i)) (mkPt (nth i g []) (skipn (dim_p K) (nth i (s_X s) [])) (nth i (s_cstr s) []) (nth i (s_active s) []) (nth i (s_grad s) []) (nth i (match s_hess s with Some h => h | None => [] end) []))).
    + cbn [pt_grad]. rewrite Eg, mk2_row by auto. reflexivity.
    + unfold mk3. apply (map_nth_error (fun i => mk2 n n (hessf K C s T i)) i (seq 0 N)). rewrite (List.nth_error_nth' _ 0%nat) by (rewrite seq_length; auto). rewrite seq_nth; auto.
    + unfold points_of. cbn zeta. assert (L : length (s_X s) = N) by (rewrite (holds_X _ _ _ H); apply HP). rewrite nth_error_map. rewrite (List.nth_error_nth' _ 0%nat) by (rewrite seq_length; lia). rewrite seq_nth by lia. reflexivity.
Qed.
Lemma weight_pos a N : (0 < N)%nat -> 0 < weight a N.
Proof using. intros HN. destruct a; cbn; [|lra]. apply Rdiv_lt_0_compat. lra. apply lt_0_INR. auto. Qed.
Lemma affine_step A b a N s X rs st Rm rs' : affine K A b -> k_pre K = false -> (0 < N)%nat -> pop K N X -> holds K s X -> matched K N rs -> newton_step K a rs s = Ok (st, Rm, rs') ->
  let T := target_list a rs s rs' in
  forall i, (i < N)%nat -> forall z, length z = n ->
   sqd (cb_point (c_func c) (zip_with (fun u v => u + 1 * v) (nth i X []) (nth i st []))) (nth i T []) <= sqd (cb_point (c_func c) z) (nth i T []).
Proof using W OO Hun.
  intros (AF & AJ & AH) Hpre HN HP H Hm E T i Hi z Hz. destruct (newton_step_value _ _ _ _ _ _ _ _ HN HP H Hm E) as (M1 & _ & _ & LT & RT & _ & Hst). specialize (Hst Hpre i Hi). fold T in Hst, LT, RT.
  set (C := weight a N) in *. assert (HC : 0 < C) by (apply weight_pos; auto).
  assert (Lx : length (nth i X []) = n) by (rewrite <- un_dim; apply HP, nth_In; destruct HP; lia). set (x := nth i X []) in *.
  assert (Ex : pr c (nth i (s_X s) []) = x). { rewrite (holds_X _ _ _ H). fold x. unfold pr. apply firstn_all2. change (c_nvar c) with n. lia. }
  assert (EY : nth i (s_Y s) [] = cb_point (c_func c) x).
  { rewrite (holds_Y K s X H). unfold primal_of, primal. rewrite (holds_X _ _ _ H), map_map. rewrite (nth_map_default _ _ _ []) by (destruct HP; lia). fold x. f_equal. change (k_prob K) with c. apply firstn_all2. change (c_nvar c) with n. lia. }
  set (y := cb_point (c_func c) x) in *. set (t := nth i T []).
  assert (Ly : length y = m) by (apply (wp_func K W); auto). assert (Lt : length t = m) by (apply RT, nth_In; lia).
  set (r := fun q => nth q y 0 - nth q t 0).
  set (Hm_ := mk2 n n (hessf K C s T i)) in *. set (g := map (gradf K C s T i) (seq 0 n)) in *.
  assert (Lg : length g = n) by (unfold g; rewrite map_length, seq_length; auto).
  assert (HM : matrix n n Hm_) by apply mk2_matrix.
  assert (Eg : forall k, (k < n)%nat -> nth k g 0 = C * sumn m (fun q => A q k * r q)).
  { intros k Hk. unfold g. rewrite map_seq_nth by auto. unfold gradf. f_equal. apply sumn_ext. intros q Hq. fold c. rewrite Ex. rewrite AJ by auto. unfold entry. rewrite EY. reflexivity. }
  assert (EH : forall k (s0 : list R), (k < n)%nat -> length s0 = n -> nth k (mv Hm_ s0) 0 = C * sumn m (fun q => A q k * sumn n (fun l => A q l * nth l s0 0))).
  { intros k s0 Hk L0. rewrite mv_nth by (rewrite (proj1 HM); auto). unfold Hm_. rewrite mk2_row by auto. rewrite (dotR_sumn n) by (auto; rewrite map_length, seq_length; auto).
    rewrite <- sumn_scal. etransitivity; [apply sumn_ext; intros l Hl; rewrite map_seq_nth by auto; unfold hessf; cbn zeta; fold c; rewrite Ex; reflexivity|].
    transitivity (sumn n (fun l => sumn m (fun q => C * (A q k * (A q l * nth l s0 0))))).
    - apply sumn_ext. intros l Hl. assert (E0 : sumn (k_nobj K) (fun q => k_hess K x q k l * (entry (s_Y s) i q - entry T i q)) = 0). { apply sumn_zero. intros q Hq. rewrite AH by auto. ring. }
      rewrite E0, Rplus_0_r. rewrite (Rmult_comm (C * _) (nth l s0 0)), <- Rmult_assoc, <- sumn_scal. apply sumn_ext. intros q Hq. rewrite !AJ by auto. ring.
    - rewrite sumn_swap. apply sumn_ext. intros q Hq. rewrite !sumn_scal. reflexivity. }
  destruct (normal_equations_solvable m n A r) as (s0 & L0 & S0).
  assert (Sol : mv Hm_ (nth i st []) = map Ropp g).
  { rewrite Hst. apply (newton_dir_solves _ _ (oo_solve K OO) (oo_lstsq K OO) n); auto. exists s0. split; auto.
    apply (list_eq_nth 0). rewrite mv_length, map_length. rewrite (proj1 HM). auto. intros k Hk. rewrite mv_length, (proj1 HM) in Hk. rewrite EH by auto. rewrite (nth_map_default _ _ _ 0) by lia. rewrite Eg by auto.
    specialize (S0 k Hk).     assert (E1 : sumn m (fun q => A q k * (sumn n (fun l => A q l * nth l s0 0) + r q)) = sumn m (fun q => A q k * sumn n (fun l => A q l * nth l s0 0)) + sumn m (fun q => A q k * r q)) by (rewrite <- sumn_plus; apply sumn_ext; intros; ring). rewrite Ropp_mult_distr_r. f_equal. lra. }
  set (d := nth i st []) in *. assert (Ld : length d = n) by (rewrite Hst; apply (newton_dir_length _ _ (oo_solve K OO) (oo_lstsq K OO)); auto).
  assert (NE : forall k, (k < n)%nat -> sumn m (fun q => A q k * (sumn n (fun l => A q l * nth l d 0) + r q)) = 0).
  { intros k Hk. pose proof (f_equal (fun l => nth k l 0) Sol) as Ek. cbn beta in Ek. rewrite EH in Ek by auto. rewrite (nth_map_default _ _ _ 0) in Ek by lia. rewrite Eg in Ek by auto.
    assert (E1 : sumn m (fun q => A q k * (sumn n (fun l => A q l * nth l d 0) + r q)) = sumn m (fun q => A q k * sumn n (fun l => A q l * nth l d 0)) + sumn m (fun q => A q k * r q)) by (rewrite <- sumn_plus; apply sumn_ext; intros; ring). nra. }
  set (x' := zip_with (fun u v => u + 1 * v) x d). assert (Lx' : length x' = n) by (unfold x'; rewrite zip_with_length; lia).
  assert (EF : forall w, length w = n -> sqd (cb_point (c_func c) w) t = sumn m (fun q => (sumn n (fun l => A q l * (nth l w 0 - nth l x 0)) + r q) * (sumn n (fun l => A q l * (nth l w 0 - nth l x 0)) + r q))).
  { intros w Lw. rewrite (sqd_sumn m) by (auto; apply (wp_func K W); auto). apply sumn_ext. intros q Hq.
    assert (E1 : nth q (cb_point (c_func c) w) 0 - nth q t 0 = sumn n (fun l => A q l * (nth l w 0 - nth l x 0)) + r q).
    { unfold r, y. unfold c. rewrite !AF by auto. fold c. change (c_nvar c) with n. assert (E2 : sumn n (fun k => A q k * nth k w 0) = sumn n (fun l => A q l * (nth l w 0 - nth l x 0)) + sumn n (fun k => A q k * nth k x 0)) by (rewrite <- sumn_plus; apply sumn_ext; intros; ring). lra. }
    rewrite E1. reflexivity. }
  rewrite !EF by auto. pose proof (normal_equations_min m n A r (fun l => nth l d 0) (fun l => nth l z 0 - nth l x 0) NE) as MIN.
  assert (ED : forall q, sumn n (fun l => A q l * (nth l x' 0 - nth l x 0)) = sumn n (fun l => A q l * nth l d 0)).
  { intros q. apply sumn_ext. intros l Hl. unfold x'. rewrite (zip_with_nth _ _ _ _ 0 0) by lia. ring. }
  eapply Rle_trans; [|exact MIN]. right. apply sumn_ext. intros q Hq. rewrite ED. reflexivity.
Qed.

(** * the whole iteration *)
Lemma primal_all N o : (exists X, pop K N X /\ holds K (d_state o) X) -> s_X (d_state o) = primal_of K (d_state o) /\ length (s_X (d_state o)) = N /\ (forall x, In x (s_X (d_state o)) -> length x = n).
Proof using W Hun.
  intros (X & HP & H). rewrite (holds_X _ _ _ H). assert (HX : forall x, In x X -> length x = n) by (intros x Hx; rewrite <- un_dim; apply HP; auto). split; [|split; [apply HP|auto]].
  unfold primal_of, primal. rewrite (holds_X _ _ _ H). symmetry. rewrite <- (map_id X) at 2. apply map_ext_in. intros x Hx. apply firstn_all2. change (c_nvar (k_prob K)) with n. rewrite (HX x Hx). lia.
Qed.
(** the parts of an iteration, with what is known of them *)
Lemma iteration_parts N o o' : (0 < N)%nat -> good K N o -> newton_iteration K o = Ok o' -> exists q : pieces,
  newton_step K (q_act q) (q_rs2 q) (d_state o) = Ok (q_st0 q, q_R q, q_rs3 q) /\ handle_box K (d_state o) (q_st0 q) = Ok (q_st q, q_mx q) /\
  line_search K (q_act q) (q_rs3 q) (d_state o) (q_st q) (q_R q) (q_mx q) = Ok (q_size q, (q_rs4 q, q_nj q)) /\
  q_act q = active_indicator (k_type K) (d_gd o') (d_igd o') /\ d_ref o' = q_rs4 q /\ d_step o' = q_st q /\ d_size o' = q_size q /\ d_R o' = q_R q /\
  holds K (d_state o') (moved (s_X (d_state o)) (q_size q) (q_st q)) /\
  matched K N (q_rs2 q) /\ matched K N (q_rs3 q) /\ pop K N (q_st0 q) /\ pop K N (q_st q) /\ length (q_mx q) = N /\ length (q_size q) = N.
Proof using W OO.
  intros HN Hg H. pose proof Hg as ((X & HP & HX) & Hr & Hm). assert (HPs : pop K N (s_X (d_state o))) by (rewrite (holds_X _ _ _ HX); auto).
  apply iteration_pieces in H as (q & E1 & E2 & E3 & E4 & E5 & E6 & E7 & ->). exists q. cbn [d_ref d_step d_size d_state d_R d_gd d_igd].
  destruct (values_spec K W OO N o _ _ _ HN Hg E1) as (_ & _ & M1).
  assert (M2 : matched K N (q_rs2 q)).
  { destruct (pop_Y K W N _ X HP HX) as [LY _]. rewrite (proj1 HPs) in E2.
    destruct (shift_matched K (d_iter o) N (s_Y (d_state o)) (map (firstn (dim_p K)) (d_step o)) _ M1 LY) as (rs2 & lg & E & M2). { intros Hi. rewrite map_length. apply Hm; auto. } rewrite E in E2. injection E2 as <- _. auto. }
  destruct (newton_step_total K W OO (q_act q) N _ X _ HN HP HX (or_introl M2)) as (st & Rm & rs3 & E & P3 & L3 & _ & M3). rewrite E in E4. injection E4 as Q1 Q2 Q3. rewrite Q1 in P3. rewrite Q3 in M3.
  destruct (handle_box_pop K _ _ _ N HPs P3 E5) as (P4 & L4 & _). cbn [fst snd] in P4, L4. pose proof (line_search_length K _ _ _ _ _ _ _ N HPs P4 E6) as L5. cbn [fst] in L5.
  split. rewrite E. congruence. repeat (split; [solve [auto]|]). split; [|split; [auto|split; [auto|auto]]].
  apply (upd_holds K W _ N _ _ HN (moved_pop K _ _ _ N HPs P4 L5) E7).
Qed.
Lemma iteration_affine A b N o o' : affine K A b -> k_pre K = false -> (0 < N)%nat -> good K N o -> (forall x, In x (primal_of K (d_state o)) -> inside (k_xl K) (k_xu K) x) ->
  newton_iteration K o = Ok o' -> (forall i, (i < N)%nat -> nth i (d_size o') 0 = 1) ->
  exists T, length T = N /\ (forall i, (i < N)%nat -> In (nth i T []) (reference_set (d_ref o'))) /\
  (k_type K = IGD -> Permutation T (reference_set (d_ref o'))) /\
  (k_type K = GD -> forall i, (i < N)%nat -> is_nearest (reference_set (d_ref o')) (nth i (s_Y (d_state o)) []) (nth i T [])) /\
  forall i, (i < N)%nat -> forall z, length z = n -> sqd (nth i (s_Y (d_state o')) []) (nth i T []) <= sqd (cb_point (c_func c) z) (nth i T []).
Proof using W OO Hun.
  intros HA Hpre HN Hg Hin H Hone. destruct (iteration_parts N o o' HN Hg H) as (q & E4 & E5 & E6 & Ea & Er & Es & Esz & _ & Hh & M2 & M3 & P0 & P1 & Lm & Ls).
  pose proof Hg as ((X & HP & HX) & _ & _). destruct (primal_all N o (ex_intro _ X (conj HP HX))) as (EP & LX & HXl).
  destruct (newton_step_value _ _ _ _ _ _ _ _ HN HP HX M2 E4) as (_ & PM & QG & LT & RT & _ & _). set (T := target_list (q_act q) (q_rs2 q) (d_state o) (q_rs3 q)) in *.
  destruct (line_search_perm _ _ _ _ _ _ _ _ _ HN HP HX P1 M3 E6) as (_ & PM4 & QG4). cbn [fst snd] in PM4, QG4. rewrite Er.
  destruct (ready_ref K N _ HN (or_introl M2)) as [Hne _]. destruct (pop_Y K W N _ X HP HX) as [LY _].
  assert (HN_ : q_act q = TheGD -> forall i, (i < N)%nat -> is_nearest (reference_set (q_rs4 q)) (nth i (s_Y (d_state o)) []) (nth i T [])).
  { intros Hact i Hi. rewrite (QG4 Hact), (QG Hact). unfold T. rewrite Hact. cbn [target_list]. unfold nearest_targets. rewrite (nth_map_default _ _ _ []) by lia. apply near_is_nearest; auto. }
  exists T. split; auto. split; [|split; [|split]].
  - intros i Hi. destruct (q_act q) eqn:Eact. apply (HN_ eq_refl i Hi). apply (Permutation_in _ (Permutation_sym PM4)). unfold T. cbn [target_list]. apply nth_In. rewrite (proj1 (matched_ref K N _ M3)). auto.
  - intros Ht. rewrite Ht in Ea. cbn in Ea. unfold T. rewrite Ea. cbn [target_list]. apply Permutation_sym. auto.
  - intros Ht. rewrite Ht in Ea. cbn in Ea. auto.
  - intros i Hi z Hz. pose proof (affine_step A b _ _ _ _ _ _ _ _ HA Hpre HN HP HX M2 E4 i Hi z Hz) as MIN. fold T in MIN.
    assert (Est : nth i (q_st q) [] = nth i (q_st0 q) []).
    { rewrite <- (holds_X _ _ _ HX) in HP. destruct (handle_box_pop K _ _ _ N HP P0 E5) as (_ & _ & HB). specialize (HB i Hi). cbn [fst snd] in HB. unfold box_row in HB. inv_do HB mi Emi. injection HB as HB _.
      rewrite <- HB. set (x := nth i (primal_of K (d_state o)) []) in *. assert (Lx : length x = n). { unfold x. rewrite <- EP. apply HXl, nth_In. lia. }
      assert (L0 : length (nth i (q_st0 q) []) = n) by (rewrite <- un_dim; apply P0, nth_In; destruct P0; lia).
      rewrite box_inside. apply firstn_skipn. rewrite (wp_xl K W). auto. rewrite (wp_xu K W). auto. rewrite firstn_length. fold n. lia. apply Hin. unfold x. apply nth_In. rewrite <- EP. lia. }
    assert (EY : nth i (s_Y (d_state o')) [] = cb_point (c_func c) (zip_with (fun u v => u + 1 * v) (nth i X []) (nth i (q_st0 q) []))).
    { rewrite (holds_Y K _ _ Hh). unfold primal_of, primal. rewrite (holds_X _ _ _ Hh), map_map. assert (LM : length (moved (s_X (d_state o)) (q_size q) (q_st q)) = N) by (apply moved_length; auto; destruct P1; auto).
      rewrite (nth_map_default _ _ _ []) by lia. rewrite (moved_row _ _ _ N) by (auto; destruct P1; auto). rewrite <- Esz, Hone by auto. rewrite Est, (holds_X _ _ _ HX). f_equal. apply firstn_all2.
      change (c_nvar (k_prob K)) with n. rewrite zip_with_length. rewrite <- (holds_X _ _ _ HX). rewrite HXl by (apply nth_In; lia). lia. rewrite <- (holds_X _ _ _ HX). rewrite HXl by (apply nth_In; lia). rewrite <- un_dim. symmetry. apply P0, nth_In. destruct P0; lia. }
    rewrite EY. exact MIN.
Qed.

(** * descent for GD *)
Definition gdres (N : nat) (S : list (list R)) (x : list R) : list R :=
  map (fun k => 2 / INR N * sumn m (fun a => cb_point (c_jac c) x a k * (nth a (cb_point (c_func c) x) 0 - nth a (nth (argminR (map (dist2 (cb_point (c_func c) x)) S)) S []) 0))) (seq 0 n).
Lemma gdres_spec N S x : S <> [] -> gd_gradient K N S x (gdres N S x).
Proof using.
  intros HS. exists (nth (argminR (map (dist2 (cb_point (c_func c) x)) S)) S []). split. apply near_is_nearest; auto. split. unfold gdres. rewrite map_length, seq_length. auto.
  intros k Hk. unfold gdres. rewrite map_seq_nth by auto. reflexivity.
Qed.
Lemma gd_row N s X rs i : (0 < N)%nat -> pop K N X -> holds K s X -> (i < N)%nat ->
  map (gradf K (2 / INR N) s (nearest_targets (reference_set rs) (s_Y s)) i) (seq 0 n) = gdres N (reference_set rs) (nth i X []).
Proof using W Hun.
  intros HN HP H Hi. unfold gdres. apply map_ext_in. intros k Hk. apply in_seq in Hk. unfold gradf. f_equal. apply sumn_ext. intros q Hq. fold c.
  assert (Lx : length (nth i X []) = n) by (rewrite <- un_dim; apply HP, nth_In; destruct HP; lia).
  assert (Ex : pr c (nth i (s_X s) []) = nth i X []). { rewrite (holds_X _ _ _ H). unfold pr. apply firstn_all2. change (c_nvar c) with n. lia. }
  assert (EY : nth i (s_Y s) [] = cb_point (c_func c) (nth i X [])).
  { rewrite (holds_Y K s X H). unfold primal_of, primal. rewrite (holds_X _ _ _ H), map_map. rewrite (nth_map_default _ _ _ []) by (destruct HP; lia). f_equal. change (k_prob K) with c. apply firstn_all2. change (c_nvar c) with n. lia. }
  rewrite Ex. unfold entry, nearest_targets. rewrite (nth_map_default _ _ _ []) by (rewrite (proj1 (pop_Y K W N s X HP H)); auto). rewrite EY. reflexivity.
Qed.
Lemma phi_gd N s X st i w al r : (0 < N)%nat -> pop K N X -> holds K s X -> pop K N st -> (i < N)%nat -> matched K N (fst w) -> phi_func K TheGD s st i w al = Ok r ->
  fst r = norm (gdres N (reference_set (fst w)) (trial_point s st i al)).
Proof using W OO Hun.
  intros HN HP H HS Hi Hm E. unfold phi_func in E.
  assert (Lt : length (trial_point s st i al) = dim K).
  { unfold trial_point. rewrite (holds_X _ _ _ H). rewrite zip_with_length. apply HP, nth_In. destruct HP; lia. rewrite (proj2 HP), (proj2 HS); auto; apply nth_In; [destruct HS|destruct HP]; lia. }
  destruct (upd_one_total K W (set_njac s (snd w)) N X i _ HP (holds_njac K s X _ H) Hi Lt) as (s' & E' & H'). rewrite E' in E. cbn [bind] in E.
  inv_do E d Ed. destruct d as [[g h] rs']. inv_do E Rl ER. inv_do E ri Eri. injection E as <-. cbn [fst].
  pose proof (derivatives_value _ _ _ _ _ _ _ _ _ HN (pop_set K N X i _ HP Lt) H' Hm Ed) as (Eg & _). cbn [target_list weight] in Eg. unfold R_list in ER. rewrite un_constrained in ER. injection ER as <-.
  apply nth_res_ok in Eri. rewrite Eg in Eri. unfold mk2 in Eri. rewrite nth_error_map in Eri. rewrite (List.nth_error_nth' _ 0%nat) in Eri by (rewrite seq_length; auto). rewrite seq_nth in Eri by auto. cbn [option_map plus] in Eri. injection Eri as <-.
  f_equal. rewrite (gd_row N s' _ (fst w) i HN (pop_set K N X i _ HP Lt) H' Hi). f_equal. apply nth_error_nth. rewrite StateProof.set_row_nth, Nat.eqb_refl. rewrite (proj2 (Nat.ltb_lt _ _)) by (destruct HP; lia). auto.
Qed.
Lemma search_all_descent N s X st Rm mx rs : (0 < N)%nat -> pop K N X -> holds K s X -> pop K N st -> matched K N rs -> (forall i, (i < N)%nat -> 0 <= nth i mx 0 <= 1) ->
  forall is w r, (forall i, In i is -> (i < N)%nat) -> fst w = rs -> search_all K TheGD s st Rm mx is w = Ok r ->
  forall j, (j < length is)%nat -> let i := nth j is 0%nat in let al := nth j (fst r) 0 in
  exists Ri, nth_error Rm i = Some Ri /\
  (armijo (/ 10 ^ 4) (Fin (norm Ri)) al (Fin (norm (gdres N (reference_set rs) (trial_point s st i al)))) = true \/ al <= (6 / 10) ^ 8).
Proof using W OO Hun.
  intros HN HP H HS Hm Hmx. induction is as [|i is IH]; intros w r Hb Hw E j Hj; simpl in Hj; [lia|]. cbn [search_all] in E.
  inv_do E mi Em. inv_do E Ri ERi. inv_do E r1 E1. inv_do E r2 E2. injection E as <-. cbn [fst].
  pose proof (Hb i (or_introl eq_refl)) as Hi. apply nth_res_ok in Em. apply nth_res_ok in ERi.
  assert (Hmi : 0 <= mi <= 1) by (specialize (Hmx i Hi); rewrite (nth_error_nth _ _ 0 Em) in Hmx; auto).
  destruct (search_descent (phi_func K TheGD s st i) 8 (fun w => fst w = rs) (fun al => norm (gdres N (reference_set rs) (trial_point s st i al)))) with (phi0 := norm Ri) (s2 := 0) (p2 := norm Ri) (s1 := mi) (w := w) (r := r1) as [Q1 Q2]; auto; try lra.
  { intros w0 al r0 Hw0 Er0. assert (Hm0 : matched K N (fst w0)) by (rewrite Hw0; auto). destruct (phi_perm TheGD N s X st i w0 al r0 HN HP H HS Hi Hm0 Er0) as (_ & _ & Q). rewrite (Q eq_refl). split; auto. rewrite (phi_gd N s X st i w0 al r0 HN HP H HS Hi Hm0 Er0). rewrite Hw0. reflexivity. }
  destruct j as [|j].
  - cbn [nth]. exists Ri. split; auto. destruct Q2 as [Q2|Q2]; auto. right. assert (0 <= (6 / 10) ^ 8) by (apply pow_le; lra). nra.
  - cbn [nth]. apply (IH (snd r1) r2); auto. intros i' Hi'. apply Hb. simpl; auto. lia.
Qed.
Lemma gd_descent N o o' : k_type K = GD -> (0 < N)%nat -> good K N o -> newton_iteration K o = Ok o' -> notable (d_step o') ->
  forall i, (i < N)%nat -> exists g g',
    gd_gradient K N (reference_set (d_ref o')) (nth i (primal_of K (d_state o)) []) g /\ nth i (d_R o') [] = g /\
    gd_gradient K N (reference_set (d_ref o')) (nth i (primal_of K (d_state o')) []) g' /\
    (euclid g' <= (1 - nth i (d_size o') 0 / 10 ^ 4) * euclid g \/ nth i (d_size o') 0 <= (6 / 10) ^ 8 \/ Rabs (euclid g - eps_mach) <= / 10 ^ 8 + / 10 ^ 5 * eps_mach).
Proof using W OO Hun.
  intros Ht HN Hg H Hn i Hi. destruct (iteration_parts N o o' HN Hg H) as (q & E4 & E5 & E6 & Ea & Er & Es & Esz & ER & Hh & M2 & M3 & P0 & P1 & Lm & Ls).
  pose proof Hg as ((X & HP & HX) & _ & _). destruct (primal_all N o (ex_intro _ X (conj HP HX))) as (EP & LX & HXl). rewrite Ht in Ea. cbn in Ea. rewrite Ea in *.
  destruct (newton_step_value _ _ _ _ _ _ _ _ HN HP HX M2 E4) as (_ & _ & QG & LT & RT & ERm & _). cbn [target_list weight] in ERm. specialize (QG eq_refl).
  destruct (line_search_perm _ _ _ _ _ _ _ _ _ HN HP HX P1 M3 E6) as (_ & _ & QG4). cbn [fst snd] in QG4. specialize (QG4 eq_refl).
  destruct (ready_ref K N _ HN (or_introl M2)) as [Hne _]. rewrite Er, ER, Esz, QG4. rewrite QG4 in *.
  assert (Hmx : forall i, (i < N)%nat -> 0 <= nth i (q_mx q) 0 <= 1).
  { intros j Hj. rewrite <- (holds_X _ _ _ HX) in HP. destruct (handle_box_pop K _ _ _ N HP P0 E5) as (_ & L & HB). specialize (HB j Hj). cbn [fst snd] in *. unfold box_row in HB. inv_do HB mi Emi. injection HB as _ HB. rewrite (nth_indep _ 0 1) by lia. rewrite <- HB. apply (box_max _ _ _ _ _ Emi). }
  rewrite Es in Hn. unfold line_search in E6. rewrite (notable_false _ Hn) in E6.
  assert (Hx : nth i (primal_of K (d_state o)) [] = nth i X []) by (rewrite <- EP, (holds_X _ _ _ HX); auto).
  assert (HR : nth i (q_R q) [] = gdres N (reference_set (q_rs2 q)) (nth i X [])). { rewrite ERm, mk2_row by auto. apply gd_row; auto. }
  assert (Hsq : forall j, In j (seq 0 (length (s_X (d_state o)))) -> (j < N)%nat) by (intros j Hj; apply in_seq in Hj; lia). assert (Hsi : (i < length (seq 0 (length (s_X (d_state o)))))%nat) by (rewrite seq_length; lia).
  destruct (search_all_descent N _ _ _ _ _ _ HN HP HX P1 M3 Hmx _ (q_rs3 q, n_jac (d_state o)) _ Hsq eq_refl E6 i Hsi) as (Ri & ERi & Hd).
  rewrite seq_nth in ERi, Hd by lia. cbn [plus fst] in ERi, Hd. rewrite (List.nth_error_nth' _ []) in ERi by (rewrite ERm; unfold mk2; rewrite map_length, seq_length; auto). injection ERi as <-.
  assert (Etr : nth i (primal_of K (d_state o')) [] = trial_point (d_state o) (q_st q) i (nth i (q_size q) 0)).
  { assert (LM : length (moved (s_X (d_state o)) (q_size q) (q_st q)) = N) by (apply moved_length; auto; destruct P1; auto). unfold primal_of, primal. rewrite (holds_X _ _ _ Hh). rewrite (nth_map_default _ _ _ []) by lia.
    rewrite (moved_row _ _ _ N) by (auto; destruct P1; auto). unfold trial_point. apply firstn_all2. change (c_nvar (k_prob K)) with n. rewrite zip_with_length. rewrite HXl by (apply nth_In; lia). lia.
    rewrite HXl by (apply nth_In; lia). rewrite <- un_dim. symmetry. apply P1, nth_In. destruct P1; lia. }
  rewrite Etr, Hx. rewrite QG in *. exists (nth i (q_R q) []), (gdres N (reference_set (q_rs2 q)) (trial_point (d_state o) (q_st q) i (nth i (q_size q) 0))).
  split. rewrite HR. apply gdres_spec; auto. split; auto. split. apply gdres_spec; auto.
  destruct Hd as [Hd|Hd]; auto. rewrite !norm_euclid in Hd. unfold armijo in Hd. apply orb_true_iff in Hd as [Hd|Hd].
  - left. cbn [fmul fle] in Hd. apply rleb_true in Hd. replace (nth i (q_size q) 0 / 10 ^ 4) with (/ 10 ^ 4 * nth i (q_size q) 0) by (unfold Rdiv; ring). exact Hd.
  - right. right. cbn in Hd. apply rleb_true in Hd. exact Hd.
Qed.
(** which indicator is minimised *)
Lemma iteration_residual N o o' : (0 < N)%nat -> good K N o -> newton_iteration K o = Ok o' ->
  let a := active_indicator (k_type K) (d_gd o') (d_igd o') in let S := reference_set (d_ref o') in
  length (d_R o') = N /\
  (a = TheGD -> forall i, (i < N)%nat -> gd_gradient K N S (nth i (primal_of K (d_state o)) []) (nth i (d_R o') [])) /\
  (a = TheIGD -> exists T, Permutation T S /\ (forall P, Permutation P T -> sum_dist (s_Y (d_state o)) T <= sum_dist (s_Y (d_state o)) P) /\
     forall i, (i < N)%nat -> gradient_to K 2 (nth i T []) (nth i (primal_of K (d_state o)) []) (nth i (d_R o') [])).
Proof using W OO Hun.
  intros HN Hg H. destruct (iteration_parts N o o' HN Hg H) as (q & E4 & E5 & E6 & Ea & Er & Es & Esz & ER & Hh & M2 & M3 & P0 & P1 & Lm & Ls).
  pose proof Hg as ((X & HP & HX) & _ & _). destruct (primal_all N o (ex_intro _ X (conj HP HX))) as (EP & LX & HXl). cbn zeta. rewrite <- Ea, Er, ER.
  destruct (newton_step_value _ _ _ _ _ _ _ _ HN HP HX M2 E4) as (_ & PM & QG & LT & RT & ERm & _). destruct (line_search_perm _ _ _ _ _ _ _ _ _ HN HP HX P1 M3 E6) as (_ & PM4 & QG4). cbn [fst snd] in PM4, QG4.
  destruct (ready_ref K N _ HN (or_introl M2)) as [Hne _]. destruct (pop_Y K W N _ X HP HX) as [LY _].
  assert (Hx : forall i, nth i (primal_of K (d_state o)) [] = nth i X []) by (intros i; rewrite <- EP, (holds_X _ _ _ HX); auto).
  split. rewrite ERm. unfold mk2. rewrite map_length, seq_length. auto. split.
  - intros Hact i Hi. rewrite Hact in *. cbn [target_list weight] in ERm. rewrite ERm, mk2_row by auto. rewrite (gd_row N _ X) by auto. rewrite Hx, (QG4 eq_refl), (QG eq_refl). apply gdres_spec; auto.
  - intros Hact. rewrite Hact in *. cbn [target_list weight] in ERm. exists (reference_set (q_rs3 q)). split. apply Permutation_sym; auto. split.
    + assert (Em : match_ K (q_rs2 q) (s_Y (d_state o)) = Ok (q_rs3 q)). { unfold newton_step in E4. inv_do E4 d Ed. destruct d as [[g h] r1]. destruct h as [h|]; [|discriminate]. inv_do E4 sr Esr. injection E4 as _ _ <-. unfold derivatives in Ed. inv_do Ed r2 E2. inv_do Ed gh Egh. congruence. }
      destruct (match_best K OO N _ _ _ HN (or_introl M2) LY Em) as ((_ & _ & B) & _). exact B.
    + intros i Hi. rewrite ERm, mk2_row by auto. rewrite Hx. split. rewrite map_length, seq_length. auto. intros k Hk. rewrite map_seq_nth by auto. unfold gradf. f_equal. apply sumn_ext. intros a Ha. fold c.
      assert (Lx : length (nth i X []) = n) by (rewrite <- un_dim; apply HP, nth_In; destruct HP; lia).
      assert (Ex : pr c (nth i (s_X (d_state o)) []) = nth i X []). { rewrite (holds_X _ _ _ HX). unfold pr. apply firstn_all2. change (c_nvar c) with n. lia. }
      rewrite Ex. unfold entry. f_equal. f_equal. f_equal. rewrite (holds_Y K _ X HX). unfold primal_of, primal. rewrite (holds_X _ _ _ HX), map_map. rewrite (nth_map_default _ _ _ []) by (destruct HP; lia). f_equal. change (k_prob K) with c. apply firstn_all2. change (c_nvar c) with n. lia.
Qed.
End Conv.
