(** No iteration of DpN raises an exception, for one component of the reference set. *)
From Coq Require Import List Arith Bool Reals ZArith Lia Lra Permutation.
From Verif Require Import Num Exn ListAux MiscModel StateModel StateSpec StateProof NewtonModel NewtonProof NewtonBox NewtonPop RefModel RefSpec RefProof RefTop RefShift HVTop HVXModel HVXProof IndModel IndSpec IndProof IndTop StepModel StepSpec ShiftModel ShiftMain StepTop StepLast IterModel IterSpec IterProof IterMain.
Import ListNotations.
Open Scope R_scope.

Lemma nth_ext_error {A} (l : list A) : forall l', (forall i, nth_error l i = nth_error l' i) -> l = l'.
Proof.
  induction l as [|a l IH]; intros [|b l'] H; auto; try (specialize (H 0%nat); discriminate). f_equal. specialize (H 0%nat); simpl in H; congruence. apply IH. intros i. apply (H (S i)).
Qed.
Lemma eq_of_errors {A} (l l' : list A) N (f : A -> A) : length l = N -> map (nth_error l) (seq 0 N) = map (fun x => Some (f x)) l' -> l = map f l'.
Proof.
  intros HL H. assert (L' : length l' = N) by (apply (f_equal (@length _)) in H; rewrite !map_length, seq_length in H; auto).
  apply nth_ext_error; intros i. destruct (Nat.lt_ge_cases i N) as [Hi|Hi].
  - apply (f_equal (fun l => nth_error l i)) in H. rewrite (map_nth_error (nth_error l) i (seq 0 N) (d := i)) in H.
    2:{ rewrite (List.nth_error_nth' _ 0%nat) by (rewrite seq_length; auto). rewrite seq_nth by auto. auto. }
    destruct (nth_error l' i) as [a|] eqn:E. 2:{ apply nth_error_None in E. lia. }
    rewrite (map_nth_error _ _ _ E) in H. rewrite (map_nth_error f _ _ E). congruence.
  - rewrite (proj2 (nth_error_None l i)), (proj2 (nth_error_None (map f l') i)); auto. rewrite map_length. lia. lia.
Qed.
Definition ids (N : nat) : list (option (nat * nat)) := map (fun i => Some (0%nat, i)) (seq 0 N).
Lemma ids_nth N k : (k < N)%nat -> nth_error (ids N) k = Some (Some (0%nat, k)).
Proof.
  intros H. unfold ids. apply (map_nth_error (fun i => Some (0%nat, i)) k (seq 0 N)). rewrite (List.nth_error_nth' _ 0%nat) by (rewrite seq_length; auto). rewrite seq_nth; auto.
Qed.
Lemma shift_one_ids C e N M k : length M = N -> (k < N)%nat ->
  shift_one C [e] (ids N) (M, [Some M]) k = Ok (set_row k (add_vec (nth k M []) (scale C e)) M, [Some (set_row k (add_vec (nth k M []) (scale C e)) M)]).
Proof.
  intros HL Hk. unfold shift_one, nth_res. rewrite ids_nth by auto. cbn [bind nth_error]. rewrite (List.nth_error_nth' M []) by lia. cbn [bind].
  unfold put_row. replace (k <? length M)%nat with true by (symmetry; apply Nat.ltb_lt; lia). reflexivity.
Qed.
Lemma set_row_rows k x M q : rows q M -> length x = q -> rows q (set_row k x M).
Proof.
  intros HM Hx r Hr. apply (In_nth _ _ []) in Hr as (i & Hi & <-). rewrite set_row_length in Hi. revert k i Hi. induction M as [|y M IH]; intros k i Hi; simpl in Hi; [lia|].
  destruct k as [|k]; destruct i as [|i]; cbn [set_row nth]; auto. apply HM. right. apply nth_In. lia. apply HM. simpl; auto. apply IH; [|lia]. intros z Hz. apply HM. simpl; auto.
Qed.
Lemma nodup_extend l : forall s, NoDup l -> incl l s -> NoDup s -> exists r, Permutation (l ++ r) (s : list nat).
Proof.
  induction l as [|a l IH]; intros s Hn Hi Hs. exists s. auto. inversion Hn; subst.
  assert (Ha : In a s) by (apply Hi; simpl; auto). apply in_split in Ha as (s1 & s2 & ->). destruct (IH (s1 ++ s2)) as [r Hr]; auto.
  - intros x Hx. specialize (Hi x (or_intror Hx)). apply in_app_or in Hi as [H|[->|H]]; apply in_or_app; auto. contradiction.
  - eapply NoDup_remove_1; eauto.
  - exists r. simpl. eapply perm_trans; [|apply Permutation_middle]. constructor. auto.
Qed.
Lemma rows_taken (comp : list (list R)) ix X : take_rows comp ix = Ok X -> X = map (fun i => nth i comp []) ix.
Proof.
  intros H. apply take_rows_ok in H. apply (f_equal (map (fun o => match o with Some r => r | None => [] end))) in H. rewrite !map_map, map_id in H. rewrite <- H. apply map_ext. intros i.
  destruct (nth_error comp i) eqn:E. symmetry. apply nth_error_nth. auto. apply nth_error_None in E. rewrite nth_overflow; auto.
Qed.
Lemma sub_rows_perm (comp : list (list R)) ix X : NoDup ix -> (forall i, In i ix -> (i < length comp)%nat) -> take_rows comp ix = Ok X -> exists rest, Permutation (X ++ rest) comp.
Proof.
  intros Hn Hb H. apply rows_taken in H as ->. destruct (nodup_extend ix (seq 0 (length comp)) Hn) as [r Hr]. intros i Hi. apply in_seq. specialize (Hb i Hi). lia. apply seq_NoDup.
  exists (map (fun i => nth i comp []) r). rewrite <- map_app. apply (Permutation_map (fun i => nth i comp [])) in Hr. eapply perm_trans; [exact Hr|]. rewrite HVTop.map_nth_seq. auto.
Qed.
Section Total.
Variable K : dpn_cfg.
Let c := k_prob K.
Hypothesis W : well_posed K.
Hypothesis OO : oracles_ok K.
Let Hrw : rowwise_all c := wp_rows K W.
Lemma wp_counts : counts_ok K.
Proof using W. split; apply W. Qed.

(** * states *)
Definition holds (s : pstate) (X : list (list R)) : Prop :=
  data s = (X, map (fun x => cb_point (c_func c) (pr c x)) X, Some (map (fun x => cb_point (c_jac c) (pr c x)) X),
            map (fun x => cstr_row (hg c (pr c x))) X, map (fun x => active_row c (hg c (pr c x))) X,
            map (fun x => jac_row (zero_row K) c (pr c x)) X, Some (map (fun x => hess_row (zero_mat K) c (pr c x)) X)).
Lemma pr_length x : length x = dim K -> length (pr c x) = c_nvar c.
Proof using. intros H. unfold pr. rewrite firstn_length. unfold dim, dim_p in H. fold c in H. lia. Qed.
Lemma opt_ok_returns {A} n (f : option (callback (list A))) x : returns n f (c_nvar c) -> length x = c_nvar c -> opt_ok n f x = true.
Proof using. intros H Hx. unfold opt_ok. destruct f as [f|]; auto. apply Nat.eqb_eq. apply (H f); auto. Qed.
Lemma row_ok x : length x = dim K -> ok_row c true x = true.
Proof using W.
  intros Hx. unfold ok_row. fold (pr c x). pose proof (pr_length x Hx) as Hp. unfold ok_cstr, ok_jac, ok_hess.
  rewrite !opt_ok_returns; auto; try apply W. cbn. rewrite !orb_true_r. auto.
Qed.
Lemma rows_ok N X : pop K N X -> forallb (ok_row c true) X = true.
Proof using W. intros [_ H]. apply forallb_forall. intros x Hx. apply row_ok; auto. Qed.
Lemma upd_total s0 N X : (0 < N)%nat -> pop K N X -> exists s, upd K s0 X = Ok s /\ holds s X.
Proof using W.
  intros HN HP. assert (HX : X <> []) by (destruct HP as [L _]; destruct X; [simpl in L; lia|congruence]).
  unfold upd. fold c. rewrite (update_rows _ _ c Hrw) by auto. rewrite (rows_ok N) by auto. eexists. split; reflexivity.
Qed.
Lemma upd_holds s0 N X s : (0 < N)%nat -> pop K N X -> upd K s0 X = Ok s -> holds s X.
Proof using W. intros HN HP E. destruct (upd_total s0 N X HN HP) as (s' & E' & H). congruence. Qed.
Lemma holds_njac s X n : holds s X -> holds (set_njac s n) X.
Proof using. intros H. exact H. Qed.
Lemma pop_set N X i x : pop K N X -> length x = dim K -> pop K N (set_row i x X).
Proof using.
  intros [HN H] Hx. split. rewrite set_row_length. auto. intros y Hy. apply (In_nth _ _ []) in Hy as (j & Hj & <-).
  clear HN. revert i j Hj H. induction X as [|z X IH]; intros i j Hj H. { rewrite set_row_length in Hj. simpl in Hj. lia. } rewrite set_row_length in Hj. destruct i as [|i]; destruct j as [|j]; cbn [set_row nth]; auto.
  - apply H. right. apply nth_In. simpl in Hj. lia.
  - apply H. simpl; auto.
  - apply IH; [rewrite set_row_length; simpl in Hj; lia|]. intros y Hy. apply H. simpl; auto.
Qed.
Lemma upd_one_total s N X i x : pop K N X -> holds s X -> (i < N)%nat -> length x = dim K -> exists s', upd_one K s x i = Ok s' /\ holds s' (set_row i x X).
Proof using W.
  intros HP H Hi Hx. unfold holds, data in H. injection H as E1 E2 E3 E4 E5 E6 E7. unfold upd_one, update_one, put_opt, put_row. fold c.
  rewrite E1, E2, E3, E4, E5, E6, E7. rewrite !map_length. replace (i <? length X)%nat with true by (symmetry; apply Nat.ltb_lt; destruct HP; lia). cbn [bind].
  pose proof (row_ok x Hx) as Ho. unfold ok_row in Ho. apply andb_true_iff in Ho as [O1 Ho]. apply andb_true_iff in Ho as [O2 O3]. cbn [negb orb] in O3.
  rewrite cstr_one, O1. cbn [bind fst snd]. rewrite jac_one, O2. cbn [bind]. rewrite hess_one, O3. cbn [bind]. eexists. split; [reflexivity|].
  unfold holds, data. cbn [s_X s_Y s_J s_cstr s_active s_grad s_hess]. rewrite !set_row_map. reflexivity.
Qed.
Lemma holds_X s X : holds s X -> s_X s = X.
Proof using. intros H. unfold holds, data in H. congruence. Qed.
Lemma holds_Y s X : holds s X -> s_Y s = map (cb_point (c_func c)) (primal_of K s).
Proof using.
  intros H. unfold holds, data in H. unfold primal_of, primal. injection H as E1 E2 _ _ _ _ _. rewrite E1, E2, map_map. reflexivity.
Qed.
Lemma pop_Y N s X : pop K N X -> holds s X -> length (s_Y s) = N /\ rows (k_nobj K) (s_Y s).
Proof using W.
  intros [HN HX] H. unfold holds, data in H. injection H as E1 E2 _ _ _ _ _. rewrite E2. split. rewrite map_length; auto.
  intros r Hr. apply in_map_iff in Hr as (x & <- & Hx). apply (wp_func K W). apply pr_length; auto.
Qed.

(** * derivatives *)
Definition gradf (C : R) (s : pstate) (T : list (list R)) (i k : nat) : R :=
  C * sumn (k_nobj K) (fun a => cb_point (c_jac c) (pr c (nth i (s_X s) [])) a k * (entry (s_Y s) i a - entry T i a)).
Definition hessf (C : R) (s : pstate) (T : list (list R)) (i k l : nat) : R :=
  let J := cb_point (c_jac c) (pr c (nth i (s_X s) [])) in
  C * (sumn (k_nobj K) (fun a => J a k * J a l) + sumn (k_nobj K) (fun a => k_hess K (pr c (nth i (s_X s) [])) a k l * (entry (s_Y s) i a - entry T i a))).
Lemma mk2_ext {A} n m (f g : nat -> nat -> A) : (forall i k, (i < n)%nat -> (k < m)%nat -> f i k = g i k) -> mk2 n m f = mk2 n m g.
Proof using.
  intros H. unfold mk2. apply map_ext_in. intros i Hi. apply map_ext_in. intros k Hk. apply in_seq in Hi. apply in_seq in Hk. apply H; lia.
Qed.
Lemma mapM_fin l : mapM fin (map Fin l) = Ok l.
Proof using. induction l; simpl; auto. rewrite IHl. auto. Qed.
Lemma mk2_fin n m (f : nat -> nat -> R) : mapM (mapM fin) (mk2 n m (fun i k => Fin (f i k))) = Ok (mk2 n m f).
Proof using.
  unfold mk2. rewrite (mapM_map _ (fun r => match mapM fin r with Ok x => x | _ => [] end)).
  - rewrite map_map. f_equal. apply map_ext. intros i. rewrite <- (map_map (f i) Fin), mapM_fin. auto.
  - intros r Hr. apply in_map_iff in Hr as (i & <- & _). rewrite <- (map_map (f i) Fin), mapM_fin. auto.
Qed.
Lemma mk3_fin n m q (f : nat -> nat -> nat -> R) : mapM (mapM (mapM fin)) (mk3 n m q (fun i k l => Fin (f i k l))) = Ok (mk3 n m q f).
Proof using.
  unfold mk3. rewrite (mapM_map _ (fun r => match mapM (mapM fin) r with Ok x => x | _ => [] end)).
  - rewrite map_map. f_equal. apply map_ext. intros i. rewrite mk2_fin. auto.
  - intros r Hr. apply in_map_iff in Hr as (i & <- & _). rewrite mk2_fin. auto.
Qed.
Definition nearest_targets (S Y : list (list R)) : list (list R) := map (fun y => nth (argminR (map (dist2 y) S)) S []) Y.
Lemma npow_0 z : npow z 0 = Fin 1.
Proof using. unfold npow, reqb. destruct (Req_EM_T z 0); destruct (Req_EM_T 0 0); try lra; auto. f_equal. unfold Rpower. rewrite Rmult_0_l. apply exp_0. Qed.
Lemma primal_cols N s X : (0 < N)%nat -> pop K N X -> holds s X -> length (primal_of K s) = N /\ n_cols (primal_of K s) = dim_p K /\ (forall i, (i < N)%nat -> nth i (primal_of K s) [] = pr c (nth i (s_X s) [])).
Proof using.
  intros HN [L HX] H. unfold primal_of, primal. rewrite (holds_X _ _ H), map_length. split; auto. split.
  - destruct X as [|x X]; [simpl in L; lia|]. cbn. apply pr_length, HX. simpl; auto.
  - intros i Hi. rewrite (nth_map_default _ _ _ []) by lia. auto.
Qed.
Lemma holds_jac N s X : pop K N X -> holds s X -> exists J, jac_of s = Some J /\ forall i, (i < N)%nat -> J i = cb_point (c_jac c) (pr c (nth i (s_X s) [])).
Proof using.
  intros [L _] H. unfold jac_of. unfold holds, data in H. injection H as E1 _ E3 _ _ _ _. rewrite E3, E1. eexists. split; [reflexivity|].
  intros i Hi. cbn beta. rewrite (nth_map_default _ _ _ []) by lia. auto.
Qed.
Lemma gd_derivatives_ok N s X rs hes : (0 < N)%nat -> pop K N X -> holds s X -> reference_set rs <> [] -> rows (k_nobj K) (reference_set rs) ->
  derivatives K TheGD rs s hes = Ok (mk2 N (dim_p K) (gradf (2 / INR N) s (nearest_targets (reference_set rs) (s_Y s))),
    (if hes then Some (mk3 N (dim_p K) (dim_p K) (hessf (2 / INR N) s (nearest_targets (reference_set rs) (s_Y s)))) else None), rs).
Proof using W.
  intros HN HP H HS HR. destruct (pop_Y N s X HP H) as [LY RY]. destruct (primal_cols N s X HN HP H) as (LX & CX & NX). destruct (holds_jac N s X HP H) as (J & EJ & HJ).
  unfold derivatives, gd_derivatives, the_ind, mk_ind. cbn [i_p i_ref i_hess]. rewrite LX, CX, EJ. replace (N =? 0)%nat with false by (symmetry; apply Nat.eqb_neq; lia).
  unfold get_YJ. cbn beta iota zeta. cbn [i_func i_jac].
  rewrite (nearest_rows_ok (s_Y s) (reference_set rs) (k_nobj K)); auto. 2:{ intros E. rewrite E in LY. simpl in LY. lia. }
  cbn [bind fst snd]. rewrite LY, Nat.eqb_refl. cbn [negb].
  assert (CY : n_cols (s_Y s) = k_nobj K) by (unfold n_cols; destruct (s_Y s) as [|y Y]; [simpl in LY; lia|]; apply RY; simpl; auto). rewrite CY.
  assert (ET : forall i a, (i < N)%nat -> entry (reference_set rs) (nth i (map (fun a => argminR (map (edist a) (reference_set rs))) (s_Y s)) 0%nat) a = entry (nearest_targets (reference_set rs) (s_Y s)) i a).
  { intros i a Hi. unfold entry, nearest_targets. f_equal. rewrite (nth_map_default _ _ _ []) by lia. rewrite (nth_map_default _ _ _ []) by lia. do 2 f_equal. apply map_ext. intros r. symmetry. apply dist2_edist. }
  rewrite (mk2_ext _ _ _ (fun i k => Fin (gradf (2 / INR N) s (nearest_targets (reference_set rs) (s_Y s)) i k))).
  2:{ intros i k Hi Hk. replace (2 - 2) with 0 by ring. rewrite npow_0. cbn [fmul]. f_equal. unfold gradf. rewrite Rmult_1_r. f_equal. apply sumn_ext. intros a Ha. rewrite HJ, ET by auto. auto. }
  cbn [bind fst snd]. rewrite (mk2_fin N (dim_p K) (gradf (2 / INR N) s (nearest_targets (reference_set rs) (s_Y s)))). cbn [bind].
  destruct hes; auto. unfold mk3 at 1. rewrite (map_ext_in _ (fun i => mk2 (dim_p K) (dim_p K) (fun k l => Fin (hessf (2 / INR N) s (nearest_targets (reference_set rs) (s_Y s)) i k l)))).
  2:{ intros i Hi. apply in_seq in Hi. apply mk2_ext. intros k l Hk Hl. unfold reqb. destruct (Req_EM_T 2 2) as [_|]; [|lra]. cbn [fadd]. f_equal. rewrite Rplus_0_l. unfold hessf. f_equal. rewrite NX by lia. f_equal; apply sumn_ext; intros a Ha; rewrite ?HJ, ?ET by lia; auto. }
  fold (mk3 N (dim_p K) (dim_p K) (fun i k l => Fin (hessf (2 / INR N) s (nearest_targets (reference_set rs) (s_Y s)) i k l))). rewrite mk3_fin. reflexivity.
Qed.
Lemma igd_derivatives_ok N s X rs rs' hes : (0 < N)%nat -> pop K N X -> holds s X -> match_ K rs (s_Y s) = Ok rs' -> length (reference_set rs') = N -> rows (k_nobj K) (reference_set rs') ->
  derivatives K TheIGD rs s hes = Ok (mk2 N (dim_p K) (gradf 2 s (reference_set rs')), (if hes then Some (mk3 N (dim_p K) (dim_p K) (hessf 2 s (reference_set rs'))) else None), rs').
Proof using W.
  intros HN HP H HM LM HR. destruct (pop_Y N s X HP H) as [LY RY]. destruct (primal_cols N s X HN HP H) as (LX & CX & NX). destruct (holds_jac N s X HP H) as (J & EJ & HJ).
  unfold derivatives. rewrite HM. cbn [bind]. unfold igd_derivatives, the_ind, mk_ind. cbn [i_p i_ref i_hess i_M]. rewrite LX, CX, EJ.
  unfold get_YJ. cbn beta iota zeta. cbn [i_func i_jac bind].
  assert (HY : s_Y s <> []) by (intros E; rewrite E in LY; simpl in LY; lia).
  assert (ES : same_cols (s_Y s) (reference_set rs') = true) by (apply (same_cols_iff _ _ (k_nobj K)); auto). rewrite ES, LY, LM, Nat.eqb_refl. cbn [andb bind fst snd negb].
  assert (CY : n_cols (s_Y s) = k_nobj K) by (unfold n_cols; destruct (s_Y s) as [|y Y]; [simpl in LY; lia|]; apply RY; simpl; auto). rewrite CY.
  rewrite (mk2_ext _ _ _ (gradf 2 s (reference_set rs'))).
  2:{ intros i k Hi Hk. unfold gradf. f_equal. apply sumn_ext. intros a Ha. rewrite HJ by auto. auto. }
  destruct hes; auto. unfold mk3. rewrite (map_ext_in _ (fun i => mk2 (dim_p K) (dim_p K) (hessf 2 s (reference_set rs') i))); auto.
  intros i Hi. apply in_seq in Hi. apply mk2_ext. intros k l Hk Hl. unfold hessf. rewrite Rmult_1_l, NX by lia. f_equal. f_equal; apply sumn_ext; intros a Ha; rewrite ?HJ by lia; auto.
Qed.

(** * the reference set *)
Let m := k_nobj K.
(** before and after the first match *)
Definition irs (comp : list (list R)) (e : list R) : refset := mkRS [comp] [e] None true [None] None.
Definition mrs (comp : list (list R)) (e : list R) (M : list (list R)) : refset :=
  mkRS [comp] [e] (Some [seq 0 (length M)]) true [Some M] (Some (M, ids (length M))).
Definition fits (N : nat) (comp : list (list R)) (e : list R) : Prop := length e = m /\ (N <= length comp)%nat /\ rows m comp.
Definition matched (N : nat) (rs : refset) : Prop := exists comp e M, fits N comp e /\ rs = mrs comp e M /\ length M = N /\ rows m M.
Definition ready (N : nat) (rs : refset) : Prop := matched N rs \/ exists comp e, fits N comp e /\ rs = irs comp e.

Lemma match_case rs Y N : length Y = N -> wf rs -> rs_rematch rs = true \/ rs_matched rs = None -> forall comp, rs_ref rs = [comp] -> (N <= length comp)%nat ->
  exists rs' X M, match_ K rs Y = Ok rs' /\ medoids_for (k_kmedoids K) (nth 0 (rs_medoids rs) None) comp N = Ok X /\ Permutation M X /\ length M = N /\
   (forall P, Permutation P X -> sum_dist Y M <= sum_dist Y P) /\
   rs' = mkRS [comp] (rs_eta rs) (Some [seq 0 N]) (rs_rematch rs) [Some M] (Some (M, ids N)).
Proof using OO.
  intros HL Hwf Hre comp Hc Hn.
  assert (E1 : partition_Y rs Y = Ok ([seq 0 (length Y)], [Y])) by (unfold partition_Y; rewrite Hc; reflexivity).
  assert (E2 : match_components (k_lsa K) (k_hausdorff K) (rs_ref rs) [Y] = Ok [0%nat]) by (unfold match_components; rewrite Hc; reflexivity).
  assert (Hcov : covers [seq 0 (length Y)] (length Y)) by (unfold covers; cbn [concat]; rewrite app_nil_r; auto).
  assert (Ex : exists rs', match_ K rs Y = Ok rs').
  { unfold match_, match_Y. 
    assert (G : exists s', (do ixp <- partition_Y rs Y;
    let (ix, parts) := ixp in
    let N := fold_right Nat.add 0%nat (map (@length _) parts) in
    do vs <- match_components (k_lsa K) (k_hausdorff K) (rs_ref rs) parts;
    do r <- match_loop (k_lsa K) (k_kmedoids K) (rs_ref rs) ix parts 0 vs (repeat (repeat 0%R (k_nobj K)) N) (repeat None N) (rs_medoids rs);
    let '(out, mi, med) := r in
    Ok (mkRS (rs_ref rs) (rs_eta rs) (Some ix) (rs_rematch rs) med (Some (out, mi)))) = Ok s').
    2:{ destruct (rs_rematch rs); auto. destruct (rs_matched rs); auto. destruct Hre; discriminate. }
    rewrite E1. cbn [bind]. rewrite E2. cbn [bind match_loop nth_res nth_error]. rewrite Hc. unfold nth_res. cbn [nth_error bind].
    replace (length comp <? length Y)%nat with false by (symmetry; apply Nat.ltb_ge; lia).
    assert (EX : exists X, medoids_for (k_kmedoids K) (nth 0 (rs_medoids rs) None) comp (length Y) = Ok X).
    { unfold medoids_for. assert (Cl : exists X, cluster (k_kmedoids K) comp (length Y) = Ok X).
      { unfold cluster. destruct (length comp =? length Y)%nat; eauto. destruct (oo_kmed_total K OO comp (length Y) ltac:(lia)) as [r Er]. rewrite Er. cbn [bind].
        destruct (oo_kmed K OO _ _ _ Er) as (_ & _ & Hb). clear - Hb. induction r as [|a r IH]. exists []. reflexivity.
        destruct IH as [X HX]. intros i Hi. apply Hb. simpl; auto. unfold take_rows in *. cbn [fold_right]. rewrite HX. cbn [bind]. specialize (Hb a ltac:(simpl; auto)).
        destruct (nth_error comp a) eqn:E. eauto. apply nth_error_None in E. lia. }
      destruct (nth 0 (rs_medoids rs) None) as [L|]; auto. destruct (length L =? length Y)%nat; eauto. }
    destruct EX as [X EX]. rewrite EX. cbn [bind]. pose proof (medoids_for_length _ (fun a b r H => proj1 (oo_kmed K OO a b r H)) _ _ _ _ EX) as LX.
    assert (EM : exists M, match_rows (k_lsa K) X Y = Ok M).
    { unfold match_rows. destruct (oo_lsa_total K OO (cdist Y X)) as [a Ea]. { intros r Hr. unfold cdist. rewrite map_length. rewrite (cdist_rect Y X r Hr). auto. }
      rewrite Ea. cbn [bind]. destruct (lsa_square (k_lsa K) (oo_lsa K OO) X Y a LX Ea) as (_ & HP & _).
      assert (Hb : forall i, In i (snd a) -> (i < length X)%nat) by (intros i Hi; apply (Permutation_in _ HP) in Hi; apply in_seq in Hi; lia).
      clear - Hb. induction (snd a) as [|q r IH]. exists []. reflexivity.
      destruct IH as [Z HZ]. intros i Hi. apply Hb. simpl; auto. unfold take_rows in *. cbn [fold_right]. rewrite HZ. cbn [bind]. specialize (Hb q ltac:(simpl; auto)).
      destruct (nth_error X q) eqn:E. eauto. apply nth_error_None in E. lia. }
    destruct EM as [M EM]. rewrite EM. cbn [bind map fold_right]. rewrite Nat.add_0_r.
    destruct (set_rows_total (seq 0 (length Y)) (repeat (repeat 0 (k_nobj K)) (length Y)) M) as [o1 Eo1]. { intros i Hi. rewrite repeat_length. apply in_seq in Hi. lia. }
    destruct (set_rows_total (seq 0 (length Y)) (repeat (@None (nat * nat)) (length Y)) (map (fun i => Some (0%nat, i)) (seq 0 (length (seq 0 (length Y)))))) as [o2 Eo2]. { intros i Hi. rewrite repeat_length. apply in_seq in Hi. lia. }
    rewrite Eo1. cbn [bind]. rewrite Eo2. cbn [bind]. eauto. }
  destruct Ex as [rs' E]. unfold match_ in E.
  destruct (match_spec _ _ _ (oo_lsa K OO) (oo_kmed K OO) (k_nobj K) rs Y rs' Hwf Hre E) as (ix & parts & vs & out & mi & A1 & A2 & A3 & A4 & A5 & A6 & A7 & A8 & A9).
  rewrite E1 in A1. injection A1 as <- <-. rewrite E2 in A2. injection A2 as <-.
  destruct (A9 Hcov) as (Lo & Hcons & Hk). destruct (Hk 0%nat ltac:(simpl; lia)) as (comp' & X & M & B1 & B2 & B3 & B4 & B5 & B6 & B7 & B8). cbn [nth] in *.
  rewrite seq_length in *. rewrite Hc in B1. injection B1 as <-. rewrite HL in *.
  assert (HM : out = M). { rewrite <- (map_id M). apply (eq_of_errors out M N (fun x => x) Lo). rewrite B5. reflexivity. }
  assert (Hmi : mi = ids N).
  { destruct Hcons as (M0 & mi0 & Q1 & Q2 & _). rewrite A6 in Q1. injection Q1 as <- <-. rewrite <- (map_id (ids N)). apply (eq_of_errors mi (ids N) N (fun x => x)). lia.
    rewrite B6, B4. unfold ids. rewrite map_map. reflexivity. }
  exists rs', X, M. split; [exact E|]. split; [exact B2|]. split; [exact B7|]. split; [exact B4|]. split; [exact B8|].
  destruct rs' as [r1 r2 r3 r4 r5 r6]. cbn in A3, A4, A5, A6, A7, A8, B3. destruct A7 as [W1 W2]. cbn in W1. rewrite A4, Hc in W1. cbn in W1. destruct r5 as [|r5 [|]]; try discriminate. cbn in B3. rewrite A3, A4, A5, A6, A8, B3, HM, Hmi, Hc. reflexivity.
Qed.
Lemma match_ready N rs Y : (0 < N)%nat -> ready N rs -> length Y = N -> exists rs', match_ K rs Y = Ok rs' /\ matched N rs' /\ (exists rest, Permutation (reference_set rs' ++ rest) (reference_set rs)) /\
  (matched N rs -> Permutation (reference_set rs') (reference_set rs)).
Proof using OO.
  intros HN Hr HL. destruct Hr as [(comp & e & M & Hf & -> & LM & RM)|(comp & e & Hf & ->)].
  - destruct (match_case (mrs comp e M) Y N HL ltac:(split; [reflexivity|discriminate]) ltac:(left; reflexivity) comp eq_refl ltac:(apply Hf)) as (rs' & X & M' & E & EX & HP & LM' & _ & ->).
    unfold medoids_for in EX. cbn in EX. rewrite LM, Nat.eqb_refl in EX. injection EX as <-.
    eexists. split; [exact E|]. split.
    + exists comp, e, M'. split; auto. split. unfold mrs. rewrite LM'. reflexivity. split; auto. intros r Hr. apply RM. apply (Permutation_in _ HP Hr).
    + unfold reference_set; cbn. split; auto. exists []. rewrite app_nil_r. auto.
  - destruct (match_case (irs comp e) Y N HL ltac:(split; [reflexivity|discriminate]) ltac:(left; reflexivity) comp eq_refl ltac:(apply Hf)) as (rs' & X & M' & E & EX & HP & LM' & _ & ->).
    assert (HX0 : exists rest, Permutation (X ++ rest) comp).
    { unfold medoids_for in EX. cbn in EX. unfold cluster in EX. destruct (length comp =? N)%nat. injection EX as <-. exists []. rewrite app_nil_r. auto. inv_do EX ix Eix. destruct (oo_kmed K OO _ _ _ Eix) as (_ & Hnd & Hb). apply (sub_rows_perm _ _ _ Hnd Hb EX). }
    assert (HX : incl X comp) by (destruct HX0 as [rest HX0]; intros r Hr; apply (Permutation_in _ HX0); apply in_or_app; auto).
    eexists. split; [exact E|]. split; [|split].
    + exists comp, e, M'. split; auto. split. unfold mrs. rewrite LM'. reflexivity. split; auto. intros r Hr. apply Hf. apply HX. apply (Permutation_in _ HP Hr).
    + unfold reference_set; cbn. rewrite app_nil_r. destruct HX0 as [rest HX0]. exists rest. eapply perm_trans; [|exact HX0]. apply Permutation_app_tail. auto.
    + intros (comp0 & e0 & M0 & _ & Q & _). discriminate Q.
Qed.
Lemma ready_ref N rs : (0 < N)%nat -> ready N rs -> reference_set rs <> [] /\ rows m (reference_set rs).
Proof using.
  intros HN [(comp & e & M & Hf & -> & LM & RM)|(comp & e & Hf & ->)]; unfold reference_set; cbn.
  - split; auto. intros ->. simpl in LM. lia.
  - rewrite app_nil_r. split; [|apply Hf]. intros ->. destruct Hf as (_ & Hf & _). simpl in Hf. lia.
Qed.
Lemma matched_ref N rs : matched N rs -> length (reference_set rs) = N /\ rows m (reference_set rs).
Proof using. intros (comp & e & M & Hf & -> & LM & RM). unfold reference_set; cbn. auto. Qed.

(** * the shift *)
Lemma shift_fold_ids C e N ks : length e = m -> (forall k, In k ks -> (k < N)%nat) -> forall M, length M = N -> rows m M ->
  exists M', foldM (shift_one C [e] (ids N)) ks (M, [Some M]) = Ok (M', [Some M']) /\ length M' = N /\ rows m M'.
Proof using.
  intros He. induction ks as [|k ks IH]; intros Hb M HL HR; cbn [foldM]. exists M. auto.
  rewrite shift_one_ids by (auto; apply Hb; simpl; auto). cbn [bind]. apply IH. intros; apply Hb; simpl; auto. rewrite set_row_length; auto.
  apply set_row_rows; auto. rewrite add_vec_length. apply HR, nth_In. rewrite HL. apply Hb; simpl; auto. rewrite scale_length. rewrite He. apply HR, nth_In. rewrite HL. apply Hb; simpl; auto.
Qed.
Lemma shift_matched iter N Y steps rs : matched N rs -> length Y = N -> (iter <> 0%nat -> length steps = N) -> exists rs' lg, dpn_shift iter N Y steps rs = Ok (rs', lg) /\ matched N rs'.
Proof using.
  intros (comp & e & M & Hf & -> & LM & RM) HY Hst. unfold dpn_shift.
  assert (Em : exists mask, dpn_masks iter N Y (reference_set (mrs comp e M)) steps = Ok mask /\ length mask = N).
  { unfold dpn_masks. destruct iter. eexists. split; [reflexivity|]. apply repeat_length. specialize (Hst ltac:(discriminate)). cbn [mrs reference_set rs_matched]. rewrite HY, LM, Hst, Nat.eqb_refl. cbn [negb orb].
    eexists. split; [reflexivity|]. rewrite !zip_with_length; auto. congruence. rewrite zip_with_length, map_length; congruence. }
  destruct Em as (mask & Em & Lm). rewrite Em. cbn [bind]. unfold shift_ref. cbn [mrs rs_matched rs_eta rs_medoids rs_ref rs_Yidx rs_rematch]. rewrite LM.
  destruct (shift_fold_ids (match iter with 0%nat => 0.08 | S _ => 0.05 end) e N (indices_of mask) (proj1 Hf)) with (M := M) as (M' & EM & LM' & RM'); auto.
  { intros k Hk. unfold indices_of in Hk. apply positions_iff in Hk. lia. }
  rewrite EM. cbn [bind fst snd]. rewrite log_total. 2:{ intros k Hk. unfold reference_set; cbn. unfold indices_of in Hk. apply positions_iff in Hk. lia. }
  cbn [bind]. eexists _, _. split; [reflexivity|]. exists comp, e, M'. split; auto. split; auto. unfold mrs. rewrite LM'. reflexivity.
Qed.

(** * the step *)
Lemma mk2_matrix n q (f : nat -> nat -> R) : matrix n q (mk2 n q f).
Proof using.
  split. unfold mk2. rewrite map_length, seq_length. auto. intros r Hr. unfold mk2 in Hr. apply in_map_iff in Hr as (i & <- & _). rewrite map_length, seq_length. auto.
Qed.
Lemma jac_row_shape x : is_constrained K = true -> length x = dim K -> length (jac_row (zero_row K) c (pr c x)) = dim_d K /\ forall r, In r (jac_row (zero_row K) c (pr c x)) -> length r = dim_p K.
Proof using W.
  intros Hc Hx. pose proof (pr_length x Hx) as Hp. unfold jac_row.
  assert (Hj : no_cjac c = false).
  { unfold no_cjac. fold c. unfold is_constrained in Hc. fold c in Hc. destruct (wp_jac K W) as [H|H].
    - fold c. destruct (c_h c); [left; discriminate|]. destruct (c_g c); [right; discriminate|discriminate].
    - fold c in H. destruct (c_hjac c); congruence.
    - fold c in H. destruct (c_hjac c); [auto|]. destruct (c_gjac c); congruence. }
  rewrite Hj, app_length.
  rewrite !opt_row_length by (apply opt_ok_returns; auto; apply W). split; [reflexivity|]. intros r Hr. apply in_app_iff in Hr. unfold opt_row in Hr.
  destruct Hr as [Hr|Hr].
  - destruct (c_hjac c) as [f|] eqn:E. apply (wp_hjr K W f (pr c x)); auto. apply repeat_spec in Hr. subst. apply repeat_length.
  - destruct (c_gjac c) as [f|] eqn:E. apply (wp_gjr K W f (pr c x)); auto. apply repeat_spec in Hr. subst. apply repeat_length.
Qed.
Lemma points_shaped N s X g : is_constrained K = true -> pop K N X -> holds s X -> matrix N (dim_p K) g -> forall p, In p (points_of K s g) -> shaped (dim_p K) (dim_d K) p.
Proof using W.
  intros Hc [L HX] H [Lg Hg] p Hp. unfold points_of in Hp. unfold holds, data in H. injection H as E1 E2 E3 E4 E5 E6 E7. rewrite E1, E4, E5, E6, E7 in Hp.
  apply in_map_iff in Hp as (i & <- & Hi). apply in_seq in Hi. rewrite !(nth_map_default _ _ _ []) by lia.
  assert (Hx : length (nth i X []) = dim K) by (apply HX, nth_In; lia). set (x := nth i X []) in *. pose proof (pr_length x Hx) as Hp.
  destruct (jac_row_shape x Hc Hx) as [J1 J2]. unfold shaped. cbn.
  split. apply Hg, nth_In. lia. split. rewrite skipn_length. unfold dim in Hx. lia. split.
  { unfold cstr_row, hg. cbn. rewrite app_length, !opt_row_length by (apply opt_ok_returns; auto; apply W). reflexivity. } split.
  { unfold active_row, hg. cbn. rewrite app_length, repeat_length, map_length, opt_row_length by (apply opt_ok_returns; auto; apply W). reflexivity. }
  split; auto. split; auto. unfold hess_row. destruct (no_chess c). apply repeat_length. rewrite app_length, !opt_row_length by (apply opt_ok_returns; auto; apply W). reflexivity.
Qed.
Lemma points_grad N s X g : pop K N X -> holds s X -> matrix N (dim_p K) g -> forall p, In p (points_of K s g) -> length (pt_grad p) = dim_p K.
Proof using.
  intros [L HX] H [Lg Hg] p Hp. unfold points_of in Hp. rewrite (holds_X _ _ H) in Hp. apply in_map_iff in Hp as (i & <- & Hi). apply in_seq in Hi. cbn. apply Hg, nth_In. lia.
Qed.
Lemma derivatives_total a N s X rs hes : (0 < N)%nat -> pop K N X -> holds s X -> ready N rs ->
  exists C T rs', derivatives K a rs s hes = Ok (mk2 N (dim_p K) (gradf C s T), (if hes then Some (mk3 N (dim_p K) (dim_p K) (hessf C s T)) else None), rs') /\ ready N rs' /\ (matched N rs -> matched N rs').
Proof using W OO.
  intros HN HP H Hr. destruct (ready_ref N rs HN Hr) as [H1 H2]. destruct a.
  - eexists _, _, rs. split; [apply gd_derivatives_ok with (X := X); auto|]. auto.
  - destruct (pop_Y N s X HP H) as [LY _]. destruct (match_ready N rs (s_Y s) HN Hr LY) as (rs' & E & Hm & _). destruct (matched_ref N rs' Hm) as [L1 R1].
    eexists _, _, rs'. split; [apply igd_derivatives_ok with (X := X); auto|]. split; auto. left; auto.
Qed.
Lemma newton_step_total a N s X rs : (0 < N)%nat -> pop K N X -> holds s X -> ready N rs ->
  exists st Rm rs', newton_step K a rs s = Ok (st, Rm, rs') /\ pop K N st /\ length Rm = N /\ ready N rs' /\ (matched N rs -> matched N rs').
Proof using W OO.
  intros HN HP H Hr. destruct (derivatives_total a N s X rs true HN HP H Hr) as (C & T & rs' & E & R1 & R2). unfold newton_step. rewrite E. cbn [bind].
  set (g := mk2 N (dim_p K) (gradf C s T)). pose proof (mk2_matrix N (dim_p K) (gradf C s T)) as Hg. fold g in Hg.
  assert (LP : length (points_of K s g) = N) by (rewrite points_length; rewrite (holds_X _ _ H); apply HP).
  assert (LH : length (mk3 N (dim_p K) (dim_p K) (hessf C s T)) = length (points_of K s g)) by (rewrite LP; unfold mk3; rewrite map_length, seq_length; auto).
  assert (MH : forall B, In B (mk3 N (dim_p K) (dim_p K) (hessf C s T)) -> matrix (dim_p K) (dim_p K) B).
  { intros B HB. unfold mk3 in HB. apply in_map_iff in HB as (i & <- & _). apply mk2_matrix. }
  destruct (is_constrained K) eqn:Ec.
  - destruct (dpn_constrained (k_solve K) (k_lstsq K) (k_chol K) (oo_solve K OO) (oo_lstsq K OO) (dim_p K) (dim_d K) (k_pre K) _ _ LH MH (points_shaped N s X g Ec HP H Hg)) as (st & Rm & Es & [M1 M2] & [[R3 _] _] & _).
    rewrite Es. cbn [bind fst snd]. exists st, Rm, rs'. split; auto. rewrite LP in *. split; [|auto]. split; auto.
  - destruct (dpn_unconstrained (k_solve K) (k_lstsq K) (k_chol K) (oo_solve K OO) (oo_lstsq K OO) (dim_p K) (dim_d K) (k_pre K) _ _ LH MH (points_grad N s X g HP H Hg)) as (st & Es & [M1 M2] & _).
    rewrite Es. cbn [bind fst snd]. eexists st, _, rs'. split; [reflexivity|]. rewrite map_length, LP in *. split; [|auto]. split; auto.
    intros x Hx. rewrite (M2 x Hx). unfold dim. rewrite (unconstrained_dim K wp_counts Ec). lia.
Qed.
Lemma R_list_total N s X g : pop K N X -> holds s X -> matrix N (dim_p K) g -> exists Rl, R_list K s g = Ok Rl /\ length Rl = N.
Proof using W.
  intros HP H Hg. unfold R_list. destruct (is_constrained K) eqn:Ec; [|eexists; split; [reflexivity|apply Hg]].
  rewrite (mapM_map _ (fun p => gvec (dim_p K) p ++ act_v p)).
  - eexists. split; [reflexivity|]. rewrite map_length, points_length, (holds_X _ _ H). apply HP.
  - intros p Hp. rewrite (residual_ok (dim_p K) (dim_d K)). reflexivity. apply (points_shaped N s X g); auto.
Qed.

(** * the box *)
Lemma nanmin_fin l : (forall v, In v l -> okv v) -> exists r, fin (cap1 (nanmin l)) = Ok r.
Proof using.
  intros H. destruct (nanmin l) as [r| | |] eqn:E; cbn; eauto. destruct (rltb r 1); cbn; eauto.
  exfalso. assert (Hn : forall l, (forall v, In v l -> okv v) -> nanmin l <> NInf).
  { clear. induction l as [|v l IH]; intros H; cbn. discriminate. pose proof (H v (or_introl eq_refl)) as Hv. specialize (IH (fun w Hw => H w (or_intror Hw))).
    destruct v as [q| | |]; auto; cbn in Hv; try contradiction; destruct (nanmin l) as [p| | |]; try discriminate; try contradiction; unfold fmin; destruct (fle _ _); try discriminate. }
  apply (Hn l H E).
Qed.
Lemma ratio_in xl xu x st v : In v (box_ratios xl xu x st) -> okv v.
Proof using.
  unfold box_ratios. set (D := zip_with _ x xl ++ zip_with _ xu x). set (V := st ++ map Ropp st).
  assert (HD : forall d, In d D -> 0 <= d).
  { intros d Hd. unfold D in Hd. apply in_app_iff in Hd. assert (Hz : forall l l' d, In d (zip_with (fun a b => Rabs (a - b)) l l') -> 0 <= d).
    { clear. induction l as [|a l IH]; intros [|b l'] d Hd; simpl in Hd; try contradiction. destruct Hd as [<-|Hd]. apply Rabs_pos. eapply IH; eauto. }
    destruct Hd; eapply Hz; eauto. }
  clearbody D V. revert V. induction D as [|d D IH]; intros [|w V] Hv; simpl in Hv; try contradiction. destruct Hv as [<-|Hv]. apply ratio_ok. apply HD; simpl; auto.
  apply (IH (fun d Hd => HD d (or_intror Hd)) V Hv).
Qed.
Lemma handle_box_total s st : exists bx, handle_box K s st = Ok bx.
Proof using.
  unfold handle_box. destruct (mapM_total (fun xs => box_row K (fst xs) (snd xs)) (combine (primal_of K s) st)) as [bs E].
  { intros [x t] _. unfold box_row. cbn [fst snd]. assert (Hf : exists r, fin (snd (dpn_box (k_xl K) (k_xu K) x (firstn (dim_p K) t))) = Ok r).
    { unfold dpn_box. destruct (is_fzero _); cbn [snd]; apply nanmin_fin; apply ratio_in. }
    destruct Hf as [r ->]. cbn [bind]. eauto. }
  rewrite E. cbn [bind]. eauto.
Qed.

(** * the line search *)
Definition mono (P Q : refset -> Prop) (rs rs' : refset) : Prop := P rs' /\ (Q rs -> Q rs').
Lemma phi_total a N s X st i w al : (0 < N)%nat -> pop K N X -> holds s X -> pop K N st -> (i < N)%nat -> ready N (fst w) ->
  exists r, phi_func K a s st i w al = Ok r /\ ready N (fst (snd r)) /\ (matched N (fst w) -> matched N (fst (snd r))).
Proof using W OO.
  intros HN HP H HS Hi Hr. unfold phi_func.
  assert (Lt : length (trial_point s st i al) = dim K).
  { unfold trial_point. rewrite (holds_X _ _ H). rewrite zip_with_length. apply HP, nth_In. destruct HP; lia. rewrite (proj2 HP), (proj2 HS); auto; apply nth_In; [destruct HS|destruct HP]; lia. }
  destruct (upd_one_total (set_njac s (snd w)) N X i _ HP (holds_njac s X _ H) Hi Lt) as (s' & E & H'). rewrite E. cbn [bind].
  destruct (derivatives_total a N s' _ (fst w) false HN (pop_set N X i _ HP Lt) H' Hr) as (C & T & rs' & Ed & R1 & R2). rewrite Ed. cbn [bind].
  destruct (R_list_total N s' _ _ (pop_set N X i _ HP Lt) H' (mk2_matrix N (dim_p K) (gradf C s' T))) as (Rl & ER & LR). rewrite ER. cbn [bind].
  unfold nth_res. rewrite (List.nth_error_nth' Rl []) by lia. cbn [bind]. eexists. split; [reflexivity|]. cbn. auto.
Qed.
Lemma search_total N (phi : refset * nat -> R -> res (R * (refset * nat))) n :
  (forall w al, ready N (fst w) -> exists r, phi w al = Ok r /\ ready N (fst (snd r)) /\ (matched N (fst w) -> matched N (fst (snd r)))) ->
  forall phi0 s2 p2 s1 w, ready N (fst w) -> exists r, search phi n phi0 s2 p2 s1 w = Ok r /\ ready N (fst (snd r)) /\ (matched N (fst w) -> matched N (fst (snd r))).
Proof using.
  intros Hphi. induction n as [|n IH]; intros phi0 s2 p2 s1 w Hw; cbn [search]. eexists. split; [reflexivity|]. auto.
  destruct (Hphi w s1 Hw) as (r & E & R1 & R2). rewrite E. cbn [bind]. destruct (armijo _ _ _ _). eexists. split; [reflexivity|]. auto.
  destruct (IH phi0 s1 (fst r) (next_step s2 s1 (Fin p2) (Fin (fst r))) (snd r) R1) as (r' & E' & R3 & R4). rewrite E'. eexists. split; [reflexivity|]. auto.
Qed.
Lemma search_all_total a N s X st Rm mx is : (0 < N)%nat -> pop K N X -> holds s X -> pop K N st -> length Rm = N -> length mx = N -> (forall i, In i is -> (i < N)%nat) ->
  forall w, ready N (fst w) -> exists r, search_all K a s st Rm mx is w = Ok r /\ ready N (fst (snd r)) /\ (matched N (fst w) -> matched N (fst (snd r))).
Proof using W OO.
  intros HN HP H HS LR Lm. induction is as [|i is IH]; intros Hb w Hw; cbn [search_all]. eexists. split; [reflexivity|]. auto.
  pose proof (Hb i (or_introl eq_refl)) as Hi. unfold nth_res. rewrite (List.nth_error_nth' mx 0) by lia. cbn [bind]. rewrite (List.nth_error_nth' Rm []) by lia. cbn [bind].
  destruct (search_total N (phi_func K a s st i) 8 (fun w al Hw => phi_total a N s X st i w al HN HP H HS Hi Hw) (norm (nth i Rm [])) 0 (norm (nth i Rm [])) (nth i mx 0) w Hw) as (r & E & R1 & R2).
  rewrite E. cbn [bind]. destruct (IH (fun j Hj => Hb j (or_intror Hj)) (snd r) R1) as (r' & E' & R3 & R4). rewrite E'. cbn [bind]. eexists. split; [reflexivity|]. cbn. auto.
Qed.
Lemma line_search_total a N s X st Rm mx rs : (0 < N)%nat -> pop K N X -> holds s X -> pop K N st -> length Rm = N -> length mx = N -> ready N rs ->
  exists r, line_search K a rs s st Rm mx = Ok r /\ ready N (fst (snd r)) /\ (matched N rs -> matched N (fst (snd r))).
Proof using W OO.
  intros HN HP H HS LR Lm Hr. unfold line_search. destruct (forallb _ _). eexists. split; [reflexivity|]. auto.
  apply (search_all_total a N s X); auto. intros i Hi. rewrite (holds_X _ _ H) in Hi. apply in_seq in Hi. destruct HP. lia.
Qed.

(** * iterations *)
(** what holds of the object at the start of an iteration *)
Definition good (N : nat) (o : dpn) : Prop :=
  (exists X, pop K N X /\ holds (d_state o) X) /\ ready N (d_ref o) /\ (d_iter o <> 0%nat -> matched N (d_ref o) /\ length (d_step o) = N).
Lemma iteration_total N o : (0 < N)%nat -> good N o -> exists o', newton_iteration K o = Ok o' /\ (exists X, pop K N X /\ holds (d_state o') X) /\ matched N (d_ref o') /\ length (d_step o') = N.
Proof using W OO.
  intros HN ((X & HP & H) & Hr & Hm). destruct (pop_Y N _ X HP H) as [LY RY]. destruct (ready_ref N _ HN Hr) as [Hne HR].
  unfold newton_iteration. assert (LX : length (s_X (d_state o)) = N) by (rewrite (holds_X _ _ H); apply HP).
  unfold indicator_values at 1.
  assert (HY : s_Y (d_state o) <> []) by (intros E; rewrite E in LY; simpl in LY; lia).
  destruct (gd_value (the_ind K (d_ref o)) (s_Y (d_state o)) m ltac:(cbn; lra) HY Hne RY HR) as (gd & Egd & _). rewrite Egd. cbn [bind fin].
  destruct (match_ready N (d_ref o) (s_Y (d_state o)) HN Hr LY) as (rs1 & E1 & M1 & _ & _). rewrite E1. cbn [bind]. destruct (matched_ref N rs1 M1) as [L1 R1].
  rewrite (igdm_value _ _ _ (reference_set rs1) m HY RY eq_refl) by (auto; lia). cbn [bind]. rewrite LX.
  destruct (shift_matched (d_iter o) N (s_Y (d_state o)) (map (firstn (dim_p K)) (d_step o)) rs1 M1 LY) as (rs2 & lg & E2 & M2). { intros Hi. rewrite map_length. apply Hm; auto. }
  rewrite E2. cbn [bind fst snd]. set (a := active_indicator _ _ _).
  destruct (newton_step_total a N _ X rs2 HN HP H (or_introl M2)) as (st & Rm & rs3 & E3 & P3 & L3 & _ & M3). rewrite E3. cbn [bind].
  destruct (handle_box_total (d_state o) st) as [bx E4]. rewrite E4. cbn [bind].
  assert (HPs : pop K N (s_X (d_state o))) by (rewrite (holds_X _ _ H); auto).
  destruct (handle_box_pop K _ _ _ N HPs P3 E4) as (P4 & L4 & _).
  destruct (line_search_total a N _ X (fst bx) Rm (snd bx) rs3 HN HP H P4 L3 L4 (or_introl (M3 M2))) as (ls & E5 & _ & M5). rewrite E5. cbn [bind].
  pose proof (line_search_length K _ _ _ _ _ _ _ N HPs P4 E5) as L5.
  assert (P6 : pop K N (IterModel.moved (s_X (d_state o)) (fst ls) (fst bx))) by (apply moved_pop; auto).
  destruct (upd_total (set_njac (d_state o) (snd (snd ls))) N _ HN P6) as (s' & E6 & H6). rewrite E6. cbn [bind]. eexists. split; [reflexivity|]. cbn [d_state d_ref d_step].
  split; [eauto|]. split; [auto|]. apply P4.
Qed.
Lemma iterate_total N o : (0 < N)%nat -> good N o -> exists o', dpn_iterate K o = Ok o' /\ good N o'.
Proof using W OO.
  intros HN Hg. destruct (iteration_total N o HN Hg) as (o1 & E & H1 & H2 & H3). unfold dpn_iterate. rewrite E. cbn [bind]. eexists. split; [reflexivity|].
  unfold good. cbn [log d_state d_ref d_iter d_step]. split; auto. split; [left; auto|auto].
Qed.
Lemma init_total rs X0 : (0 < length X0)%nat -> (forall x, In x X0 -> length x = dim_p K) -> one_component m (length X0) rs -> exists o, dpn_init K rs X0 = Ok o /\ good (length X0) o.
Proof using W.
  intros HN HX (comp & e & E & Le & Lc & Rc). injection E as <-. unfold dpn_init.
  assert (P : pop K (length X0) (map (fun x => clip_row (k_xl K) (k_xu K) x ++ repeat 0 (dim_d K)) X0)).
  { split. apply map_length. intros x Hx. apply in_map_iff in Hx as (y & <- & Hy). rewrite app_length, repeat_length. unfold clip_row.
    pose proof (HX y Hy) as Ly. pose proof (wp_xl K W) as Q1. pose proof (wp_xu K W) as Q2. fold (dim_p K) in Q1, Q2.
    rewrite !zip_with_length; rewrite ?zip_with_length; try congruence. unfold dim. lia. }
  destruct (upd_total init (length X0) _ HN P) as (s & Es & Hs). rewrite Es. cbn [bind]. eexists. split; [reflexivity|]. split; [eauto|]. cbn [d_ref d_iter]. split; [|congruence].
  right. exists comp, e. split; [split; auto|reflexivity].
Qed.
Lemma trace_total N n : (0 < N)%nat -> forall o, good N o -> exists l, length l = n /\ trace (dpn_iterate K) o l.
Proof using W OO.
  intros HN. induction n as [|n IH]; intros o Hg. exists []. split; simpl; auto.
  destruct (iterate_total N o HN Hg) as (o' & E & Hg'). destruct (IH o' Hg') as (l & Ll & Ht). exists (o' :: l). split; simpl; auto.
Qed.
Lemma run_total N : (0 < N)%nat -> forall fuel o i z h, good N o -> (z - Z.of_nat i <= Z.of_nat fuel)%Z -> exists r, run (dpn_iterate K) fuel (mkOpt o i (Finite z) None h) = Ok r.
Proof using W OO.
  intros HN. induction fuel as [|fuel IH]; intros o i z h Hg Hf; cbn [run]; unfold terminate, reached; cbn [o_max o_iter o_state o_stop o_hist]; destruct (Z.leb_spec z (Z.of_nat i)) as [Hz|Hz]; eauto; try lia.
  destruct (iterate_total N o HN Hg) as (o' & E & Hg'). rewrite E. cbn [bind]. apply IH; auto. lia.
Qed.
End Total.
