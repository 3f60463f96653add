(** What one iteration of DpN does to the population, the reference set and the history. *)
From Coq Require Import List Arith Bool Reals ZArith Lia Lra.
From Verif Require Import Num Exn ListAux MiscModel StateModel StateSpec StateProof NewtonModel NewtonProof NewtonBox NewtonPop RefModel RefProof HVXModel IndModel StepModel ShiftModel IterModel.
Import ListNotations.
Open Scope R_scope.

Lemma bind_inv {A B} (r : res A) (f : A -> res B) y : bind r f = Ok y -> exists x, r = Ok x /\ f x = Ok y.
Proof. destruct r; simpl; [eauto|discriminate]. Qed.
Tactic Notation "inv_do" ident(H) ident(x) ident(E) := apply bind_inv in H as (x & E & H).

Lemma mapM_in {A B} (f : A -> res B) l bs b : mapM f l = Ok bs -> In b bs -> exists a, In a l /\ f a = Ok b.
Proof.
  revert bs. induction l as [|a l IH]; simpl; intros bs E Hb. injection E as <-. destruct Hb.
  inv_do E y Ey. inv_do E ys Eys. injection E as <-. destruct Hb as [<-|Hb]. exists a; auto. destruct (IH ys Eys Hb) as (a' & H1 & H2). exists a'; auto.
Qed.
Lemma fill_length {T} (z : T) m : forall v, length (fill z m v) = length m.
Proof. induction m as [|[|] m IH]; intros v; simpl; auto. destruct v; simpl; auto. Qed.
Lemma fill_row_length {T} (z : T) m v r : fill_row z m v = Ok r -> length r = length m.
Proof.
  unfold fill_row. destruct (length v =? count_true m)%nat. intros E. injection E as <-. apply fill_length.
  destruct v as [|v [|]]; try discriminate. intros E. injection E as <-. apply map_length.
Qed.

Section Dpn.
Variable K : dpn_cfg.
Let c := k_prob K.

(** as set by [_check_constraints]: no constraints of a kind without its function *)
Definition counts_ok : Prop := (c_h c = None -> c_neq c = 0%nat) /\ (c_g c = None -> c_nieq c = 0%nat).
Definition dim : nat := (dim_p K + dim_d K)%nat.
(** a population of [N] points with primal and dual components *)
Definition pop (N : nat) (X : list (list R)) : Prop := length X = N /\ forall x, In x X -> length x = dim.

Lemma unconstrained_dim : counts_ok -> is_constrained K = false -> dim_d K = 0%nat.
Proof using. intros [H1 H2]. unfold is_constrained, dim_d. fold c. destruct (c_h c); [discriminate|]. destruct (c_g c); [discriminate|]. rewrite H1, H2; auto. Qed.

Lemma points_length s g : length (points_of K s g) = length (s_X s).
Proof using. unfold points_of. rewrite map_length, seq_length. auto. Qed.
Lemma dpn_point_length d nc pre Hr p r : dpn_point (k_solve K) (k_lstsq K) (k_chol K) d nc (is_constrained K) pre Hr p = Ok r ->
  length (fst r) = if is_constrained K then (d + nc)%nat else d.
Proof using.
  unfold dpn_point. destruct (is_constrained K).
  - destruct (length (pt_act p) =? nc)%nat eqn:E; [|discriminate]. apply Nat.eqb_eq in E. intros H.
    inv_do H r1 E1. inv_do H B EB. inv_do H w Ew. inv_do H A' EA. inv_do H DR ED. inv_do H st Es. injection H as <-. cbn [fst].
    apply fill_row_length in Es. rewrite Es, app_length, repeat_length. lia.
  - intros H. inv_do H st Es. injection H as <-. cbn [fst]. apply fill_row_length in Es. rewrite Es, repeat_length. auto.
Qed.
Lemma newton_step_pop a rs s st Rm rs' N : counts_ok -> pop N (s_X s) -> newton_step K a rs s = Ok (st, Rm, rs') -> pop N st /\ length Rm = N.
Proof using.
  intros Hc [HN HX] H. unfold newton_step in H. inv_do H d Ed. destruct d as [[g h] rs2]. destruct h as [Hs|]; [|discriminate]. inv_do H sr Es. injection H as <- <- <-.
  unfold dpn_step in Es. rewrite points_length, HN in Es. destruct (length Hs =? N)%nat eqn:EL; [|discriminate]. apply Nat.eqb_eq in EL. inv_do Es rs0 Er. injection Es as <-. cbn [fst snd].
  assert (L : length rs0 = N). { apply mapM_length in Er. rewrite combine_length, points_length in Er. lia. }
  split; [|rewrite map_length; auto]. split; [rewrite map_length; auto|]. intros x Hx. apply in_map_iff in Hx as (r & <- & Hr).
  destruct (mapM_in _ _ _ _ Er Hr) as (hp & _ & Ep). apply dpn_point_length in Ep. rewrite Ep. unfold dim. destruct (is_constrained K) eqn:Ec; auto. rewrite (unconstrained_dim Hc Ec). lia.
Qed.

Lemma dpn_box_length xl xu (x st : list R) : length st = length x -> length (fst (dpn_box xl xu x st)) = length x.
Proof using.
  intros H. unfold dpn_box. destruct (is_fzero _); cbn [fst]; auto. rewrite zip_with_length; auto. unfold normal. rewrite map_length, seq_length. auto.
Qed.
Lemma primal_row (x : list R) : length x = dim -> length (firstn (c_nvar c) x) = dim_p K.
Proof using. intros H. rewrite firstn_length, H. unfold dim, dim_p. fold c. lia. Qed.
Lemma handle_box_pop s st bx N : pop N (s_X s) -> pop N st -> handle_box K s st = Ok bx -> pop N (fst bx) /\ length (snd bx) = N /\
  forall i, (i < N)%nat -> box_row K (nth i (primal_of K s) []) (nth i st []) = Ok (nth i (fst bx) [], nth i (snd bx) 1).
Proof using.
  intros [HN HX] [HN' HS] H. unfold handle_box in H. inv_do H rs E. injection H as <-. cbn [fst snd].
  assert (LP : length (primal_of K s) = N) by (unfold primal_of, primal; rewrite map_length; auto).
  assert (L : length rs = N). { apply mapM_length in E. rewrite combine_length in E. lia. }
  rewrite !map_length. split; [|split; auto].
  - split; [rewrite map_length; auto|]. intros x Hx. apply in_map_iff in Hx as (r & <- & Hr). destruct (mapM_in _ _ _ _ E Hr) as ([y t] & Hin & Er). cbn [fst snd] in Er.
    pose proof (in_combine_l _ _ _ _ Hin) as Hy. pose proof (HS t (in_combine_r _ _ _ _ Hin)) as Ht. unfold primal_of, primal in Hy. apply in_map_iff in Hy as (x0 & <- & Hx0). apply HX in Hx0.
    unfold box_row in Er. inv_do Er m Em. injection Er as <-. cbn [fst]. fold c. rewrite app_length, dpn_box_length, skipn_length, Ht. rewrite (primal_row x0 Hx0). unfold dim. lia.
    rewrite firstn_length, Ht, (primal_row x0 Hx0). unfold dim. lia.
  - intros i Hi. assert (Hc : nth_error (combine (primal_of K s) st) i = Some (nth i (primal_of K s) [], nth i st [])).
    { rewrite (nth_error_nth' _ ([], [])) by (rewrite combine_length; lia). rewrite combine_nth by lia. auto. }
    assert (Hr : nth_error rs i = Some (nth i rs ([], 1))) by (apply nth_error_nth'; lia).
    pose proof (mapM_nth _ _ _ _ _ _ E Hc Hr) as Hf. cbn [fst snd] in Hf. rewrite Hf. f_equal.
    rewrite (surjective_pairing (nth i rs ([], 1))). f_equal.
    + rewrite (nth_map_default _ _ _ ([], 1)) by lia. auto.
    + rewrite (nth_map_default _ _ _ ([], 1)) by lia. auto.
Qed.

Lemma search_bounds {W} (phi : W -> R -> res (R * W)) n : forall phi0 s2 p2 s1 w r, 0 <= s1 -> search phi n phi0 s2 p2 s1 w = Ok r -> 0 <= fst r <= s1.
Proof using.
  induction n as [|n IH]; simpl; intros phi0 s2 p2 s1 w r Hs H. injection H as <-. cbn [fst]. lra.
  inv_do H pw E. destruct (armijo _ _ _ _). injection H as <-. cbn [fst]. lra.
  pose proof (next_step_bounds s2 s1 (Fin p2) (Fin (fst pw)) Hs) as B. apply IH in H; [|lra]. lra.
Qed.
Lemma search_all_spec a s st Rm mx is : forall w r, search_all K a s st Rm mx is w = Ok r -> length (fst r) = length is /\
  forall j, (j < length is)%nat -> exists m, nth_error mx (nth j is 0%nat) = Some m /\ (0 <= m -> 0 <= nth j (fst r) 0 <= m).
Proof using.
  induction is as [|i is IH]; cbn [search_all length]; intros w r H. injection H as <-. cbn. split; auto. intros; lia.
  inv_do H m Em. inv_do H Ri ERi. inv_do H r1 E1. inv_do H rs Ers. injection H as <-. cbn [fst]. destruct (IH _ _ Ers) as [L HI]. split; [simpl; auto|].
  intros [|j] Hj; [|simpl; apply HI; lia]. simpl. exists m. split. apply nth_res_ok in Em. auto. intros Hm. apply (search_bounds _ _ _ _ _ _ _ _ Hm E1).
Qed.
Lemma line_search_length a rs s st Rm mx r N : pop N (s_X s) -> pop N st -> line_search K a rs s st Rm mx = Ok r -> length (fst r) = N.
Proof using.
  intros [HN _] [HN' _] H. unfold line_search in H. destruct (forallb _ st). injection H as <-. cbn. rewrite map_length; auto.
  apply search_all_spec in H as [L _]. rewrite L, seq_length. auto.
Qed.
(** unless the whole step is negligible, each step size is between 0 and the maximal one *)
Lemma line_search_bounds a rs s st Rm mx r N : length (s_X s) = N -> length mx = N -> forallb (forallb close_to_0) st = false ->
  line_search K a rs s st Rm mx = Ok r -> forall i, (i < N)%nat -> 0 <= nth i mx 1 -> 0 <= nth i (fst r) 0 <= nth i mx 1.
Proof using.
  intros HN HM Hz H i Hi Hm. unfold line_search in H. rewrite Hz in H. apply search_all_spec in H as [L HI]. rewrite seq_length in *.
  destruct (HI i ltac:(lia)) as (m & Em & B). rewrite seq_nth in Em by lia. simpl in Em. rewrite (nth_error_nth' mx 1) in Em by lia. injection Em as <-. auto.
Qed.

Lemma moved_length X size st N : length X = N -> length size = N -> length st = N -> length (moved X size st) = N.
Proof using. intros. unfold moved. rewrite zip_with_length; auto. rewrite combine_length. lia. Qed.
Lemma moved_row X size st N i : length X = N -> length size = N -> length st = N -> (i < N)%nat ->
  nth i (moved X size st) [] = zip_with (fun u v => u + nth i size 0 * v) (nth i X []) (nth i st []).
Proof using.
  intros H1 H2 H3 Hi. unfold moved. rewrite (zip_with_nth _ _ _ _ [] (0, [])) by (try rewrite combine_length; lia). rewrite combine_nth by lia. auto.
Qed.
Lemma moved_pop X size st N : pop N X -> pop N st -> length size = N -> pop N (moved X size st).
Proof using.
  intros [HN HX] [HN' HS] HL. split. apply moved_length; auto. intros x Hx. apply (In_nth _ _ []) in Hx as (i & Hi & <-). rewrite (moved_length _ _ _ N) in Hi by auto.
  rewrite (moved_row _ _ _ N) by auto. pose proof (HX _ (nth_In _ [] (eq_ind_r (fun n => i < n)%nat Hi HN))) as A. pose proof (HS _ (nth_In _ [] (eq_ind_r (fun n => i < n)%nat Hi HN'))) as B.
  rewrite zip_with_length; congruence.
Qed.

(** all intermediate results of an iteration *)
Record pieces : Type := mkPieces {
  q_gd : R; q_igd : R; q_rs1 : refset; q_rs2 : refset; q_lg : list (nat * list R); q_act : indicator;
  q_st0 : list (list R); q_R : list (list R); q_rs3 : refset;
  q_st : list (list R); q_mx : list R; q_size : list R; q_rs4 : refset; q_nj : nat; q_s : pstate
}.
Lemma iteration_pieces o o' : newton_iteration K o = Ok o' -> exists q : pieces,
  indicator_values K (d_ref o) (s_Y (d_state o)) = Ok (q_gd q, q_igd q, q_rs1 q) /\
  dpn_shift (d_iter o) (length (s_X (d_state o))) (s_Y (d_state o)) (map (firstn (dim_p K)) (d_step o)) (q_rs1 q) = Ok (q_rs2 q, q_lg q) /\
  q_act q = active_indicator (k_type K) (q_gd q) (q_igd q) /\
  newton_step K (q_act q) (q_rs2 q) (d_state o) = Ok (q_st0 q, q_R q, q_rs3 q) /\
  handle_box K (d_state o) (q_st0 q) = Ok (q_st q, q_mx q) /\
  line_search K (q_act q) (q_rs3 q) (d_state o) (q_st q) (q_R q) (q_mx q) = Ok (q_size q, (q_rs4 q, q_nj q)) /\
  upd K (set_njac (d_state o) (q_nj q)) (moved (s_X (d_state o)) (q_size q) (q_st q)) = Ok (q_s q) /\
  o' = mkDpn (q_s q) (q_rs4 q) (d_iter o) (q_gd q) (q_igd q) (q_st q) (q_R q) (q_size q)
         (h_X o) (h_Y o) (h_val o) (h_R o) (h_med o ++ q_lg q).
Proof using.
  intros H. unfold newton_iteration in H. inv_do H v Ev. destruct v as [[gd igd] rs1]. inv_do H sh Esh. destruct sh as [rs2 lg]. inv_do H ns Ens. destruct ns as [[st0 Rm] rs3]. cbn [fst snd] in *.
  inv_do H bx Ebx. destruct bx as [st mx]. inv_do H ls Els. destruct ls as [size [rs4 nj]]. cbn [fst snd] in *. inv_do H s' Es. injection H as <-.
  exists (mkPieces gd igd rs1 rs2 lg (active_indicator (k_type K) gd igd) st0 Rm rs3 st mx size rs4 nj s'). cbn. auto 12.
Qed.

Hypothesis Hrw : rowwise_all c.
Hypothesis Hct : counts_ok.
(** the state holds the evaluations at its population *)
Definition evaluated (s : pstate) : Prop := exists s0, upd K s0 (s_X s) = Ok s.
Lemma upd_X s0 X s : upd K s0 X = Ok s -> s_X s = X.
Proof using.
  unfold upd, update. intros H. inv_do H Y E1. inv_do H J E2. inv_do H CA E3. inv_do H D E4. inv_do H Hs E5. injection H as <-. auto.
Qed.
Lemma upd_evaluated s0 X s : upd K s0 X = Ok s -> evaluated s.
Proof using. intros H. exists s0. rewrite (upd_X _ _ _ H). auto. Qed.
Lemma eval_Y s : s_X s <> [] -> evaluated s -> s_Y s = map (cb_point (c_func c)) (primal_of K s).
Proof using Hrw.
  intros HX [s0 H]. unfold upd in H. fold c in H. rewrite (update_rows _ _ c Hrw) in H by auto. destruct (forallb _ _); [|discriminate].
  pose proof (f_equal (fun r => match r with Ok s => s_Y s | _ => [] end) H) as E. cbn in E. rewrite <- E. unfold primal_of, primal. fold c. rewrite map_map. reflexivity.
Qed.

Lemma iteration_pop o o' N : pop N (s_X (d_state o)) -> newton_iteration K o = Ok o' ->
  pop N (s_X (d_state o')) /\ evaluated (d_state o') /\ length (d_step o') = N /\ length (d_R o') = N /\ length (d_size o') = N.
Proof using Hct.
  intros HP H. apply iteration_pieces in H as (q & E1 & E2 & E3 & E4 & E5 & E6 & E7 & ->). cbn.
  destruct (newton_step_pop _ _ _ _ _ _ N Hct HP E4) as [P1 L1]. destruct (handle_box_pop _ _ _ N HP P1 E5) as (P2 & L2 & _). cbn [fst snd] in *.
  pose proof (line_search_length _ _ _ _ _ _ _ N HP P2 E6) as L3. cbn [fst] in L3.
  rewrite (upd_X _ _ _ E7). split; [|split; [|split; [|split]]]; auto. apply moved_pop; auto. apply (upd_evaluated _ _ _ E7). apply P2.
Qed.
End Dpn.
