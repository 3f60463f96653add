(** The structure of an iteration of HVN. *)
From Coq Require Import List Arith Bool Reals ZArith Lia Lra Permutation.
From Verif Require Import Num Exn ListAux MiscModel StateModel StateSpec StateProof NewtonModel NewtonProof NewtonBox NewtonPop RefModel HVTop HVXModel HVXProof StepModel StepSpec StepProof StepTop StepMain StepIter StepLast ShiftModel IterModel IterSpec IterProof IterMain IterTotal HvnModel HvnSpec HvnProof.
From Verif Require PropsNewton.
Import ListNotations.
Open Scope R_scope.

Lemma put_rows_inv {A} (M : list A) idx rows M' : put_rows M idx rows = Ok M' -> length idx = length rows /\ length M' = length M.
Proof.
  unfold put_rows. destruct (Nat.eqb_spec (length idx) (length rows)) as [E|]; [|discriminate]. destruct (forallb _ _); [|discriminate]. intros H. injection H as <-. split; auto.
  generalize (combine idx rows). intros l. revert M. induction l as [|a l IH]; intros M; simpl; auto. rewrite IH. apply set_row_length'.
Qed.
Lemma layers_loop_inv f g ls : forall st Rm size r, layers_loop f g ls st Rm size = Ok r ->
  forall idx, In idx ls -> exists s q a, layer_result f g idx s q a.
Proof.
  induction ls as [|l ls IH]; intros st Rm size r H idx Hin; [contradiction|]. cbn [layers_loop] in H.
  inv_do H sr E1. inv_do H st' E2. inv_do H Rm' E3. inv_do H a E4. inv_do H size' E5. destruct Hin as [<-|Hin]; [|eapply IH; eauto].
  apply put_rows_inv in E2 as [L2 _]. apply put_rows_inv in E3 as [L3 _]. exists (fst sr), (snd sr), a. unfold layer_result. rewrite E1. destruct sr; cbn [fst snd] in *. auto.
Qed.
(** the first layer that fails *)
Lemma layers_loop_error f g ls e N : forall st Rm size, length st = N -> length Rm = N -> length size = N ->
  (forall idx, In idx ls -> NoDup idx /\ forall i, In i idx -> (i < N)%nat) ->
  (forall idx sr, In idx ls -> f idx = Ok sr -> length (fst sr) = length idx /\ length (snd sr) = length idx) ->
  layers_loop f g ls st Rm size = Exn e ->
  exists idx, In idx ls /\ (f idx = Exn e \/ exists sr, f idx = Ok sr /\ g idx (fst sr) (snd sr) = Exn e).
Proof.
  induction ls as [|l ls IH]; intros st Rm size L1 L2 L3 Hb Hl H; [discriminate|]. cbn [layers_loop] in H.
  destruct (f l) as [sr|e'] eqn:E1; cbn [bind] in H; [|injection H as ->; exists l; simpl; auto].
  destruct (Hl l sr (or_introl eq_refl) E1) as [H1 H2]. destruct (Hb l (or_introl eq_refl)) as [B1 B2].
  destruct (put_rows_spec [] st l (fst sr)) as (st' & E2 & M2 & _); auto; [rewrite L1; auto|]. rewrite E2 in H. cbn [bind] in H.
  destruct (put_rows_spec [] Rm l (snd sr)) as (Rm' & E3 & M3 & _); auto; [rewrite L2; auto|]. rewrite E3 in H. cbn [bind] in H.
  destruct (g l (fst sr) (snd sr)) as [a|e'] eqn:E4; cbn [bind] in H; [|injection H as ->; exists l; split; [simpl; auto|right; exists sr; auto]].
  destruct (put_rows_spec 0 size l (map (fun _ => a) l)) as (size' & E5 & M5 & _); auto; [rewrite map_length; auto|rewrite L3; auto|]. rewrite E5 in H. cbn [bind] in H.
  destruct (IH st' Rm' size') as (idx & Hi & Hx); auto; try congruence.
  { intros i Hi. apply Hb. simpl; auto. } { intros i sr' Hi. apply Hl. simpl; auto. } exists idx. simpl; auto.
Qed.

Section Hvn.
Variable V : hvn_cfg.
Hypothesis P : hvn_posed V.
Let K := as_dpn V.
Let c := v_prob V.
Let W : well_posed K := hp_problem V P.

Lemma feasible_length s N X : pop K N X -> holds K s X -> length (is_feasible c s) = N.
Proof using.
  intros [LX _] H. unfold holds, data in H. injection H as _ _ _ E4 E5 _ _. unfold is_feasible. rewrite map_length, combine_length, E4, E5, !map_length. lia.
Qed.
(** the layers partition the population *)
Lemma layers_total s N X : pop K N X -> holds K s X -> exists d, hvn_layers (is_feasible c s) (s_Y s) = Ok d /\
  (forall idx, In idx (map snd d) -> NoDup idx /\ forall i, In i idx -> (i < N)%nat) /\
  NoDup (concat (map snd d)) /\ forall i, (i < N)%nat -> In i (concat (map snd d)).
Proof using P.
  intros HP H. destruct (pop_Y K W N s X HP H) as [LY RY].
  assert (LF : length (is_feasible c s) = length (s_Y s)) by (rewrite LY; apply (feasible_length s N X); auto).
  destruct (hvn_layers_spec (is_feasible c s) (s_Y s) (v_nobj V) LF (hp_obj V P) RY) as (d & E & H1 & H2 & _).
  destruct (hvn_layers_keys (is_feasible c s) (s_Y s) (v_nobj V) d LF (hp_obj V P) RY E) as (q & Hq).
  destruct (layers_flat d (length (s_Y s)) H1 ltac:(rewrite Hq; apply seq_NoDup) H2) as [F1 F2].
  exists d. rewrite LY in *. split; auto. split; auto. intros idx Hi. apply in_map_iff in Hi as ([k l] & <- & Hi). apply (H1 k l Hi).
Qed.
(** the population without duplicates *)
Lemma unique_total s N X : (0 < N)%nat -> pop K N X -> holds K s X -> exists idx t, check_population (v_order V) (veps V) (vprimal V s) = idx /\
  unique_state V s = Ok t /\ thinned (vprimal V s) idx /\ idx <> [] /\ holds K t (rows_at [] X idx) /\ pop K (length idx) (rows_at [] X idx) /\ n_jac t = n_jac s /\ (length idx <= N)%nat.
Proof using P.
  intros HN HP H. destruct (vprimal_rows V N X s HP H) as [LP _]. set (idx := check_population (v_order V) (veps V) (vprimal V s)).
  destruct (PropsNewton.C32_duplicates (v_order V) (fun i j => dist2 (nth i (vprimal V s) []) (nth j (vprimal V s) [])) (veps V) (length (vprimal V s)) (hp_order V P) (fun i j => dist2_sym _ _)) as (H1 & H2 & H3 & H4 & H5).
  change (kept _ _ _ _) with idx in H1, H2, H3, H4, H5.
  assert (Hne : idx <> []) by (apply H5; lia).
  destruct (getitem_holds V P s X N idx HP H Hne) as (t & E & Ht & Pt & Hn). { intros i Hi. specialize (H2 i Hi). lia. }
  exists idx, t. split; auto. split; auto. split; [|split; auto; split; auto; split; auto; split; auto].
  - assert (Hab : forall i j, Rabs (dist2 (nth i (vprimal V s) []) (nth j (vprimal V s) [])) = dist2 (nth i (vprimal V s) []) (nth j (vprimal V s) [])) by (intros; apply Rabs_right, Rle_ge, sqrt_pos).
    split; auto. split; auto. split. intros i j Hi Hj Hij. specialize (H3 i j Hi Hj Hij). cbv beta in H3. rewrite Hab in H3. lra.
    intros j Hj Hnj. destruct (H4 j Hj Hnj) as (i & Hi & _ & Hd). cbv beta in Hd. rewrite Hab in Hd. eauto.
  - assert (Hs : incl idx (seq 0 N)) by (intros i Hi; apply in_seq; specialize (H2 i Hi); lia). pose proof (NoDup_incl_length H1 Hs) as L. rewrite seq_length in L. auto.
Qed.

(** everything about one successful iteration.  [S]: the population without duplicates, [d]: its layers *)
Record pieces (o o' : hvn) (idx : list nat) (s : pstate) (d : list (nat * list nat)) : Prop := {
  q_thin : thinned (vprimal V (n_state o)) idx;
  q_idx : idx <> [];
  q_uniq : unique_state V (n_state o) = Ok s;
  q_holds : holds K s (rows_at [] (s_X (n_state o)) idx);
  q_pop : pop K (length idx) (rows_at [] (s_X (n_state o)) idx);
  q_val : exists v, hv_value V (s_Y s) = Ok v /\ n_value o' = Some v;
  q_layers : hvn_layers (is_feasible c s) (s_Y s) = Ok d;
  q_part : (forall l, In l (map snd d) -> NoDup l /\ forall i, In i l -> (i < length idx)%nat) /\ NoDup (concat (map snd d)) /\ forall i, (i < length idx)%nat -> In i (concat (map snd d));
  q_step : matrix (length idx) (vdim V) (n_step o') /\ matrix (length idx) (vdim V) (n_R o') /\ length (n_size o') = length idx;
  q_layer : forall l, In l (map snd d) -> exists t st Rm a, getitem s l = Ok t /\ holds K t (rows_at [] (s_X s) l) /\ pop K (length l) (rows_at [] (s_X s) l) /\
    vstep V t = Ok (st, Rm) /\ vlayer_size V s l st Rm = Ok a /\ matrix (length l) (vdim V) st /\ matrix (length l) (vdim V) Rm /\
    rows_at [] (n_step o') l = st /\ rows_at [] (n_R o') l = Rm /\ forall i, In i l -> nth i (n_size o') 0 = a;
  q_upd : vupd V s (moved (s_X s) (n_size o') (n_step o')) = Ok (n_state o');
  q_new : holds K (n_state o') (moved (s_X s) (n_size o') (n_step o')) /\ pop K (length idx) (moved (s_X s) (n_size o') (n_step o'));
  q_rest : n_iter o' = n_iter o /\ g_X o' = g_X o /\ g_Y o' = g_Y o /\ g_val o' = g_val o /\ g_R o' = g_R o;
  q_len : (length idx <= length (s_X (n_state o)))%nat;
  q_njac : n_jac (n_state o') = (n_jac (n_state o) + length idx)%nat
}.
Lemma rows_at_eq {A} (dflt : A) M l rows : length rows = length l -> (forall j, (j < length l)%nat -> nth (nth j l 0%nat) M dflt = nth j rows dflt) -> rows_at dflt M l = rows.
Proof using.
  intros L H. apply (nth_ext _ _ dflt dflt). rewrite rows_at_length; auto. rewrite rows_at_length. intros j Hj. rewrite rows_at_nth by auto. auto.
Qed.
Lemma rows_at_nonempty {A} (l : list A) idx i : In i idx -> idx <> (@nil nat).
Proof using. intros H E. rewrite E in H. auto. Qed.
Lemma layer_nonempty (l : list nat) : l = [] \/ l <> [].
Proof using. destruct l; auto. right. congruence. Qed.
(** the empty layer has no members, so nothing is claimed about it; layers are not empty *)
Lemma layers_nonempty s N X d : pop K N X -> holds K s X -> (0 < N)%nat -> hvn_layers (is_feasible c s) (s_Y s) = Ok d -> forall l, In l (map snd d) -> l <> [].
Proof using P.
  intros HP H HN E l Hl. destruct (pop_Y K W N s X HP H) as [LY RY].
  assert (LF : length (is_feasible c s) = length (s_Y s)) by (rewrite LY; apply (feasible_length s N X); auto).
  unfold hvn_layers in E. set (fi := positions_of true (is_feasible c s)) in *. set (ii := positions_of false (is_feasible c s)) in *.
  destruct fi as [|f0 fr] eqn:Ef. { injection E as <-. simpl in Hl. destruct Hl as [<-|[]]. rewrite LY. destruct N; [lia|simpl; congruence]. }
  rewrite <- Ef in *. inv_do E dd Ed. inv_do E l0 E0. injection E as <-.
  assert (HPs : forall y, In y (map (fun i => nth i (s_Y s) []) fi) -> length y = v_nobj V).
  { intros y Hy. apply in_map_iff in Hy as (i & <- & Hi). apply RY, nth_In. unfold fi in Hi. apply positions_of_true in Hi.
    destruct (Nat.lt_ge_cases i (length (is_feasible c s))) as [|Hge]; [lia|]. rewrite nth_overflow in Hi by auto. discriminate. }
  assert (HPne : map (fun i => nth i (s_Y s) []) fi <> []) by (rewrite Ef; simpl; congruence).
  destruct (NDSTop.nds_idx_correct _ (v_nobj V) HPne (hp_obj V P) HPs) as (dd' & Ed' & _ & Hd & _). assert (dd' = dd) by congruence. subst dd'.
  set (d' := map _ dd) in *.
  assert (Hnon : forall k l, In (k, l) d' -> l <> []).
  { intros k l' Hk. unfold d' in Hk. apply in_map_iff in Hk as ([k0 l1] & E1 & Hk). cbn [fst snd] in E1. injection E1 as <- <-. destruct (Hd k0 l1 Hk) as (_ & Hl1 & _). destruct l1; simpl; congruence. }
  assert (Hl0 : l0 <> []). { clear -E0 Hnon. induction d' as [|[k l] d' IH]; simpl in E0; [discriminate|]. destruct (k =? 0)%nat. injection E0 as <-. apply (Hnon k). simpl; auto. apply IH; auto. intros k1 l1 H1. apply (Hnon k1). simpl; auto. }
  apply in_map_iff in Hl as ([k l'] & <- & Hl). cbn [snd]. unfold put0 in Hl. apply in_map_iff in Hl as ([k0 l1] & E1 & Hk). cbn [fst] in E1. destruct (k0 =? 0)%nat; injection E1 as <- <-; [|apply (Hnon _ _ Hk)].
  intros E1. destruct l0 as [|a l0]; [congruence|]. assert (Ha : In a (sort_nat ((a :: l0) ++ ii))) by (apply (Permutation_in _ (sort_nat_perm _)); simpl; auto). rewrite E1 in Ha. auto.
Qed.

Lemma iteration_pieces o o' N : (0 < N)%nat -> pop K N (s_X (n_state o)) -> holds K (n_state o) (s_X (n_state o)) -> hvn_iteration V o = Ok o' ->
  exists idx s d, pieces o o' idx s d.
Proof using P.
  intros HN HP H E. unfold hvn_iteration in E. inv_do E s Es. inv_do E v Ev. inv_do E d Ed. inv_do E r Er. destruct r as [[st Rm] size]. inv_do E s' Es'. injection E as <-.
  destruct (unique_total (n_state o) N _ HN HP H) as (idx & t & Ei & Et & Ht & Hne & Hh & Hp & Hnj & Hl). assert (t = s) by congruence. subst t. clear Et.
  assert (HM : (0 < length idx)%nat) by (destruct idx; [congruence|simpl; lia]).
  destruct (layers_total s (length idx) _ Hp Hh) as (d' & Ed' & D1 & D2 & D3). assert (d' = d) by (unfold c in Ed'; congruence). subst d'.
  assert (EX : s_X s = rows_at [] (s_X (n_state o)) idx) by (apply (holds_X K); auto).
  assert (LX : length (s_X s) = length idx) by (rewrite EX; apply rows_at_length).
  pose proof (layers_loop_inv _ _ _ _ _ _ _ Er) as Hex.
  assert (HLy : forall l, In l (map snd d) -> exists t st Rm a, getitem s l = Ok t /\ holds K t (rows_at [] (s_X s) l) /\ pop K (length l) (rows_at [] (s_X s) l) /\
    vstep V t = Ok (st, Rm) /\ vlayer_size V s l st Rm = Ok a /\ matrix (length l) (vdim V) st /\ matrix (length l) (vdim V) Rm /\ layer_result (vlayer_step V s) (vlayer_size V s) l st Rm a).
  { intros l Hin. destruct (Hex l Hin) as (st1 & q & a & R1 & R2 & R3 & R4). destruct (D1 l Hin) as [_ Hb].
    assert (Hln : l <> []) by (apply (layers_nonempty s (length idx) _ d Hp Hh HM Ed l Hin)).
    destruct (getitem_holds V P s _ _ l Hp Hh Hln Hb) as (t & E1 & H1 & P1 & _). unfold vlayer_step in R1. rewrite E1 in R1. cbn [bind] in R1.
    assert (HLn : (0 < length l)%nat) by (destruct l; [congruence|simpl; lia]).
    assert (Hd : exists gh, hv_derivatives V t = Ok gh) by (unfold vstep in R1; destruct (hv_derivatives V t) as [gh|]; [eauto|discriminate]). destruct Hd as [[g Hs] Hd].
    destruct (vstep_total V P t (length l) _ g Hs HLn P1 H1 Hd) as (st2 & Rm2 & E2 & M1 & M2). assert (Eq : (st2, Rm2) = (st1, q)) by congruence. injection Eq as -> ->.
    exists t, st1, q, a. rewrite EX. repeat (split; auto). unfold layer_result, vlayer_step. rewrite E1. auto. }
  destruct (layers_loop_spec (vlayer_step V s) (vlayer_size V s) (length idx) (map snd d) (map (fun _ => repeat 0 (vdim V)) (s_X s)) (map (fun _ => repeat 0 (vdim V)) (s_X s)) (map (fun _ => 1) (s_X s))) as (st2 & Rm2 & size2 & E2 & M1 & M2 & M3 & HA & _); try (rewrite map_length; auto); auto.
  { intros l Hin. destruct (D1 l Hin) as [B1 B2]. split; [|split]; auto. }
  assert (Eq : (st2, Rm2, size2) = (st, Rm, size)) by congruence. injection Eq as -> -> ->.
  assert (Hrow : forall i, (i < length idx)%nat -> length (nth i st []) = vdim V /\ length (nth i Rm []) = vdim V).
  { intros i Hi. specialize (D3 i Hi). apply in_concat in D3 as (l & Hin & Hil). apply (In_nth _ _ 0%nat) in Hil as (j & Hj & <-). destruct (HLy l Hin) as (t & st1 & q & a & _ & _ & _ & _ & _ & Q1 & Q2 & HR).
    destruct (HA l st1 q a j Hin HR Hj) as (-> & -> & _). split; [apply Q1|apply Q2]; apply nth_In; [rewrite (proj1 Q1)|rewrite (proj1 Q2)]; auto. }
  assert (MS : matrix (length idx) (vdim V) st). { split; auto. intros r Hr. apply (In_nth _ _ []) in Hr as (i & Hi & <-). apply Hrow. lia. }
  assert (MR : matrix (length idx) (vdim V) Rm). { split; auto. intros r Hr. apply (In_nth _ _ []) in Hr as (i & Hi & <-). apply Hrow. lia. }
  assert (PM : pop K (length idx) (moved (s_X s) size st)). { apply moved_pop; auto. rewrite EX. auto. }
  exists idx, s, d. split; cbn [n_state n_iter n_value n_step n_R n_size g_X g_Y g_val g_R]; auto.
  - eauto.
  - intros l Hin. destruct (HLy l Hin) as (t & st1 & q & a & Q1 & Q2 & Q3 & Q4 & Q5 & Q6 & Q7 & HR). exists t, st1, q, a.
    do 7 (split; [assumption|]). split; [|split].
    + apply rows_at_eq. apply Q6. intros j Hj. apply (HA l st1 q a j Hin HR Hj).
    + apply rows_at_eq. apply Q7. intros j Hj. apply (HA l st1 q a j Hin HR Hj).
    + intros i Hi. apply (In_nth _ _ 0%nat) in Hi as (j & Hj & <-). apply (HA l st1 q a j Hin HR Hj).
  - split; auto. apply (upd_holds K W s (length idx) _ s' HM PM). exact Es'.
  - rewrite (proj1 HP). auto.
  - change (vupd V) with (upd K) in Es'. apply (upd_njac K) in Es'. rewrite Es', Hnj. f_equal. apply PM.
Qed.
End Hvn.
