(** The statements about whole runs of HVN. *)
From Coq Require Import List Arith Bool Reals ZArith Lia Lra Psatz Permutation.
From Verif Require Import Num Exn ListAux NDSSpec HVModel HVSpec HVTheory HVTop HVDModel HVDSpec HVDProof HVXModel HVXProof HvnTwo HvnDef HvnLine HvnOpt.
From Verif Require Import MiscModel StateModel StateSpec StateProof NewtonModel NewtonProof NewtonBox NewtonPop RefModel StepModel StepSpec StepProof StepTop StepMain StepIter StepLast ShiftModel IterModel IterSpec IterProof IterMain IterTotal HvnModel HvnSpec HvnProof HvnMain HvnRun HvnHist HvnStill HvnEven.
From Verif Require PropsNewton PropsStep RefTop.
Import ListNotations.
Open Scope R_scope.

Section Hvn.
Variable V : hvn_cfg.
Hypothesis P : hvn_posed V.
Let K := as_dpn V.
Let c := v_prob V.
Let W : well_posed K := hp_problem V P.

(** * C120 *)
Lemma sound_Y o : sound V o -> s_Y (n_state o) = map (cb_point (c_func c)) (vprimal V (n_state o)) /\ (0 < length (s_X (n_state o)))%nat /\ (forall x, In x (vprimal V (n_state o)) -> length x = c_nvar c) /\ length (vprimal V (n_state o)) = length (s_X (n_state o)).
Proof using.
  intros (N & HN & HP & H). pose proof H as H'. unfold holds, data in H'. injection H' as E _ _ _ _ _. rewrite E at 1. unfold vprimal, primal. rewrite map_map. split. reflexivity.
  destruct HP as [LX HX]. split; [lia|]. split. apply (vprimal_rows V N _ _ (conj LX HX) H). apply map_length.
Qed.
Lemma objects_prev X0 l j o : hvn_objects V X0 l -> nth_error l (S j) = Some o -> exists p, nth_error l j = Some p.
Proof using.
  intros _ Hj. assert (j < length l)%nat. { assert (S j < length l)%nat by (apply nth_error_Some; congruence). lia. } destruct (nth_error l j) eqn:E; eauto. apply nth_error_None in E. lia.
Qed.
Lemma objects_pieces X0 l j o o' : hvn_input V X0 -> hvn_objects V X0 l -> nth_error l j = Some o -> nth_error l (S j) = Some o' ->
  sound V o /\ exists o1 idx s d, o' = hvn_log V o1 /\ pieces V o o1 idx s d.
Proof using P. intros HI HO H1 H2. destruct (objects_step V P X0 l j o o' HI HO H1 H2) as [S E]. split; auto. apply (iterate_pieces V P); auto. Qed.
Lemma objects_first X0 l o : hvn_objects V X0 l -> nth_error l 0 = Some o -> hvn_init V X0 = Ok o.
Proof using. destruct l as [|o0 l]; [intros []|]. intros [E _] H. injection H as <-. auto. Qed.
Lemma new_length o o1 idx s d : pieces V o o1 idx s d -> length (s_X (n_state o1)) = length idx.
Proof using. intros Q. destruct (q_new V _ _ _ _ _ Q) as [H [L _]]. rewrite (holds_X K _ _ H). auto. Qed.
Lemma objects_thinned X0 l j o o' : hvn_input V X0 -> hvn_objects V X0 l -> nth_error l j = Some o -> nth_error l (S j) = Some o' ->
  exists idx, thinned (vprimal V (n_state o)) idx /\ length (vprimal V (n_state o')) = length idx /\ length (n_step o') = length idx /\ length (n_size o') = length idx /\
    n_jac (n_state o') = (n_jac (n_state o) + length idx)%nat /\
    forall i k, (i < length idx)%nat -> (k < c_nvar c)%nat ->
      nth k (nth i (vprimal V (n_state o')) []) 0 = nth k (nth (nth i idx 0%nat) (vprimal V (n_state o)) []) 0 + nth i (n_size o') 0 * nth k (nth i (n_step o') []) 0.
Proof using P.
  intros HI HO H1 H2. destruct (objects_pieces X0 l j o o' HI HO H1 H2) as (S & o1 & idx & s & d & -> & Q). exists idx. cbn [hvn_log n_state n_step n_size].
  split. apply (q_thin V _ _ _ _ _ Q). pose proof (new_length _ _ _ _ _ Q) as LN. split. unfold vprimal, primal. rewrite map_length; auto.
  destruct (q_step V _ _ _ _ _ Q) as ((L1 & _) & _ & L3). split; auto. split; auto. split. apply (q_njac V _ _ _ _ _ Q).
  intros i k Hi Hk. destruct (new_row V _ _ _ _ _ i Q Hi) as (R1 & R2 & R3 & R4 & R5 & R6). rewrite (primal_nth V) by (auto; lia). rewrite (primal_nth V) by auto. rewrite R3, R1.
  rewrite R1 in R4. assert (k < vdim V)%nat by (unfold vdim, vdim_p; fold c; lia). rewrite (zip_with_nth _ _ _ _ 0 0) by lia. reflexivity.
Qed.
Lemma objects_population X0 l j o : hvn_input V X0 -> hvn_objects V X0 l -> nth_error l j = Some o ->
  (1 <= length (vprimal V (n_state o)) <= length X0)%nat /\ (forall x, In x (vprimal V (n_state o)) -> length x = c_nvar c) /\
  s_Y (n_state o) = map (cb_point (c_func c)) (vprimal V (n_state o)) /\ n_iter o = j.
Proof using P.
  intros HI HO Hj. assert (S : sound V o) by (apply (objects_sound V P X0 l HI HO); eapply nth_error_In; eauto). destruct (sound_Y o S) as (E1 & E2 & E3 & E4).
  assert (LE : (length (s_X (n_state o)) <= length X0)%nat).
  { clear S E1 E2 E3 E4. revert o Hj. induction j as [|j IH]; intros o Hj.
    - destruct (init_sound V P X0 o HI (objects_first _ _ _ HO Hj)) as (_ & -> & _). auto.
    - destruct (objects_prev _ _ _ _ HO Hj) as [p Hp]. specialize (IH p Hp). destruct (objects_pieces X0 l j p o HI HO Hp Hj) as (_ & o1 & idx & s & d & -> & Q). cbn [hvn_log n_state].
      rewrite (new_length _ _ _ _ _ Q). pose proof (q_len V _ _ _ _ _ Q). lia. }
  split; [lia|]. split; auto. split; auto. destruct l as [|o0 l]; [destruct HO|]. destruct HO as [E Ht]. destruct (trace_history V l o0 j o Ht Hj) as (H & _). rewrite H.
  unfold hvn_init in E. inv_do E s Es. injection E as <-. reflexivity.
Qed.
Lemma objects_history X0 l j o : hvn_objects V X0 l -> nth_error l j = Some o ->
  g_X o = map (fun q => vprimal V (n_state q)) (firstn j (tl l)) /\ g_Y o = map (fun q => s_Y (n_state q)) (firstn j (tl l)) /\
  g_val o = map n_value (firstn j (tl l)) /\ g_R o = map (fun q => median (map euclid (n_R q))) (firstn j (tl l)).
Proof using.
  intros HO Hj. destruct l as [|o0 l]; [destruct HO|]. destruct HO as [E Ht]. destruct (trace_history V l o0 j o Ht Hj) as (_ & H1 & H2 & H3 & H4). rewrite H1, H2, H3, H4.
  unfold hvn_init in E. inv_do E s Es. injection E as <-. cbn [g_X g_Y g_val g_R app tl]. repeat split; auto. apply map_ext. intros q. f_equal. apply map_ext. intros v. apply norm_euclid.
Qed.
Lemma run_objects X0 o0 fuel z r : hvn_init V X0 = Ok o0 -> hvn_run V fuel (Finite z) o0 = Ok r ->
  exists l, hvn_objects V X0 (o0 :: l) /\ o_state r = last l o0 /\ o_hist r = l /\ length l = Z.to_nat z /\ o_iter r = length l.
Proof using.
  intros E H. unfold hvn_run, fresh in H. apply run_trace in H as (l & Ht & -> & L). exists l. split; [split; auto|]. cbn [o_state o_hist o_iter]. split; auto. split; auto. split; auto. rewrite L. f_equal. lia.
Qed.

(** * C121 *)
Definition boxed (o : hvn) : Prop := forall i k, (i < length (s_X (n_state o)))%nat -> (k < c_nvar c)%nat -> nth k (v_xl V) 0 <= nth k (nth i (s_X (n_state o)) []) 0 <= nth k (v_xu V) 0.
Lemma init_boxed X0 o : hvn_input V X0 -> (forall k, (k < c_nvar c)%nat -> nth k (v_xl V) 0 <= nth k (v_xu V) 0) -> hvn_init V X0 = Ok o -> boxed o.
Proof using P.
  intros HI Hb E. assert (HP := init_pop V P X0 HI). destruct HI as [HN HX]. unfold hvn_init in E. inv_do E s Es. injection E as <-. intros i k. cbn [n_state].
  destruct (vupd_total V P init (length X0) _ HN HP) as (s' & Es' & Hh). rewrite Es in Es'. injection Es' as <-. rewrite (holds_X K _ _ Hh). rewrite map_length. intros Hi Hk. rewrite (nth_map_default _ _ _ []) by auto.
  pose proof (wp_xl K W) as Hl. pose proof (wp_xu K W) as Hu. cbn in Hl, Hu. assert (Lx : length (nth i X0 []) = c_nvar c) by (apply HX, nth_In; auto).
  fold c in Hl, Hu. destruct (clip_in_box (v_xl V) (v_xu V) (nth i X0 [])) as (B1 & B2 & B3); try lia. intros q Hq. apply Hb. lia.
  rewrite app_nth1 by lia. apply B3. lia.
Qed.
Lemma boxed_step o o1 idx s d : v_limit V = true -> pieces V o o1 idx s d -> boxed o -> boxed o1 /\
  forall i k, (i < length idx)%nat -> (k < c_nvar c)%nat -> let x := nth k (nth (nth i idx 0%nat) (s_X (n_state o)) []) 0 in let x' := nth k (nth i (s_X (n_state o1)) []) 0 in
    3 / 4 * (x - nth k (v_xl V) 0) <= x' - nth k (v_xl V) 0 /\ 3 / 4 * (nth k (v_xu V) 0 - x) <= nth k (v_xu V) 0 - x'.
Proof using P.
  intros HL Q HB. assert (G : forall i k, (i < length idx)%nat -> (k < c_nvar c)%nat -> let x := nth k (nth (nth i idx 0%nat) (s_X (n_state o)) []) 0 in let x' := nth k (nth i (s_X (n_state o1)) []) 0 in
    3 / 4 * (x - nth k (v_xl V) 0) <= x' - nth k (v_xl V) 0 /\ 3 / 4 * (nth k (v_xu V) 0 - x) <= nth k (v_xu V) 0 - x').
  { intros i k Hi Hk. destruct (new_row V _ _ _ _ _ i Q Hi) as (R1 & R2 & _). rewrite <- R1. apply (box_iteration V P o o1 idx s d i HL Q Hi); auto. intros q Hq. rewrite R1. apply HB; auto. }
  split; auto. intros i k Hi Hk. rewrite (new_length _ _ _ _ _ Q) in Hi. specialize (G i k Hi Hk). cbv zeta in G. destruct (new_row V _ _ _ _ _ i Q Hi) as (R1 & R2 & _). specialize (HB _ k R2 Hk). lra.
Qed.
Lemma objects_boxed X0 l : hvn_input V X0 -> (forall k, (k < c_nvar c)%nat -> nth k (v_xl V) 0 <= nth k (v_xu V) 0) -> v_limit V = true -> hvn_objects V X0 l -> forall j o, nth_error l j = Some o -> boxed o.
Proof using P.
  intros HI Hb HL HO. induction j as [|j IH]; intros o Hj. apply (init_boxed X0); auto. apply (objects_first _ _ _ HO Hj).
  destruct (objects_prev _ _ _ _ HO Hj) as [p Hp]. destruct (objects_pieces X0 l j p o HI HO Hp Hj) as (_ & o1 & idx & s & d & -> & Q). apply (boxed_step p o1 idx s d HL Q (IH p Hp)).
Qed.
Lemma objects_box_margin X0 l j o o' : hvn_input V X0 -> (forall k, (k < c_nvar c)%nat -> nth k (v_xl V) 0 <= nth k (v_xu V) 0) -> v_limit V = true -> hvn_objects V X0 l -> nth_error l j = Some o -> nth_error l (S j) = Some o' ->
  exists idx, thinned (vprimal V (n_state o)) idx /\ length (vprimal V (n_state o')) = length idx /\
    forall i k, (i < length idx)%nat -> (k < c_nvar c)%nat -> let x := nth k (nth (nth i idx 0%nat) (vprimal V (n_state o)) []) 0 in let x' := nth k (nth i (vprimal V (n_state o')) []) 0 in
    3 / 4 * (x - nth k (v_xl V) 0) <= x' - nth k (v_xl V) 0 /\ 3 / 4 * (nth k (v_xu V) 0 - x) <= nth k (v_xu V) 0 - x'.
Proof using P.
  intros HI Hb HL HO H1 H2. destruct (objects_pieces X0 l j o o' HI HO H1 H2) as (So & o1 & idx & s & d & -> & Q).
  destruct (boxed_step o o1 idx s d HL Q (objects_boxed X0 l HI Hb HL HO j o H1)) as [_ B]. exists idx. split. apply (q_thin V _ _ _ _ _ Q). pose proof (new_length _ _ _ _ _ Q) as Ln.
  destruct (sound_Y o So) as (_ & _ & _ & Lo). split. unfold vprimal, primal. rewrite map_length. exact Ln.
  intros i k Hi Hk. pose proof (proj1 (proj2 (q_thin V _ _ _ _ _ Q)) (nth i idx 0%nat) (nth_In _ _ Hi)) as Hi'. rewrite Lo in Hi'. specialize (B i k Hi Hk). cbn [hvn_log n_state]. unfold vprimal, primal. rewrite !(nth_map_default _ _ _ []) by (auto; lia). rewrite !nth_firstn_lt by auto. exact B.
Qed.
Lemma boxed_primal o x : sound V o -> boxed o -> In x (vprimal V (n_state o)) -> IterSpec.in_box (v_xl V) (v_xu V) x.
Proof using P.
  intros S HB Hx. destruct (sound_Y o S) as (_ & _ & Hl & LP). specialize (Hl x Hx). apply (In_nth _ _ []) in Hx as (i & Hi & <-). rewrite LP in Hi.
  pose proof (wp_xl K W) as H1. pose proof (wp_xu K W) as H2. cbn in H1, H2. fold c in H1, H2. split; [lia|]. split; [lia|]. intros k Hk. rewrite (primal_nth V) by (auto; unfold vdim_p; fold c; lia). apply HB; auto. lia.
Qed.

(** * layers *)
Lemma layer_iff s N X d k l : pop K N X -> holds K s X -> hvn_layers (is_feasible c s) (s_Y s) = Ok d -> In (k, l) d ->
  forall i, In i l <-> (i < N)%nat /\ in_layer (is_feasible c s) (s_Y s) i k.
Proof using P.
  intros HP H E Hin. destruct (pop_Y K W N s X HP H) as [LY RY].
  assert (LF : length (is_feasible c s) = length (s_Y s)) by (rewrite LY; apply (feasible_length V s N X); auto).
  destruct (hvn_layers_spec (is_feasible c s) (s_Y s) (v_nobj V) LF (hp_obj V P) RY) as (d' & E' & H1 & H2 & H3 & H4). rewrite E in E'. injection E' as <-.
  destruct (hvn_layers_keys (is_feasible c s) (s_Y s) (v_nobj V) d LF (hp_obj V P) RY E) as (q & Hq).
  assert (G : forall i k l, In (k, l) d -> In i l -> in_layer (is_feasible c s) (s_Y s) i k).
  { intros i k0 l0 A B. unfold in_layer. destruct (nth i (is_feasible c s) false) eqn:Ef. apply (H4 i k0 l0); auto. apply (H3 i k0 l0); auto. }
  assert (U : forall i k k', in_layer (is_feasible c s) (s_Y s) i k -> in_layer (is_feasible c s) (s_Y s) i k' -> k = k').
  { intros i k0 k1. unfold in_layer. destruct (nth i (is_feasible c s) false). intros [(c1 & A1 & <-) B1] [(c2 & A2 & <-) B2]. apply Nat.le_antisymm; auto. congruence. }
  intros i. split.
  - intros Hi. split. rewrite <- LY. apply (H1 k l Hin); auto. apply (G i k l); auto.
  - intros [Hi HL]. rewrite <- LY in Hi. destruct (H2 i Hi) as (k' & l' & A & B & _). pose proof (U i k k' HL (G i k' l' A B)). subst k'.
    assert (ND : NoDup (map fst d)) by (rewrite Hq; apply seq_NoDup). clear -ND Hin A B. induction d as [|[k0 l0] d IH]; [destruct Hin|]. cbn [map fst] in ND. inversion ND as [|? ? Hn ND']; subst.
    destruct Hin as [E1|H1], A as [E2|H2]; try congruence; auto.
    + exfalso. apply Hn. injection E1 as -> ->. apply in_map_iff. exists (k, l'). auto.
    + exfalso. apply Hn. injection E2 as -> ->. apply in_map_iff. exists (k, l). auto.
Qed.
(** the population after the removal of duplicates is evaluated *)
Lemma thin_data o o1 idx s d : sound V o -> pieces V o o1 idx s d -> s_Y s = rows_at [] (s_Y (n_state o)) idx /\ is_feasible c s = rows_at false (is_feasible c (n_state o)) idx.
Proof using.
  intros (N & HN & HP & H) Q. destruct (q_thin V _ _ _ _ _ Q) as (_ & Hlt & _). assert (Hlt' : forall i, In i idx -> (i < length (s_X (n_state o)))%nat). { intros i Hi. specialize (Hlt i Hi). unfold vprimal, primal in Hlt. rewrite map_length in Hlt. auto. }
  pose proof (q_holds V _ _ _ _ _ Q) as Hs. unfold holds, data in H, Hs. injection H as Y1 _ C1 A1 _ _. injection Hs as _ Y2 _ C2 A2 _ _.
  assert (CM : forall {A B C D} (f : A -> B) (g : A -> C) (h : B * C -> D) (l : list A), map h (combine (map f l) (map g l)) = map (fun a => h (f a, g a)) l) by (intros A B C D f g h l; induction l as [|u l IHl]; cbn [map combine]; [auto|rewrite IHl; auto]).
  assert (NR : forall {A B} (f : A -> B) (da : A) (db : B) l, (forall i, In i idx -> (i < length l)%nat) -> map f (rows_at da l idx) = rows_at db (map f l) idx).
  { intros A B f da db l Hl. unfold rows_at. rewrite map_map. apply map_ext_in. intros i Hi. rewrite (nth_map_default _ _ _ da) by auto. auto. }
  split. rewrite Y2, Y1. apply NR; auto. unfold is_feasible. rewrite C1, A1, C2, A2, !CM. apply NR; auto.
Qed.

(** * C122 *)
Lemma objects_value X0 l j o o' : hvn_input V X0 -> hvn_objects V X0 l -> nth_error l j = Some o -> nth_error l (S j) = Some o' -> argsort_ok (v_argsort V) ->
  exists idx, thinned (vprimal V (n_state o)) idx /\ length (vprimal V (n_state o')) = length idx /\
    (v_nobj V = 2%nat \/ hv_input (v_minf V) (rows_at [] (s_Y (n_state o)) idx) (v_ref V) -> exists v, n_value o' = Some v /\ is_hypervolume (rows_at [] (s_Y (n_state o)) idx) (v_ref V) v).
Proof using P.
  intros HI HO H1 H2 Har. destruct (objects_pieces X0 l j o o' HI HO H1 H2) as (S & o1 & idx & s & d & -> & Q). exists idx. cbn [hvn_log n_state n_value].
  split. apply (q_thin V _ _ _ _ _ Q). split. unfold vprimal, primal. rewrite map_length. apply (new_length _ _ _ _ _ Q).
  destruct (thin_data _ _ _ _ _ S Q) as [EY _]. rewrite <- EY. destruct (pop_Y K W _ s _ (q_pop V _ _ _ _ _ Q) (q_holds V _ _ _ _ _ Q)) as [LY RY].
  assert (RR : forall p, In p (s_Y s) -> length p = length (v_ref V)) by (intros p Hp; rewrite (hp_ref V P); apply RY; auto).
  destruct (q_val V _ _ _ _ _ Q) as (v & Ev & En). intros Hc. exists v. split; auto. unfold hv_value, compute in Ev. cbn in Ev.
  assert (E : hypervolume (v_minf V) (v_argsort V) (s_Y s) (v_ref V) = Ok (hv (length (v_ref V)) (co (v_ref V)) (map co (s_Y s)))).
  { destruct Hc as [Hc|Hc]. apply hv2_value; auto. rewrite (hp_ref V P); auto. intros p Hp. rewrite <- Hc. apply RY; auto. destruct Hc as (A1 & A2 & A3 & A4). apply hypervolume_correct; auto. }
  rewrite E in Ev. injection Ev as <-. apply hv_is_hypervolume. auto.
Qed.

(** * C121: stalled layers *)
Lemma in_some_layer o o1 idx s d i : pieces V o o1 idx s d -> (i < length idx)%nat -> exists k l, In (k, l) d /\ In l (map snd d) /\ In i l.
Proof using.
  intros Q Hi. destruct (q_part V _ _ _ _ _ Q) as (_ & _ & D). specialize (D i Hi). apply in_concat in D as (l & Hl & Hil). pose proof Hl as Hl'. apply in_map_iff in Hl as ([k l'] & <- & Hin). eauto.
Qed.
Lemma objects_stall X0 l j o o' : hvn_input V X0 -> hvn_objects V X0 l -> nth_error l j = Some o -> nth_error l (S j) = Some o' -> v_limit V = true ->
  exists idx, thinned (vprimal V (n_state o)) idx /\ length (vprimal V (n_state o')) = length idx /\
    forall m i i' k, (i < length idx)%nat -> (i' < length idx)%nat -> (k < c_nvar c)%nat ->
      in_layer (rows_at false (is_feasible c (n_state o)) idx) (rows_at [] (s_Y (n_state o)) idx) i m ->
      in_layer (rows_at false (is_feasible c (n_state o)) idx) (rows_at [] (s_Y (n_state o)) idx) i' m ->
      let x := nth k (nth (nth i idx 0%nat) (vprimal V (n_state o)) []) 0 in let t := nth k (nth i (n_step o') []) 0 in
      x = nth k (v_xl V) 0 /\ t < 0 \/ x = nth k (v_xu V) 0 /\ 0 < t ->
      nth i' (vprimal V (n_state o')) [] = nth (nth i' idx 0%nat) (vprimal V (n_state o)) [].
Proof using P.
  intros HI HO H1 H2 HL. destruct (objects_pieces X0 l j o o' HI HO H1 H2) as (S & o1 & idx & s & d & -> & Q). exists idx. cbn [hvn_log n_state n_step].
  split. apply (q_thin V _ _ _ _ _ Q). pose proof (new_length _ _ _ _ _ Q) as LN. split. unfold vprimal, primal. rewrite map_length; auto.
  intros m i i' k Hi Hi' Hk. destruct (thin_data _ _ _ _ _ S Q) as [<- <-]. intros A B. cbv zeta. intros Hb.
  destruct (in_some_layer _ _ _ _ _ i Q Hi) as (m' & ll & Hin & Hin' & Hil). pose proof (layer_iff s _ _ d m' ll (q_pop V _ _ _ _ _ Q) (q_holds V _ _ _ _ _ Q) (q_layers V _ _ _ _ _ Q) Hin) as Hiff.
  assert (m' = m).
  { pose proof (proj2 (proj1 (Hiff i) Hil)) as A'. unfold in_layer in A, A'. destruct (nth i (is_feasible c s) false). destruct A as [(c1 & A1 & <-) B1], A' as [(c2 & A2 & <-) B2]. apply Nat.le_antisymm; auto. congruence. }
  subst m'. assert (Hil' : In i' ll) by (apply Hiff; auto).
  destruct (new_row V _ _ _ _ _ i Q Hi) as (R1 & R2 & _). destruct (new_row V _ _ _ _ _ i' Q Hi') as (R1' & R2' & _).
  rewrite (primal_nth V) in Hb by auto. rewrite <- R1 in Hb. pose proof (stall_iteration V P o o1 idx s d ll i k HL Q Hin' Hil Hk Hb i' Hil') as E. rewrite R1' in E.
  unfold vprimal, primal. rewrite !(nth_map_default _ _ _ []) by (auto; lia). rewrite E. auto.
Qed.
Lemma objects_still X0 l j o o' : hvn_input V X0 -> hvn_objects V X0 l -> nth_error l j = Some o -> nth_error l (S j) = Some o' -> s_X (n_state o') = s_X (n_state o) ->
  forall j' p, (j < j')%nat -> nth_error l j' = Some p -> s_X (n_state p) = s_X (n_state o).
Proof using P.
  intros HI HO H1 H2 E j' p Hj Hp. induction Hj as [|j' Hj IH] in p, Hp |- *. congruence.
  assert (G : forall q, (j <= q)%nat -> forall u v, nth_error l q = Some u -> nth_error l (S q) = Some v -> s_X (n_state v) = s_X (n_state u)).
  { intros q Hq. induction Hq as [|q Hq IHq]; intros u v Hu Hv. congruence. destruct (objects_prev _ _ _ _ HO Hu) as [w Hw].
    destruct (objects_step V P X0 l q w u HI HO Hw Hu) as [Sw Ew]. destruct (objects_step V P X0 l (S q) u v HI HO Hu Hv) as [_ Eu]. apply (still_once V P w u v Sw Ew Eu). apply (IHq w u Hw Hu). }
  destruct (objects_prev _ _ _ _ HO Hp) as [q Hq]. rewrite (G j' ltac:(lia) q p Hq Hp). apply (IH q Hq).
Qed.

(** * C123 *)
Lemma objects_total X0 n : hvn_input V X0 -> hv_defined V -> v_limit V = false -> exists l, hvn_objects V X0 l /\ length l = S n.
Proof using P.
  intros HI Hd HL. destruct (init_total V P X0 HI) as (o & E). destruct (init_sound V P X0 o HI E) as [S _]. destruct (trace_total V P n Hd HL o S) as (l & Hl & Ht). exists (o :: l). split. split; auto. simpl; auto.
Qed.
Lemma run_returns X0 z fuel : hvn_input V X0 -> hv_defined V -> v_limit V = false -> (z <= Z.of_nat fuel)%Z -> exists o r, hvn_init V X0 = Ok o /\ hvn_run V fuel (Finite z) o = Ok r.
Proof using P.
  intros HI Hd HL Hz. destruct (init_total V P X0 HI) as (o & E). destruct (init_sound V P X0 o HI E) as [S _]. destruct (run_total V P Hd HL fuel o 0%nat z [] S ltac:(lia)) as (r & Er). exists o, r. split; auto.
Qed.
Lemma objects_error X0 l o e : hvn_input V X0 -> hvn_objects V X0 l -> hv_defined V -> In o l -> hvn_iterate V o = Exn e -> v_limit V = true /\ e = ValueError.
Proof using P.
  intros HI HO Hd Ho E. pose proof (objects_sound V P X0 l HI HO o Ho) as S. unfold hvn_iterate in E. destruct (hvn_iteration V o) as [o1|e'] eqn:E1; [discriminate|]. cbn [bind] in E. injection E as <-.
  destruct (iteration_error V P o e' S Hd E1) as (A & B & _). auto.
Qed.

(** * C124 *)
Lemma residual_same a b r : data a = data b -> residual_norm V a r -> residual_norm V b r.
Proof using.
  intros E (g & Rm & H1 & H2 & H3 & H4). exists g, Rm. rewrite <- (grad_same V a b E), <- (vpoints_same V a b g E). auto.
Qed.
Lemma armijo_cases r0 a p : armijo (/ 10 ^ 5) (Fin r0) a (Fin p) = true -> p <= (1 - / 10 ^ 5 * a) * r0 \/ near_eps (Fin r0) = true.
Proof using.
  unfold armijo. intros H. apply orb_true_iff in H as [H|H]; auto. left. unfold fmul, fle, rleb in H. destruct (Rle_dec _ _); [auto|discriminate].
Qed.
Lemma objects_merit X0 l j o o' : hvn_input V X0 -> hvn_objects V X0 l -> nth_error l j = Some o -> nth_error l (S j) = Some o' ->
  exists idx, thinned (vprimal V (n_state o)) idx /\ length (vprimal V (n_state o')) = length idx /\
    forall i, (i < length idx)%nat -> exists m ll, In i ll /\ NoDup ll /\
      (forall i', In i' ll <-> (i' < length idx)%nat /\ in_layer (rows_at false (is_feasible c (n_state o)) idx) (rows_at [] (s_Y (n_state o)) idx) i' m) /\
      let X := rows_at [] (rows_at [] (s_X (n_state o)) idx) ll in let X' := rows_at [] (s_X (n_state o')) ll in let st := rows_at [] (n_step o') ll in let a := nth i (n_size o') 0 in
      (forall i', In i' ll -> nth i' (n_size o') 0 = a) /\ moved_by a X st X' /\
      exists t r0 mx k, evaluated_at V t X /\ residual_norm V t r0 /\ 0 <= mx <= 1 /\ (v_limit V = false -> mx = 1) /\ (k <= 6)%nat /\ a = mx * (/ 2) ^ k /\
        (k = 6%nat \/ Rabs (r0 - eps_mach) <= / 10 ^ 8 + / 10 ^ 5 * eps_mach \/
         exists t' r', evaluated_at V t' X' /\ residual_norm V t' r' /\ r' <= (1 - / 10 ^ 5 * a) * r0).
Proof using P.
  intros HI HO H1 H2. destruct (objects_pieces X0 l j o o' HI HO H1 H2) as (S & o1 & idx & s & d & -> & Q). exists idx. cbn [hvn_log n_state n_step n_size].
  split. apply (q_thin V _ _ _ _ _ Q). pose proof (new_length _ _ _ _ _ Q) as LN. split. unfold vprimal, primal. rewrite map_length; auto.
  intros i Hi. destruct (thin_data _ _ _ _ _ S Q) as [<- <-]. destruct (in_some_layer _ _ _ _ _ i Q Hi) as (m & ll & Hin & Hin' & Hil). exists m, ll. split; auto.
  destruct (q_part V _ _ _ _ _ Q) as (D1 & _ & _). destruct (D1 ll Hin') as [ND Hlt]. split; auto. split. apply (layer_iff s _ _ d m ll (q_pop V _ _ _ _ _ Q) (q_holds V _ _ _ _ _ Q) (q_layers V _ _ _ _ _ Q) Hin).
  cbv zeta. destruct (layer_size V o o1 idx s d ll Q Hin') as (t & st & Rm & mx & a & G1 & G2 & G3 & G4 & G5 & G6 & G7 & G8 & G9 & G10).
  rewrite (holds_X K _ _ (q_holds V _ _ _ _ _ Q)) in *. rewrite (G7 i Hil), G6. split; auto.
  assert (LL : (0 < length ll)%nat) by (destruct ll; [destruct Hil|simpl; lia]).
  assert (MB : forall M, M = trial (rows_at [] (rows_at [] (s_X (n_state o)) idx) ll) st a -> rows_at [] (s_X (n_state o1)) ll = M).
  { intros M ->. destruct G5 as [LS HS]. apply rows_at_eq. unfold trial. rewrite NewtonProof.zip_with_length; rewrite ?rows_at_length; auto. intros q Hq. unfold trial. rewrite (zip_with_nth _ _ _ _ [] []) by (rewrite ?rows_at_length; lia).
    rewrite (rows_at_nth [] _ ll) by auto. assert (Hn : In (nth q ll 0%nat) ll) by (apply nth_In; auto). destruct (new_row V _ _ _ _ _ _ Q (Hlt _ Hn)) as (R1 & R2 & R3 & _). rewrite R3, (G7 _ Hn).
    rewrite (holds_X K _ _ (q_holds V _ _ _ _ _ Q)). rewrite <- G6. rewrite (rows_at_nth [] _ ll) by auto. reflexivity. }
  assert (MV : moved_by a (rows_at [] (rows_at [] (s_X (n_state o)) idx) ll) st (trial (rows_at [] (rows_at [] (s_X (n_state o)) idx) ll) st a)).
  { pose proof (trial_pop V _ _ st a G4 G5) as [LT HT]. destruct G4 as [LX HX]. destruct G5 as [LS HS]. split. congruence. intros q Hq. rewrite LX in Hq.
    assert (A1 : length (nth q (trial (rows_at [] (rows_at [] (s_X (n_state o)) idx) ll) st a) []) = IterProof.dim K) by (apply HT, nth_In; lia).
    assert (A2 : length (nth q (rows_at [] (rows_at [] (s_X (n_state o)) idx) ll) []) = IterProof.dim K) by (apply HX, nth_In; lia).
    assert (A3 : length (nth q st []) = vdim V) by (apply HS, nth_In; lia). split. congruence. intros u Hu. unfold trial. rewrite (zip_with_nth _ _ _ _ [] []) by lia. rewrite (zip_with_nth _ _ _ _ 0 0). reflexivity. auto. rewrite A3. rewrite A2 in Hu. exact Hu. }
  split. rewrite (MB _ eq_refl). exact MV.
  destruct (vupd_total V P t (length ll) _ LL G4) as (t0 & Et0 & Ht0).
  assert (ED : data t = data t0) by (unfold holds in G3, Ht0; congruence).
  exists t0, (norm (concat Rm)), mx. destruct (vbacktrack_spec _ _ _ _ _ G9) as (k & Hk & Ea & _ & Hacc). exists k. split. split. apply (holds_X K _ _ Ht0). eauto.
  split. apply (residual_same t); auto. apply (merit_start V P t _ _ st Rm LL G4 G3 G10).
  split. { destruct (v_limit V) eqn:EL. pose proof (layer_shape V P ll t st _ G3 G4 G5) as SH. apply (proj1 (max_step_key _ _ _ _ _ SH G8)). unfold max_step_size in G8. cbn in G8. injection G8 as <-. lra. }
  split. { intros EL. rewrite EL in G8. unfold max_step_size in G8. cbn in G8. congruence. }
  split; auto. split; auto. destruct Hacc as [Hk6|(p & Ep & Harm)]; auto. right. apply armijo_cases in Harm as [Harm|Harm].
  - right. rewrite (MB _ eq_refl). unfold vphi in Ep. rewrite (holds_X K _ _ G3) in Ep. inv_do Ep t1 Et1. pose proof (trial_pop V _ _ st a G4 G5) as HT. destruct (vupd_total V P t (length ll) _ LL HT) as (t1' & Et1' & Ht1). rewrite Et1 in Et1'. injection Et1' as <-.
    assert (Ep' : vphi V t st a = Ok p) by (unfold vphi; rewrite (holds_X K _ _ G3), Et1; exact Ep).
    destruct (merit_trial V P t _ _ st a p LL G4 G3 G5 Ep') as (t2 & X2 & M2 & (EX2 & s2 & Es2) & N2).
    assert (X2 = trial (rows_at [] (rows_at [] (s_X (n_state o)) idx) ll) st a).
    { destruct MV as [L1 M1]. destruct M2 as [L2 M2]. apply (nth_ext _ _ [] []). congruence. intros q Hq. rewrite L2 in Hq. destruct (M1 q Hq) as [La Ma]. destruct (M2 q Hq) as [Lb Mb]. apply (nth_ext _ _ 0 0). congruence. intros u Hu. rewrite Lb in Hu. rewrite Ma, Mb by auto. auto. }
    exists t2, p. rewrite <- H. split. split; eauto. split; auto.
  - left. unfold near_eps, rleb in Harm. destruct (Rle_dec _ _); [auto|discriminate].
Qed.
End Hvn.

(** * HVN on a line *)
Lemma list2 (r : list R) : length r = 2%nat -> r = [nth 0 r 0; nth 1 r 0].
Proof. destruct r as [|r0 [|r1 [|? ?]]]; try discriminate. reflexivity. Qed.
Section Line.
Variable V : hvn_cfg.
Hypothesis P : hvn_posed V.
Variables p0 p1 q0 q1 : R.
Hypothesis L : line_problem V p0 p1 q0 q1.
Hypothesis Hpre : v_pre V = false.
Let K := as_dpn V.
Let c := v_prob V.
Let a := (p1 - nth 1 (v_ref V) 0) / q1.
Let b := (nth 0 (v_ref V) 0 - p0) / q0.
Definition even_at (N u : nat) : R := a + INR (S u) * ((b - a) / INR (S N)).
(** [X] is the equally spaced population, in some order *)
Definition evenly (X : list (list R)) (sg : list nat) : Prop :=
  Permutation sg (seq 0 (length X)) /\ forall u, (u < length X)%nat -> nth (nth u sg 0%nat) X [] = [even_at (length X) u].
Lemma primal_one o : sound V o -> vprimal V (n_state o) = s_X (n_state o).
Proof using P L.
  intros (N & _ & [LX HX] & _). unfold vprimal, primal. rewrite <- (map_id (s_X (n_state o))) at 2. apply map_ext_in. intros x Hx. rewrite firstn_all2; auto.
  rewrite (HX x Hx). change (IterProof.dim (as_dpn V)) with (vdim V). rewrite (dim1 V P p0 p1 q0 q1 L). rewrite (lp_nvar _ _ _ _ _ L). auto.
Qed.
Lemma objects_even X0 l j o o' : hvn_input V X0 -> hvn_objects V X0 l -> nth_error l j = Some o -> nth_error l (S j) = Some o' -> v_limit V = false ->
  exists idx sg, thinned (vprimal V (n_state o)) idx /\ length (vprimal V (n_state o')) = length idx /\ evenly (vprimal V (n_state o')) sg /\
    forall u u', (u < u')%nat -> (u' < length idx)%nat -> xval (vprimal V (n_state o)) (nth (nth u sg 0%nat) idx 0%nat) < xval (vprimal V (n_state o)) (nth (nth u' sg 0%nat) idx 0%nat).
Proof using All.
  intros HI HO H1 H2 HL. destruct (objects_pieces V P X0 l j o o' HI HO H1 H2) as (S & o1 & idx & s & d & -> & Q). cbn [hvn_log n_state].
  destruct (even_iteration V P p0 p1 q0 q1 L Hpre HL o o1 idx s d Q) as (sg & G1 & G2 & G3). exists idx, sg.
  pose proof (pieces_sound V _ _ _ _ _ Q) as S1. pose proof (primal_one _ S1) as E1. cbn [hvn_log n_state] in E1. rewrite (primal_one o S), E1. pose proof (new_length V _ _ _ _ _ Q) as LN.
  split. rewrite <- (primal_one o S). apply (q_thin V _ _ _ _ _ Q). split; auto. split; auto. unfold evenly. rewrite LN. split; auto.
Qed.
Lemma even_perm X X' sg sg' : length X = length X' -> evenly X sg -> evenly X' sg' -> Permutation X X'.
Proof using.
  intros HL [P1 E1] [P2 E2]. assert (G : forall Y sg0, Permutation sg0 (seq 0 (length Y)) -> (forall u, (u < length Y)%nat -> nth (nth u sg0 0%nat) Y [] = [even_at (length Y) u]) -> Permutation Y (map (fun u => [even_at (length Y) u]) (seq 0 (length Y)))).
  { clear. intros Y sg0 Hp He. transitivity (map (fun i => nth i Y []) sg0). rewrite Hp. rewrite HVTop.map_nth_seq. reflexivity.
    assert (Ls : length sg0 = length Y) by (rewrite (Permutation_length Hp), seq_length; auto). rewrite <- (HVTop.map_nth_seq 0%nat sg0), map_map, Ls. apply Permutation_refl'. apply map_ext_in. intros u Hu. apply in_seq in Hu. apply He. lia. }
  rewrite (G X sg P1 E1), (G X' sg' P2 E2), HL. reflexivity.
Qed.
Lemma dist2_one x y : dist2 [x] [y] = Rabs (x - y).
Proof using. unfold dist2. cbn. rewrite Rplus_0_r. apply sqrt_Rsqr_abs. Qed.
Lemma even_apart N u u' : u <> u' -> / 10 ^ 8 < (b - a) / INR (S N) -> / 10 ^ 8 < dist2 [even_at N u] [even_at N u'].
Proof using.
  intros Hne Hd. rewrite dist2_one. unfold even_at. replace (a + INR (S u) * ((b - a) / INR (S N)) - (a + INR (S u') * ((b - a) / INR (S N)))) with ((INR (S u) - INR (S u')) * ((b - a) / INR (S N))) by ring.
  assert (0 < / 10 ^ 8) by (apply Rinv_0_lt_compat, pow_lt; lra). rewrite Rabs_mult, (Rabs_right ((b - a) / INR (S N))) by lra.
  assert (1 <= Rabs (INR (S u) - INR (S u'))). { rewrite !S_INR. assert (H9 : (u < u')%nat \/ (u' < u)%nat) by lia. destruct H9 as [H9|H9]; apply le_INR in H9; rewrite S_INR in H9. rewrite Rabs_left1; lra. rewrite Rabs_right; lra. }
  nra.
Qed.
Lemma even_kept X sg idx : evenly X sg -> / 10 ^ 8 < (b - a) / INR (S (length X)) -> thinned X idx -> Permutation idx (seq 0 (length X)).
Proof using.
  intros [P1 E1] Hd (T1 & T2 & _ & T4). apply NoDup_Permutation; auto. apply seq_NoDup. intros i. rewrite in_seq. split. intros Hi. specialize (T2 i Hi). lia. intros [_ Hi]. cbn [Nat.add] in Hi.
  destruct (in_dec Nat.eq_dec i idx) as [|Hn]; auto. exfalso. destruct (T4 i Hi Hn) as (i' & Hi' & Hc). assert (Hne : i <> i') by congruence. specialize (T2 i' Hi').
  assert (F : forall r, (r < length X)%nat -> exists u, (u < length X)%nat /\ nth u sg 0%nat = r).
  { intros r Hr. assert (Hin : In r sg) by (apply (Permutation_in _ (Permutation_sym P1)); apply in_seq; lia). apply (In_nth _ _ 0%nat) in Hin as (u & Hu & E). rewrite (Permutation_length P1), seq_length in Hu. eauto. }
  destruct (F i Hi) as (u & Hu & Eu). destruct (F i' T2) as (u' & Hu' & Eu'). rewrite <- Eu, <- Eu', !E1 in Hc by auto. assert (Huu : u' <> u) by congruence. pose proof (even_apart (length X) u' u Huu Hd). lra.
Qed.
Lemma objects_stay X0 l j o o' sg : hvn_input V X0 -> hvn_objects V X0 l -> nth_error l j = Some o -> nth_error l (S j) = Some o' -> v_limit V = false ->
  evenly (vprimal V (n_state o)) sg -> / 10 ^ 8 < (b - a) / INR (S (length (vprimal V (n_state o)))) -> Permutation (vprimal V (n_state o')) (vprimal V (n_state o)).
Proof using All.
  intros HI HO H1 H2 HL He Hd. destruct (objects_even X0 l j o o' HI HO H1 H2 HL) as (idx & sg' & T & Ln & He' & _). pose proof (even_kept _ _ _ He Hd T) as Hp. apply Permutation_length in Hp. rewrite seq_length in Hp.
  apply (even_perm _ _ sg' sg); auto. congruence.
Qed.
Lemma objects_optimal X0 l j o o' : hvn_input V X0 -> hvn_objects V X0 l -> nth_error l j = Some o -> nth_error l (S j) = Some o' -> v_limit V = false ->
  let N := length (vprimal V (n_state o')) in
  is_hypervolume (s_Y (n_state o')) (v_ref V) (q0 * q1 * ((b - a) * (b - a) / 2) * (INR N / INR (S N))) /\
  forall Z v, (length Z <= N)%nat -> (forall z, In z Z -> length z = 1%nat) -> is_hypervolume (map (cb_point (c_func c)) Z) (v_ref V) v -> v <= q0 * q1 * ((b - a) * (b - a) / 2) * (INR N / INR (S N)).
Proof using All.
  intros HI HO H1 H2 HL N. destruct (objects_even X0 l j o o' HI HO H1 H2 HL) as (idx & sg & T & Ln & [Hp He] & _). fold N in Hp, He.
  pose proof (lp_q0 _ _ _ _ _ L) as Q0. pose proof (lp_q1 _ _ _ _ _ L) as Q1. pose proof (lp_below _ _ _ _ _ L) as Hab. fold a b in Hab.
  assert (So : sound V o') by (apply (objects_sound V P X0 l HI HO); eapply nth_error_In; eauto). destruct (sound_Y V o' So) as (EY & _ & HX & _).
  assert (Hr2 : length (v_ref V) = 2%nat) by (apply (ref2 V P p0 p1 q0 q1 L)). assert (Er : v_ref V = [nth 0 (v_ref V) 0; nth 1 (v_ref V) 0]) by (apply list2; auto).
  assert (EV : forall n, q0 * q1 * ((b - a) * (b - a) / 2) * (INR n / INR (S n)) = q0 * q1 * ((b - a) * (b - a) / 2 - (b - a) * (b - a) / (2 * INR (S n)))).
  { intros n. rewrite S_INR. field. rewrite <- S_INR. apply not_0_INR. lia. }
  rewrite EV. set (v' := q0 * q1 * _).
  assert (PX : Permutation (vprimal V (n_state o')) (map (fun x => [x]) (map (fun u => a + INR (S u) * ((b - a) / INR (S N))) (seq 0 N)))).
  { rewrite map_map. transitivity (map (fun i => nth i (vprimal V (n_state o')) []) sg). rewrite Hp. unfold N. rewrite HVTop.map_nth_seq. reflexivity.
    assert (Ls : length sg = N) by (rewrite (Permutation_length Hp), seq_length; auto). rewrite <- (HVTop.map_nth_seq 0%nat sg), map_map, Ls. apply Permutation_refl'. apply map_ext_in. intros u Hu. apply in_seq in Hu. apply He. lia. }
  assert (FL : forall xs, map (cb_point (c_func c)) (map (fun x => [x]) xs) = map (on_line p0 p1 q0 q1) xs).
  { intros xs. rewrite map_map. apply map_ext. intros x. apply (lp_func _ _ _ _ _ L). }
  assert (HE : hv (length (v_ref V)) (co (v_ref V)) (map co (s_Y (n_state o'))) = v').
  { rewrite EY. rewrite (hv_perm _ _ _ (map co (map (cb_point (c_func c)) (map (fun x => [x]) (map (fun u => a + INR (S u) * ((b - a) / INR (S N))) (seq 0 N)))))).
    2:{ apply Permutation_map, Permutation_map, PX. }
    rewrite FL, map_map, Hr2. rewrite Er. apply (hv_even p0 p1 q0 q1 (nth 0 (v_ref V) 0) (nth 1 (v_ref V) 0) Q0 Q1 N). fold a b. lra. }
  split.
  - rewrite <- HE. apply hv_is_hypervolume. intros y Hy. rewrite EY in Hy. apply in_map_iff in Hy as (x & <- & Hx). rewrite (hp_ref V P). apply (wp_func _ (hp_problem V P)). apply HX; auto.
  - intros Z v LZ HZ Hv. assert (EZ : exists xs, Z = map (fun x => [x]) xs).
    { clear -HZ. induction Z as [|z Z IH]. exists []; auto. destruct IH as [xs ->]. intros; apply HZ; simpl; auto. pose proof (HZ z (or_introl eq_refl)) as Hz. destruct z as [|x [|? ?]]; try discriminate. exists (x :: xs). reflexivity. }
    destruct EZ as [xs ->]. rewrite map_length in LZ. rewrite FL in Hv.
    assert (LR : forall y, In y (map (on_line p0 p1 q0 q1) xs) -> length y = length (v_ref V)) by (intros y Hy; apply in_map_iff in Hy as (x & <- & _); rewrite Hr2; reflexivity).
    rewrite (is_hypervolume_unique _ _ _ _ LR Hv (hv_is_hypervolume _ _ LR)). rewrite map_map, Hr2. rewrite Er.
    eapply Rle_trans; [apply (hv_bound p0 p1 q0 q1 (nth 0 (v_ref V) 0) (nth 1 (v_ref V) 0) Q0 Q1 xs)|]. fold a b. lra. fold a b.
    unfold v'. apply Rmult_le_compat_l. nra. assert (A1 : 0 < INR (S (length xs))) by (apply lt_0_INR; lia). assert (A2 : INR (S (length xs)) <= INR (S N)) by (apply le_INR; lia).
    assert (A3 : / (2 * INR (S N)) <= / (2 * INR (S (length xs)))) by (apply Rinv_le_contravar; lra). pose proof (Rle_0_sqr (b - a)) as SQ. unfold Rsqr in SQ. pose proof (Rmult_le_compat_l _ _ _ SQ A3). unfold Rdiv in *. lra.
Qed.
(** at the equally spaced population the Newton step vanishes, and with [limit_max_step_size] there is no
    largest step size *)
Lemma even_raises o sg : sound V o -> argsort_ok (v_argsort V) -> v_limit V = true -> evenly (vprimal V (n_state o)) sg -> / 10 ^ 8 < (b - a) / INR (S (length (vprimal V (n_state o)))) ->
  hvn_iterate V o = Exn ValueError.
Proof using All.
  intros So Har HL He Hd. unfold hvn_iterate. destruct (hvn_iteration V o) as [o1|e] eqn:E1.
  2:{ cbn [bind]. destruct (iteration_error V P o e So (defined_two V P Har (lp_nobj _ _ _ _ _ L)) E1) as (_ & -> & _). auto. }
  exfalso. destruct So as (M & HM & HPo & Ho). destruct (iteration_pieces V P o o1 M HM HPo Ho E1) as (idx & s & d & Q). assert (So : sound V o) by (exists M; auto).
  destruct (line_layer V P p0 p1 q0 q1 L Hpre o o1 idx s d Q) as (l & t & st & Rm & mx & al & sgl & Hl & H3 & H4 & H5 & H6 & H7 & H8 & H9 & H10 & Hsg & Hpt).
  pose proof (even_kept _ _ _ He Hd (q_thin V _ _ _ _ _ Q)) as Hk. rewrite (primal_one o So) in *. set (X := s_X (n_state o)) in *. pose proof (Permutation_length Hk) as LK. rewrite seq_length in LK. set (N := length idx) in *. set (Xl := rows_at [] (rows_at [] X idx) l) in *.
  assert (Ll : length l = N) by (rewrite (Permutation_length Hl), seq_length; auto).
  assert (PXl : Permutation Xl X).
  { unfold Xl, rows_at at 1. rewrite Hl. fold N in Hl. assert (LR : length (rows_at [] X idx) = N) by apply rows_at_length. rewrite <- LR. rewrite HVTop.map_nth_seq. unfold rows_at. rewrite Hk. rewrite HVTop.map_nth_seq. auto. }
  destruct He as [Pe Ee].
  assert (Eq : map (fun u => xval Xl (nth u sgl 0%nat)) (seq 0 N) = map (even_at N) (seq 0 N)).
  { destruct Hsg as [Ps Ss].
    assert (S1 : Sorting.Sorted.StronglySorted Rlt (map (fun u => xval Xl (nth u sgl 0%nat)) (seq 0 N))).
    { apply (StronglySorted_of_nth Rlt 0). intros i k Hi Hk'. rewrite map_length, seq_length in Hk'. rewrite !(nth_map_default _ _ _ 0%nat) by (rewrite seq_length; lia). rewrite !seq_nth by lia. apply Ss; auto. }
    assert (S2 : Sorting.Sorted.StronglySorted Rlt (map (even_at N) (seq 0 N))).
    { apply (StronglySorted_of_nth Rlt 0). intros i k Hi Hk'. rewrite map_length, seq_length in Hk'. rewrite !(nth_map_default _ _ _ 0%nat) by (rewrite seq_length; lia). rewrite !seq_nth by lia. unfold even_at. cbn [Nat.add].
      pose proof (lp_below _ _ _ _ _ L) as Hab. fold a b in Hab. assert (0 < (b - a) / INR (S N)) by (apply Rdiv_lt_0_compat; [lra|apply lt_0_INR; lia]). assert (INR (S i) < INR (S k)) by (apply lt_INR; lia). nra. }
    assert (ND : forall w, Sorting.Sorted.StronglySorted Rlt w -> NoDup w). { clear. intros w S. induction S as [|x w S IH F]; constructor; auto. intros Hin. rewrite Forall_forall in F. specialize (F x Hin). lra. }
    apply (sorted_unique Rlt); auto. intros; lra.
    assert (PP : Permutation (map (fun u => xval Xl (nth u sgl 0%nat)) (seq 0 N)) (map (even_at N) (seq 0 N))).
    { transitivity (map (fun x => nth 0 x 0) Xl).
      - rewrite <- (map_map (fun u => nth u sgl 0%nat) (xval Xl)). assert (Ls : length sgl = N) by (rewrite (Permutation_length Ps), seq_length; auto). rewrite <- Ls at 1. rewrite HVTop.map_nth_seq. rewrite Ps.
        apply Permutation_refl'. unfold xval. rewrite <- (map_map (fun i => nth i Xl []) (fun x => nth 0 x 0)). assert (LX : length Xl = N) by (unfold Xl; rewrite rows_at_length; auto). rewrite <- LX. rewrite HVTop.map_nth_seq. reflexivity.
      - rewrite PXl. rewrite <- (HVTop.map_nth_seq [] X) at 1. rewrite <- Pe. assert (Ls : length sg = length X) by (rewrite (Permutation_length Pe), seq_length; auto). rewrite <- (HVTop.map_nth_seq 0%nat sg), !map_map, Ls, <- LK. apply Permutation_refl'. apply map_ext_in. intros u Hu. apply in_seq in Hu. rewrite Ee by lia. rewrite LK. reflexivity. }
    intros x. split; intros Hx; [apply (Permutation_in _ PP Hx)|apply (Permutation_in _ (Permutation_sym PP) Hx)]. }
  rewrite HL in H8. destruct Hsg as [Ps Ss].
  assert (Hpt' : forall u, (u < N)%nat -> ent st (nth u sgl 0%nat) 0 = 0).
  { intros u Hu. specialize (Hpt u Hu). assert (Ev : xval Xl (nth u sgl 0%nat) = even_at N u).
    { pose proof (f_equal (fun w => nth u w 0) Eq) as E. cbv beta in E. rewrite !(nth_map_default _ _ _ 0%nat) in E by (rewrite seq_length; lia). rewrite !seq_nth in E by lia. exact E. }
    rewrite Ev in Hpt. unfold target in Hpt. fold a b in Hpt. unfold even_at in Hpt. lra. }
  assert (Hz : forall i, (i < N)%nat -> ent st i 0 = 0). { intros i Hi. destruct (sg_ex N (xval Xl) sgl i (conj Ps Ss) Hi) as (u & Hu & <-). auto. }
  assert (H5' : matrix (length l) (vdim V) st) by (rewrite Ll, (dim1 V P p0 p1 q0 q1 L); exact H5). assert (H4' : pop K (length l) (rows_at [] (rows_at [] X idx) l)) by (rewrite Ll; exact H4).
  pose proof (layer_shape V P l t st (rows_at [] X idx) H3 H4' H5') as SH.
  destruct (proj1 (PropsNewton.C28_defined_partial _ _ _ _ _ SH) (ex_intro _ mx H8)) as (i & k & Hi & Hk' & Hne).
  destruct (vprimal_rows V N Xl t H4 H3) as [LP _]. rewrite LP in Hi. pose proof (wp_xl _ (hp_problem V P)) as Hxl. cbn in Hxl. rewrite (lp_nvar _ _ _ _ _ L) in Hxl. assert (k = 0%nat) by lia. subst k.
  apply Hne. destruct H5 as [LS HS]. rewrite (nth_map_default _ _ _ []) by lia. unfold vdim_p. rewrite (lp_nvar _ _ _ _ _ L). specialize (Hz i Hi). unfold ent in Hz. assert (Hl1 : length (nth i st []) = 1%nat) by (apply HS, nth_In; lia).
  destruct (nth i st []) as [|w [|? ?]]; try discriminate. exact Hz.
Qed.
(** conversely there is an error only at an equally spaced population *)
Lemma line_error o e : sound V o -> argsort_ok (v_argsort V) -> hvn_iterate V o = Exn e ->
  exists idx sg, thinned (vprimal V (n_state o)) idx /\ idx <> [] /\ evenly (rows_at [] (vprimal V (n_state o)) idx) sg.
Proof using All.
  intros So Har E. unfold hvn_iterate in E. destruct (hvn_iteration V o) as [o1|e'] eqn:E1; [discriminate|].
  destruct (iteration_error V P o e' So (defined_two V P Har (lp_nobj _ _ _ _ _ L)) E1) as (HL & _ & s & d & l & t & st & Rm & Hu & Hly & Hin & Hg & Hst & Hz).
  pose proof So as (M & HM & HPo & Ho). destruct (unique_total V P (n_state o) M _ HM HPo Ho) as (idx & s' & Ei & Es & Ht & Hne & Hh & Hp & _). rewrite Hu in Es. injection Es as <-.
  destruct (line_core V P p0 p1 q0 q1 L Hpre o idx s d Ht Hne Hh Hp Hly) as (l' & sgl & El & Hl & [Ps Ss] & Hc). rewrite El in Hin. destruct Hin as [<-|[]]. set (N := length idx) in *. set (X := rows_at [] (s_X (n_state o)) idx) in *.
  assert (Ll : length l' = N) by (rewrite (Permutation_length Hl), seq_length; auto). assert (HN : (0 < N)%nat) by (unfold N; destruct idx; [congruence|simpl; lia]).
  assert (Hb : forall i, In i l' -> (i < N)%nat) by (intros i Hi; apply (Permutation_in _ Hl) in Hi; apply in_seq in Hi; lia).
  destruct (getitem_holds V P s _ _ l' Hp Hh ltac:(destruct l'; [simpl in Ll; lia|congruence]) Hb) as (t' & Et & Hh' & Hp' & _). rewrite Hg in Et. injection Et as <-. rewrite Ll in Hp'.
  destruct (Hc t Hh' Hp') as (st' & Rm' & Est & [LS HS] & Hpt). rewrite Hst in Est. injection Est as <- <-.
  assert (Z : forall i, (i < N)%nat -> ent st i 0 = 0).
  { intros i Hi. assert (Hr : length (nth i st []) = 1%nat) by (apply HS, nth_In; lia). unfold ent. apply (Hz (firstn (vdim_p V) (nth i st []))). apply in_map, nth_In. lia. unfold vdim_p. rewrite (lp_nvar _ _ _ _ _ L). rewrite firstn_all2 by lia. apply nth_In. lia. }
  assert (Lsg : length sgl = N) by (rewrite (Permutation_length Ps), seq_length; auto).
  exists idx, (map (fun j => nth j l' 0%nat) sgl). split; auto. split; auto. rewrite (primal_one o So). fold X. unfold evenly. assert (LX : length X = N) by apply rows_at_length. rewrite LX. split.
  - rewrite Ps. rewrite <- Ll at 1. rewrite HVTop.map_nth_seq. auto.
  - intros u Hu'. rewrite (nth_map_default _ _ _ 0%nat) by lia. assert (B : (nth u sgl 0 < N)%nat) by (assert (Hin : In (nth u sgl 0%nat) sgl) by (apply nth_In; lia); apply (Permutation_in _ Ps) in Hin; apply in_seq in Hin; lia).
    specialize (Hpt u Hu'). rewrite Z in Hpt by auto. unfold xval in Hpt. rewrite rows_at_nth in Hpt by lia. assert (B2 : (nth (nth u sgl 0%nat) l' 0 < N)%nat) by (apply Hb, nth_In; lia).
    rewrite (row1 V P p0 p1 q0 q1 L N s X HN Hp Hh _ B2). f_equal. unfold xval. unfold target in Hpt. fold a b in Hpt. unfold even_at. lra.
Qed.
(** a point at the upper bound whose Newton step leads outside stops all points *)
Lemma line_stuck o o1 idx s d : v_limit V = true -> pieces V o o1 idx s d -> (exists i, (i < length idx)%nat /\ xval (s_X s) i = nth 0 (v_xu V) 0) -> nth 0 (v_xu V) 0 < even_at (length idx) 0 ->
  forall i, (i < length idx)%nat -> nth i (s_X (n_state o1)) [] = nth i (s_X s) [].
Proof using All.
  intros HL Q (i0 & Hi0 & Ei0) Hout.
  destruct (line_core V P p0 p1 q0 q1 L Hpre o idx s d (q_thin V _ _ _ _ _ Q) (q_idx V _ _ _ _ _ Q) (q_holds V _ _ _ _ _ Q) (q_pop V _ _ _ _ _ Q) (q_layers V _ _ _ _ _ Q)) as (l & sgl & El & Hl & Hsg & Hc).
  destruct (layer_size V _ _ _ _ _ l Q) as (t & st & Rm & mx & al & H1 & H2 & H3 & H4 & H5 & H6 & H7 & H8 & H9 & H10). rewrite El; simpl; auto.
  pose proof (holds_X K _ _ (q_holds V _ _ _ _ _ Q)) as EX. rewrite EX in *. set (N := length idx) in *. set (X := rows_at [] (s_X (n_state o)) idx) in *.
  assert (Ll : length l = N) by (rewrite (Permutation_length Hl), seq_length; auto). rewrite Ll in *. destruct (Hc t H3 H4) as (st' & Rm' & Est & Mst & Hpt). rewrite H10 in Est. injection Est as <- <-.
  assert (Hi0' : In i0 l) by (apply (Permutation_in _ (Permutation_sym Hl)); apply in_seq; lia). pose proof Hi0' as Hi0''. apply (In_nth _ _ 0%nat) in Hi0'' as (j & Hj & Ej). rewrite Ll in Hj.
  destruct (sg_ex N _ sgl j Hsg Hj) as (u & Hu & Eu). specialize (Hpt u Hu). rewrite Eu in Hpt. unfold xval in Hpt. rewrite (rows_at_nth [] X l) in Hpt by lia. rewrite Ej in Hpt. unfold xval in Ei0.
  assert (Hge : even_at N 0 <= target V p0 p1 q0 q1 N u).
  { unfold target, even_at. fold a b. pose proof (lp_below _ _ _ _ _ L) as Hab. fold a b in Hab. assert (0 < (b - a) / INR (S N)) by (apply Rdiv_lt_0_compat; [lra|apply lt_0_INR; lia]). assert (INR 1 <= INR (S u)) by (apply le_INR; lia). nra. }
  intros i Hi. assert (Hi' : In i l) by (apply (Permutation_in _ (Permutation_sym Hl)); apply in_seq; lia). rewrite <- EX.
  refine (stall_iteration V P o o1 idx s d l i0 0 HL Q _ Hi0' _ _ i Hi'). rewrite El; simpl; auto. unfold vdim_p. rewrite (lp_nvar _ _ _ _ _ L). lia.
  right. rewrite EX. split; auto. assert (Ht : nth 0 (nth i0 (n_step o1) []) 0 = ent st j 0) by (unfold ent; rewrite <- H6, rows_at_nth, Ej by lia; auto). rewrite Ht. lra.
Qed.
Lemma objects_stuck X0 n : argsort_ok (v_argsort V) -> v_limit V = true -> hvn_input V X0 -> (forall x, In x X0 -> nth 0 (v_xl V) 0 <= nth 0 x 0 <= nth 0 (v_xu V) 0) ->
  (forall i j, (i < j < length X0)%nat -> / 10 ^ 8 < dist2 (nth i X0 []) (nth j X0 [])) -> (exists x, In x X0 /\ nth 0 x 0 = nth 0 (v_xu V) 0) -> nth 0 (v_xu V) 0 < even_at (length X0) 0 ->
  exists l, hvn_objects V X0 l /\ length l = S n /\ forall o, In o l -> Permutation (vprimal V (n_state o)) X0.
Proof using All.
  intros Har HL HI Hbox Hap Hat Hout. destruct (init_total V P X0 HI) as (o0 & E0). destruct (init_sound V P X0 o0 HI E0) as (S0 & LX0 & _).
  assert (W1 : length (v_xl V) = 1%nat) by (pose proof (wp_xl _ (hp_problem V P)) as HH; cbn in HH; rewrite (lp_nvar _ _ _ _ _ L) in HH; exact HH).
  assert (W2 : length (v_xu V) = 1%nat) by (pose proof (wp_xu _ (hp_problem V P)) as HH; cbn in HH; rewrite (lp_nvar _ _ _ _ _ L) in HH; exact HH).
  assert (HX0 : forall x, In x X0 -> length x = 1%nat) by (intros x Hx; rewrite (proj2 HI x Hx); apply (lp_nvar _ _ _ _ _ L)).
  assert (EX : vprimal V (n_state o0) = X0).
  { rewrite (primal_one o0 S0). unfold hvn_init in E0. inv_do E0 s Es. injection E0 as <-. cbn [n_state] in *. destruct (vupd_total V P init (length X0) _ (proj1 HI) (init_pop V P X0 HI)) as (s' & Es' & Hh). rewrite Es in Es'. injection Es' as <-. rewrite (holds_X K _ _ Hh).
    rewrite <- (map_id X0) at 2. apply map_ext_in. intros x Hx. assert (Ed : vdim_d V = 0%nat) by (pose proof (dim1 V P p0 p1 q0 q1 L) as D; unfold vdim in D; unfold vdim_p in D; rewrite (lp_nvar _ _ _ _ _ L) in D; lia). rewrite Ed. cbn [repeat]. rewrite app_nil_r.
    specialize (Hbox x Hx). specialize (HX0 x Hx). destruct (v_xl V) as [|l0 [|? ?]]; try discriminate W1. destruct (v_xu V) as [|u0 [|? ?]]; try discriminate W2. destruct x as [|x0 [|? ?]]; try discriminate. cbn [nth] in Hbox.
    unfold clip_row. cbn [zip_with]. f_equal. unfold Rmin, Rmax. repeat destruct (Rle_dec _ _); lra. }
  assert (G : forall n o, sound V o -> Permutation (vprimal V (n_state o)) X0 -> exists l, length l = n /\ trace (hvn_iterate V) o l /\ forall p, In p l -> Permutation (vprimal V (n_state p)) X0).
  { clear n o0 E0 S0 LX0 EX. induction n as [|n IH]; intros o So Hp. exists []. simpl. split; auto. split; auto. intros p [].
    assert (HLn : length (vprimal V (n_state o)) = length X0) by (apply Permutation_length; auto).
    assert (K1 : forall idx, thinned (vprimal V (n_state o)) idx -> Permutation idx (seq 0 (length X0))).
    { intros idx (T1 & T2 & _ & T4). rewrite <- HLn. apply NoDup_Permutation; auto. apply seq_NoDup. intros i. rewrite in_seq. split. intros Hi. specialize (T2 i Hi). lia. intros [_ Hi]. cbn [Nat.add] in Hi.
      destruct (in_dec Nat.eq_dec i idx) as [|Hn]; auto. exfalso. destruct (T4 i Hi Hn) as (i' & Hi' & Hc). assert (Hne : i' <> i) by congruence. specialize (T2 i' Hi').
      destruct (proj1 (Permutation_nth (vprimal V (n_state o)) X0 []) Hp) as (_ & f & F1 & F2 & F3). 
      assert (FA : forall r, (r < length X0)%nat -> exists r', (r' < length X0)%nat /\ f r' = r).
      { intros r Hr. rewrite <- HLn in Hr. destruct (proj1 (FinFun.bInjective_bSurjective F1) F2 r Hr) as (r' & Hr1 & Hr2). exists r'. rewrite <- HLn. auto. }
      rewrite HLn in *. destruct (FA i Hi) as (r & Hr & Er). destruct (FA i' T2) as (r' & Hr' & Er'). assert (Hrr : r <> r') by congruence.
      rewrite <- Er, <- Er', <- !F3 in Hc by auto. destruct (Nat.lt_total r r') as [C|[C|C]]; [|congruence|].
      - specialize (Hap r r' ltac:(lia)). rewrite dist2_sym in Hc. lra.
      - specialize (Hap r' r ltac:(lia)). lra. }
    destruct (hvn_iterate V o) as [o'|e] eqn:Eo.
    2:{ exfalso. destruct (line_error o e So Har Eo) as (idx & sg & T & Hne & [Hsg He]). specialize (K1 idx T). pose proof (Permutation_length K1) as LK. rewrite seq_length in LK. rewrite rows_at_length in *. 
        assert (HN : (0 < length idx)%nat) by (destruct idx; [congruence|simpl; lia]). specialize (He 0%nat HN). rewrite LK in He. assert (B : (nth 0 sg 0 < length idx)%nat). { assert (Hin : In (nth 0 sg 0%nat) sg) by (apply nth_In; rewrite (Permutation_length Hsg), seq_length; auto). apply (Permutation_in _ Hsg) in Hin. apply in_seq in Hin. lia. }
        rewrite rows_at_nth in He by auto. assert (Hin : In (nth (nth (nth 0 sg 0%nat) idx 0%nat) (vprimal V (n_state o)) []) X0). { apply (Permutation_in _ Hp). apply nth_In. apply (proj1 (proj2 T)). apply nth_In. auto. }
        rewrite He in Hin. specialize (Hbox _ Hin). cbn [nth] in Hbox. lra. }
    destruct (iterate_pieces V P o o' So Eo) as (o1 & idx & s & d & -> & Q). pose proof (pieces_sound V _ _ _ _ _ Q) as S1. specialize (K1 idx (q_thin V _ _ _ _ _ Q)). pose proof (Permutation_length K1) as LK. rewrite seq_length in LK.
    pose proof (holds_X K _ _ (q_holds V _ _ _ _ _ Q)) as EX.
    assert (PX : Permutation (s_X s) X0). { rewrite EX. rewrite <- (primal_one o So). unfold rows_at. rewrite K1. rewrite <- HLn. rewrite HVTop.map_nth_seq. auto. }
    assert (Ls : length (s_X s) = length idx) by (rewrite EX; apply rows_at_length).
    assert (ST : forall i, (i < length idx)%nat -> nth i (s_X (n_state o1)) [] = nth i (s_X s) []).
    { apply (line_stuck o o1 idx s d HL Q). 2:{ rewrite LK. auto. } destruct Hat as (x & Hx & Ex). apply (Permutation_in _ (Permutation_sym PX)) in Hx. apply (In_nth _ _ []) in Hx as (i & Hi & Ei). exists i. split. lia. unfold xval. rewrite Ei. auto. }
    assert (EX1 : s_X (n_state o1) = s_X s). { apply (nth_ext _ _ [] []). rewrite (new_length V _ _ _ _ _ Q). lia. intros i Hi. apply ST. rewrite (new_length V _ _ _ _ _ Q) in Hi. auto. }
    assert (Hp1 : Permutation (vprimal V (n_state (hvn_log V o1))) X0). { rewrite (primal_one _ S1). cbn [hvn_log n_state]. rewrite EX1. auto. }
    destruct (IH (hvn_log V o1) S1 Hp1) as (l & Hl & Ht & Hl2). exists (hvn_log V o1 :: l). split. simpl; lia. split. simpl. auto. intros p [<-|Hin]; auto. }
  destruct (G n o0 S0 ltac:(rewrite EX; auto)) as (l & Hl & Ht & Hl2). exists (o0 :: l). split. split; auto. split. simpl; lia. intros o [<-|Hin]; auto. rewrite EX. auto.
Qed.
End Line.
Lemma evenly_iff V p0 p1 q0 q1 X : evenly_spaced V p0 p1 q0 q1 X <-> exists sg, evenly V p0 p1 q0 q1 X sg.
Proof.
  unfold evenly_spaced, evenly. set (g := fun u => [even_point V p0 p1 q0 q1 (length X) u]). split.
  - intros H. apply (Permutation_nth _ _ []) in H. destruct H as (HL & f & F1 & F2 & F3). rewrite map_length, seq_length in *.
    exists (map f (seq 0 (length X))). split.
    + apply NoDup_Permutation_bis. apply RefTop.NoDup_map_in. intros i j Hi Hj E. apply in_seq in Hi, Hj. apply F2; auto; lia. apply seq_NoDup. rewrite map_length; auto. intros i Hi. apply in_map_iff in Hi as (u & <- & Hu). apply in_seq in Hu. apply in_seq. specialize (F1 u ltac:(lia)). lia.
    + intros u Hu. rewrite (nth_map_default _ _ _ 0%nat) by (rewrite seq_length; auto). rewrite seq_nth by auto. cbn [Nat.add]. rewrite <- F3 by auto. rewrite (nth_map_default _ _ _ 0%nat) by (rewrite seq_length; auto). rewrite seq_nth by auto. reflexivity.
  - intros (sg & Hp & He). transitivity (map (fun i => nth i X []) sg). rewrite Hp. rewrite HVTop.map_nth_seq. reflexivity.
    assert (Ls : length sg = length X) by (rewrite (Permutation_length Hp), seq_length; auto). rewrite <- (HVTop.map_nth_seq 0%nat sg), map_map, Ls. apply Permutation_refl'. apply map_ext_in. intros u Hu. apply in_seq in Hu. apply He. lia.
Qed.
Lemma defined V : hvn_posed V -> argsort_ok (v_argsort V) -> two_or_three V -> hv_defined V.
Proof. intros P A [H|[H B]]. apply defined_two; auto. apply defined_three; auto. Qed.
