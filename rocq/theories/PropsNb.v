(** Property theorems: neighbourhoods of MOEA/D and the replacement in the population. *)
From Coq Require Import List Arith Bool Reals Lra Lia Permutation Sorted.
From Verif Require Import Num Exn ListAux HVSpec HVHom HVTop NewtonModel NewtonProof RefModel MoeaModel NbModel NbProof PropsMoea.
Import ListNotations.
Open Scope R_scope.

(** * C176: the neighbourhoods *)
(** the distance of two directions *)
Definition separation (p q : list R) : R := sqrt (fold_right Rplus 0 (map (fun ab => (fst ab - snd ab) ^ 2) (combine p q))).
Lemma separation_eq p q : dist2 p q = separation p q.
Proof.
  unfold dist2, separation. f_equal. revert q. induction p as [|a p IH]; intros [|b q]; cbn; auto. rewrite IH. f_equal. ring.
Qed.
Theorem C176_neighbourhood : forall D argsort n dd (dec : D) W od k, argsort_ok argsort -> (k < length W)%nat ->
  let m := setup argsort n dd dec (Some W) od in
  length (md_nb m) = length W /\ md_size m = length W /\
  let N := nth k (md_nb m) [] in length N = Nat.min n (length W) /\ NoDup N /\ (forall i, In i N -> (i < length W)%nat) /\
  forall i j, In i N -> (j < length W)%nat -> ~ In j N -> separation (nth k W []) (nth i W []) <= separation (nth k W []) (nth j W []).
Proof.
  intros D argsort n dd dec W od k HA Hk. cbn zeta. cbn [setup md_nb md_size]. split. apply neighbors_len. split. reflexivity.
  destruct (nbhd argsort HA n W k Hk) as (A & B & C & E). split; [exact A|]. split; [exact B|]. split; [exact C|]. intros i j Hi Hj Hn. rewrite <- !separation_eq. apply E; auto.
Qed.
Print Assumptions C176_neighbourhood.
(** what the user gives is used as it is; what is missing is replaced by the default *)
Theorem C176_setup : forall D argsort n dd (dec : D) W d,
  let given := setup argsort n dd dec (Some W) (Some d) in let missing := setup argsort n dd dec None None in
  md_dirs given = W /\ md_dec given = d /\ md_dirs missing = dd /\ md_dec missing = dec /\ missing = setup argsort n dd dec (Some dd) (Some dec).
Proof. intros. cbn. auto 6. Qed.
Print Assumptions C176_setup.
(** a direction that differs from all others is its own first neighbour *)
Theorem C176_own : forall argsort n W k, argsort_ok argsort -> (k < length W)%nat -> (0 < n)%nat ->
  (forall i, (i < length W)%nat -> length (nth i W []) = length (nth k W [])) -> (forall i, (i < length W)%nat -> i <> k -> nth i W [] <> nth k W []) ->
  hd_error (nth k (neighbors argsort n W) []) = Some k.
Proof.
  intros argsort n W k HA Hk Hn Hl Hd. destruct (nbhd argsort HA 1 W k Hk) as (L & _ & B & M). rewrite Nat.min_l in L by lia.
  assert (E : exists i, nth k (neighbors argsort 1 W) [] = [i]).
  { destruct (nth k (neighbors argsort 1 W) []) as [|i [|j t]]; cbn in L; try lia. eauto. }
  destruct E as [i E]. rewrite E in *.
  assert (i = k).
  { destruct (Nat.eq_dec i k) as [|H]; auto. exfalso. specialize (M i k (or_introl eq_refl) Hk). rewrite dist_self in M.
    apply (Hd i). apply B; left; auto. auto. symmetry. apply dist_zero. symmetry; apply Hl; apply B; left; auto. apply M. intros [X|[]]. congruence. }
  subst i. rewrite neighbors_nth in * by auto. destruct (argsort (map (dist2 (nth k W [])) W)) as [|a t]; cbn in E. discriminate. destruct n as [|n]; [lia|]. cbn. congruence.
Qed.
Print Assumptions C176_own.
(** otherwise it may be missing in its own neighbourhood: the order of equal distances is open *)
Definition swapped (l : list R) : list nat := if list_eq_dec Req_EM_T l [0; 0] then [1%nat; 0%nat] else stable_argsort l.
Lemma swapped_ok : argsort_ok swapped.
Proof.
  intros l. unfold swapped. destruct (list_eq_dec Req_EM_T l [0; 0]) as [->|_]; [|apply stable_argsort_ok].
  split. apply perm_swap. constructor; [constructor; [constructor|constructor]|constructor; [cbn; lra|constructor]].
Qed.
Theorem C176_own_refuted : exists argsort W k, argsort_ok argsort /\ (k < length W)%nat /\ ~ In k (nth k (neighbors argsort 1 W) []).
Proof.
  exists swapped, [[1]; [1]], 0%nat. split. apply swapped_ok. split. cbn; lia. rewrite neighbors_nth by (cbn; lia). cbn [nth map]. rewrite dist_self.
  unfold swapped. destruct (list_eq_dec Req_EM_T [0; 0] [0; 0]) as [_|X]; [|congruence]. cbn. intros [X|[]]. discriminate.
Qed.
Print Assumptions C176_own_refuted.

(** * C177: the replacement *)
(** the offspring beats a member for a weight vector *)
Definition beats (dec : list R -> list R -> R) (constrained : bool) (eps : R) (w : list R) (off p : indiv) : Prop :=
  if constrained then excess eps (i_cv off) < excess eps (i_cv p) \/
    (excess eps (i_cv off) = 0 /\ excess eps (i_cv p) = 0 /\ dec (i_f off) w < dec (i_f p) w)
  else dec (i_f off) w < dec (i_f p) w.
Definition someone : indiv := mkInd 0 [].
Theorem C177_replace : forall dec constrained eps argsort n W pop k off, argsort_ok argsort -> (0 < n)%nat -> length pop = length W -> (k < length W)%nat ->
  let nb := neighbors argsort n W in
  exists pop', replace_ dec constrained eps W nb pop k off = Ok pop' /\ length pop' = length pop /\
    forall i, (i < length pop)%nat ->
      (In i (nth k nb []) /\ beats dec constrained eps (nth i W []) off (nth i pop someone) -> nth i pop' someone = off) /\
      (~ (In i (nth k nb []) /\ beats dec constrained eps (nth i W []) off (nth i pop someone)) -> nth i pop' someone = nth i pop someone).
Proof.
  intros dec c eps argsort n W pop k off HA Hn Lp Hk nb. destruct (nbhd argsort HA n W k Hk) as (L & ND & B & _). fold nb in L, ND, B.
  set (N := nth k nb []) in *.
  assert (EN : nth_error nb k = Some N) by (apply nth_error_nth'; unfold nb; rewrite neighbors_len; auto).
  unfold replace_. rewrite EN. rewrite (take_rows_ok pop N someone) by (intros i Hi; rewrite Lp; auto). cbn [bind]. rewrite (take_rows_ok W N []) by auto. cbn [bind].
  set (FV := zip_with (fun p w => dec (i_f p) w) (map (fun i => nth i pop someone) N) (map (fun i => nth i W []) N)).
  set (OV := map (dec (i_f off)) (map (fun i => nth i W []) N)).
  set (CV := map i_cv (map (fun i => nth i pop someone) N)).
  assert (L1 : length FV = length N) by (unfold FV; rewrite zip_with_length; rewrite !map_length; auto).
  assert (L2 : length OV = length N) by (unfold OV; rewrite !map_length; auto).
  assert (L3 : length CV = length N) by (unfold CV; rewrite !map_length; auto).
  assert (NN : N <> []) by (intros X; rewrite X in L; cbn in L; destruct W; cbn in *; lia).
  destruct (C70_total c eps N FV OV CV (i_cv off)) as [Ix E].
  { intros X. rewrite X in L1. destruct N; cbn in *; congruence. } { intros X. rewrite X in L2. destruct N; cbn in *; congruence. }
  rewrite E. cbn [bind]. eexists. split. reflexivity. split. apply put_all_len.
  pose proof (C70_replacement _ _ _ _ _ _ _ _ E L1 L2 L3) as H.
  assert (V : forall j i, nth_error N j = Some i -> nth j FV 0 = dec (i_f (nth i pop someone)) (nth i W []) /\ nth j OV 0 = dec (i_f off) (nth i W []) /\ nth j CV 0 = i_cv (nth i pop someone)).
  { intros j i Hj. assert (Hj' : (j < length N)%nat) by (apply nth_error_Some; congruence). assert (Ei : nth j N 0%nat = i) by (apply nth_error_nth; auto).
    assert (EP : nth j (map (fun i => nth i pop someone) N) someone = nth i pop someone).
    { rewrite (nth_indep _ someone (nth 0 pop someone)) by (rewrite map_length; auto). rewrite (map_nth (fun i => nth i pop someone)). rewrite Ei. auto. }
    assert (EW : nth j (map (fun i => nth i W []) N) [] = nth i W []).
    { rewrite (nth_indep _ [] (nth 0 W [])) by (rewrite map_length; auto). rewrite (map_nth (fun i => nth i W [])). rewrite Ei. auto. }
    split; [|split].
    - unfold FV. rewrite (zip_with_nth _ _ _ _ someone [] 0) by (rewrite map_length; auto). rewrite EP, EW. auto.
    - unfold OV. rewrite (nth_indep _ 0 (dec (i_f off) [])) by (rewrite !map_length; auto). rewrite map_nth. rewrite EW. auto.
    - unfold CV. rewrite (nth_indep _ 0 (i_cv someone)) by (rewrite !map_length; auto). rewrite map_nth. rewrite EP. auto. }
  assert (M : forall i, In i Ix <-> In i N /\ beats dec c eps (nth i W []) off (nth i pop someone)).
  { intros i. rewrite H. split.
    - intros (j & Hj & Hc). destruct (V j i Hj) as (V1 & V2 & V3). rewrite V1, V2, V3 in Hc. split. eapply nth_error_In; eauto. exact Hc.
    - intros [Hi Hc]. apply In_nth_error in Hi as [j Hj]. exists j. split; auto. destruct (V j i Hj) as (V1 & V2 & V3). rewrite V1, V2, V3. exact Hc. }
  intros i Hi. rewrite put_all_nth by auto. destruct (in_dec Nat.eq_dec i Ix) as [Hx|Hx]; split; intros Hc; auto.
  - destruct Hc. apply M; auto.
  - destruct Hx. apply M; auto.
Qed.
Print Assumptions C177_replace.
(** for a fixed tolerance and ideal point no offspring makes any subproblem worse: [p'] is as good as [p] *)
Definition no_worse (dec : list R -> list R -> R) (constrained : bool) (eps : R) (w : list R) (p' p : indiv) : Prop :=
  if constrained then excess eps (i_cv p') < excess eps (i_cv p) \/
    (excess eps (i_cv p') = excess eps (i_cv p) /\ (excess eps (i_cv p) = 0 -> dec (i_f p') w <= dec (i_f p) w))
  else dec (i_f p') w <= dec (i_f p) w.
Theorem C177_monotone : forall dec constrained eps argsort n W steps pop, argsort_ok argsort -> (0 < n)%nat -> length pop = length W ->
  (forall k off, In (k, off) steps -> (k < length W)%nat) ->
  exists pop', replaces dec constrained eps W (neighbors argsort n W) pop steps = Ok pop' /\ length pop' = length pop /\
    forall i, (i < length pop)%nat -> no_worse dec constrained eps (nth i W []) (nth i pop' someone) (nth i pop someone) /\
      (nth i pop' someone = nth i pop someone \/ exists k off, In (k, off) steps /\ In i (nth k (neighbors argsort n W) []) /\ nth i pop' someone = off).
Proof.
  intros dec c eps argsort n W. induction steps as [|[k off] t IH]; intros pop HA Hn Lp Hk.
  - exists pop. split. reflexivity. split. reflexivity. intros i Hi. split; [|left; auto]. unfold no_worse. destruct c; [right; split; [reflexivity|intros; lra]|lra].
  - cbn [replaces]. destruct (C177_replace dec c eps argsort n W pop k off HA Hn Lp (Hk k off (or_introl eq_refl))) as (p1 & E1 & L1 & H1).
    rewrite E1. cbn [bind]. destruct (IH p1 HA Hn ltac:(congruence)) as (p2 & E2 & L2 & H2). intros k' o' H'. apply (Hk k' o'). right; auto.
    exists p2. split. exact E2. split. congruence. intros i Hi. destruct (H2 i ltac:(lia)) as [A B]. destruct (H1 i Hi) as [C1 C2].
    assert (Dec : {In i (nth k (neighbors argsort n W) []) /\ beats dec c eps (nth i W []) off (nth i pop someone)} + {~ (In i (nth k (neighbors argsort n W) []) /\ beats dec c eps (nth i W []) off (nth i pop someone))}).
    { destruct (in_dec Nat.eq_dec i (nth k (neighbors argsort n W) [])) as [X|X]; [|right; tauto].
      unfold beats. destruct c.
      - destruct (Rlt_dec (excess eps (i_cv off)) (excess eps (i_cv (nth i pop someone)))); [left; tauto|].
        destruct (Req_EM_T (excess eps (i_cv off)) 0); [|right; tauto]. destruct (Req_EM_T (excess eps (i_cv (nth i pop someone))) 0); [|right; tauto].
        destruct (Rlt_dec (dec (i_f off) (nth i W [])) (dec (i_f (nth i pop someone)) (nth i W []))); [left; tauto|right; tauto].
      - destruct (Rlt_dec (dec (i_f off) (nth i W [])) (dec (i_f (nth i pop someone)) (nth i W []))); [left; tauto|right; tauto]. }
    destruct Dec as [Y|Y].
    + rewrite (C1 Y) in A, B. destruct Y as [Y1 Y2]. split.
      * unfold no_worse, beats in *. destruct c; [|lra]. destruct A as [A|[A A']], Y2 as [Y|(Y & Y' & Y3)]; try (left; lra).
        right. split. lra. intros _. specialize (A' Y). lra.
      * destruct B as [B|(k' & o' & B1 & B2 & B3)]. right. exists k, off. split. left; auto. auto. right. exists k', o'. split. right; auto. auto.
    + rewrite (C2 Y) in A, B. split. exact A. destruct B as [B|(k' & o' & B1 & B2 & B3)]. left; auto. right. exists k', o'. split. right; auto. auto.
Qed.
Print Assumptions C177_monotone.
(** without the constraints in view, the decomposed value of every subproblem goes down or stays *)
Theorem C177_decreasing : forall dec eps argsort n W steps pop, argsort_ok argsort -> (0 < n)%nat -> length pop = length W ->
  (forall k off, In (k, off) steps -> (k < length W)%nat) ->
  exists pop', replaces dec false eps W (neighbors argsort n W) pop steps = Ok pop' /\
    forall i, (i < length pop)%nat -> dec (i_f (nth i pop' someone)) (nth i W []) <= dec (i_f (nth i pop someone)) (nth i W []).
Proof.
  intros dec eps argsort n W steps pop HA Hn Lp Hk. destruct (C177_monotone dec false eps argsort n W steps pop HA Hn Lp Hk) as (p & E & _ & H).
  exists p. split. exact E. intros i Hi. apply (H i Hi).
Qed.
Print Assumptions C177_decreasing.
(** three directions, two neighbours each, an offspring that replaces the middle member only *)
Definition dirs3 : list (list R) := [[1; 0]; [1/2; 1/2]; [0; 1]].
Definition pop3 : list indiv := [mkInd 0 [1; 4]; mkInd 0 [3; 3]; mkInd 0 [4; 1]].
Definition weighted (f w : list R) : R := fold_right Rplus 0 (map (fun ab => fst ab * snd ab) (combine f w)).
Example C176_example : argsort_ok stable_argsort /\ (1 < length dirs3)%nat /\ (forall i, (i < length dirs3)%nat -> length (nth i dirs3 []) = length (nth 1 dirs3 [])) /\
  (forall i, (i < length dirs3)%nat -> i <> 1%nat -> nth i dirs3 [] <> nth 1 dirs3 []).
Proof.
  split. apply stable_argsort_ok. split. cbn; lia. split. intros [|[|[|i]]] Hi; cbn in *; auto; lia.
  intros [|[|[|i]]] Hi Hn; cbn in *; try lia; intros H; injection H; intros; lra.
Qed.
Example C177_example : length pop3 = length dirs3 /\ beats weighted false 0 (nth 1 dirs3 []) (mkInd 0 [2; 2]) (nth 1 pop3 someone) /\
  ~ beats weighted false 0 (nth 0 dirs3 []) (mkInd 0 [2; 2]) (nth 0 pop3 someone) /\ (forall k off, In (k, off) [(1%nat, mkInd 0 [2; 2]); (0%nat, mkInd 0 [0; 9])] -> (k < length dirs3)%nat).
Proof.
  split. reflexivity. unfold beats, weighted. cbn. split. lra. split. lra. intros k off [H|[H|[]]]; injection H as <- _; lia.
Qed.
