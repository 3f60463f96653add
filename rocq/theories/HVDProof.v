(** Proofs about the gradient in the objective space. *)
From Coq Require Import List Arith Lia Reals Lra Permutation Bool Sorting.Sorted.
From Coquelicot Require Import Coquelicot.
From Verif Require Import Num Exn ListAux NDSModel NDSSpec NDSProof NDSTop UtilsModel UtilsProof
  HVModel HVSpec HVTheory HVTop HVExtra HVDModel HVDSpec HVDTheory.
Import ListNotations.
Open Scope R_scope.

(** * The true derivative *)
Lemma set_at_split {A} (i : nat) (x d : A) l : (i < length l)%nat ->
  exists A' B, l = A' ++ nth i l d :: B /\ length A' = i /\ set_at i x l = A' ++ x :: B.
Proof.
  revert i. induction l as [|a l IH]; intros [|i] Hi; simpl in *; try lia.
  - exists [], l. auto.
  - destruct (IH i ltac:(lia)) as (A' & B & E & HA & Hs). exists (a :: A'), B. simpl. rewrite <- E, HA, Hs. auto.
Qed.
Lemma set_at_length {A} i (x : A) l : length (set_at i x l) = length l.
Proof. revert i. induction l as [|a l IH]; intros [|i]; simpl; auto. Qed.
Lemma nth_set_at {A} i j (x d : A) l : (i < length l)%nat ->
  nth j (set_at i x l) d = if (j =? i)%nat then x else nth j l d.
Proof.
  revert i j. induction l as [|a l IH]; intros [|i] [|j] Hi; simpl in *; try lia; auto.
  apply IH. lia.
Qed.

Lemma co_set_at k t (p : list R) j : (k < length p)%nat -> co (set_at k t p) j = setk k t (co p) j.
Proof. intros Hk. unfold co, setk. rewrite nth_set_at by auto. reflexivity. Qed.

Definition gradf (F : list (list R)) (ref : list R) (i k : nat) : R :=
  - slope_lt (length ref - 1) (co ref) (map co F) (co (nth i F [])) k.

Lemma rows_set_coord F ref i k t : rows_ok F ref -> (i < length F)%nat -> rows_ok (set_coord F i k t) ref.
Proof.
  intros Hr Hi p Hp. unfold set_coord in Hp.
  destruct (set_at_split i (set_at k t (nth i F [])) [] F Hi) as (A & B & E & HA & Hs). rewrite Hs in Hp.
  apply in_app_or in Hp. destruct Hp as [Hp|[<-|Hp]].
  - apply Hr. rewrite E. apply in_or_app; auto.
  - rewrite set_at_length. apply Hr. apply nth_In; auto.
  - apply Hr. rewrite E. apply in_or_app; simpl; auto.
Qed.

(** the volume as a function of one coordinate *)
Lemma HV_split F ref i k d : rows_ok F ref -> (i < length F)%nat -> length ref = S d -> (k <= d)%nat ->
  exists P c, (forall t, HVof (set_coord F i k t) ref = c + exc (S d) (co ref) P (setk k t (co (nth i F [])))) /\
    HVof F ref = c + exc (S d) (co ref) P (co (nth i F [])) /\
    slope_lt d (co ref) P (co (nth i F [])) k = slope_lt d (co ref) (map co F) (co (nth i F [])) k /\
    (forall p, In p P -> exists j, (j < length F)%nat /\ j <> i /\ p = co (nth j F [])).
Proof.
  intros Hr Hi Hd Hk.
  destruct (set_at_split i ([] : list R) [] F Hi) as (A & B & E & HA & _).
  set (y := nth i F []) in *. exists (map co (A ++ B)), (hv (S d) (co ref) (map co (A ++ B))).
  assert (Hy : length y = length ref) by (apply Hr, nth_In; auto).
  assert (Hgen : forall y' : list R, HVof (A ++ y' :: B) ref =
      hv (S d) (co ref) (map co (A ++ B)) + exc (S d) (co ref) (map co (A ++ B)) (co y')).
  { intros y'. rewrite <- hv_exc, Hd. apply hv_perm. rewrite <- (map_cons co). apply Permutation_map.
    symmetry. apply Permutation_middle. }
  split; [|split; [|split]].
  - intros t. unfold set_coord. fold y.
    assert (Hs : set_at i (set_at k t y) F = A ++ set_at k t y :: B).
    { rewrite E at 1. rewrite <- HA. clear. induction A; simpl; auto. f_equal; auto. }
    rewrite Hs, Hgen. f_equal. apply exc_ext_q. intros j Hj. apply co_set_at. lia.
  - rewrite E at 1. apply Hgen.
  - unfold slope_lt. f_equal. f_equal. replace (map co F) with (map co (A ++ y :: B)) by (rewrite <- E; auto). rewrite !map_app, !filter_app. f_equal. simpl map. simpl filter.
    assert (Hn : ltb (co y k) (co y k) = false).
    { destruct (ltb (co y k) (co y k)) eqn:El; auto. apply ltb_true in El. lra. }
    rewrite Hn. reflexivity.
  - intros p Hp. apply in_map_iff in Hp as (q & <- & Hq). apply in_app_or in Hq.
    destruct Hq as [Hq|Hq]; apply In_nth with (d := []) in Hq as (j & Hj & <-).
    + exists j. split; [rewrite E, app_length; simpl; lia|]. split; [lia|]. f_equal. rewrite E. rewrite app_nth1; auto.
    + exists (S i + j)%nat. split; [rewrite E, app_length; simpl; lia|]. split; [lia|]. f_equal. rewrite E.
      rewrite app_nth2 by lia. replace (S i + j - length A)%nat with (S j) by lia. reflexivity.
Qed.

Lemma left_slope F ref i k : rows_ok F ref -> (i < length F)%nat -> (k < length ref)%nat ->
  coord F i k <= nth k ref 0 -> is_left_slope F ref i k (gradf F ref i k).
Proof.
  intros Hr Hi Hk Hin. destruct (length ref) as [|d] eqn:Hd; [lia|].
  destruct (HV_split F ref i k d Hr Hi Hd ltac:(lia)) as (P & c & H1 & H2 & H3 & _).
  destruct (exc_left d (co ref) P (co (nth i F [])) k ltac:(lia) Hin) as (e & He & Hl).
  exists e. split; auto. intros t v w Ht Hv Hw.
  apply is_hv_iff in Hv; auto. apply is_hv_iff in Hw; [|apply rows_set_coord; auto].
  subst. rewrite H1, H2, Hl by exact Ht. unfold gradf. rewrite Hd, H3.
  replace (S d - 1)%nat with d by lia. unfold coord, co. ring.
Qed.

Lemma two_sided_slope F ref i k : rows_ok F ref -> (i < length F)%nat -> (k < length ref)%nat ->
  coord F i k < nth k ref 0 -> no_tie F i k -> is_slope F ref i k (gradf F ref i k).
Proof.
  intros Hr Hi Hk Hin Hnt. destruct (length ref) as [|d] eqn:Hd; [lia|].
  destruct (HV_split F ref i k d Hr Hi Hd ltac:(lia)) as (P & c & H1 & H2 & H3 & H4).
  destruct (exc_two_sided d (co ref) P (co (nth i F [])) k ltac:(lia) Hin) as (e & He & Hl).
  { intros p Hp. destruct (H4 p Hp) as (j & Hj & Hne & ->). apply Hnt; auto. }
  exists e. split; auto. intros t v w Ht Hv Hw.
  apply is_hv_iff in Hv; auto. apply is_hv_iff in Hw; [|apply rows_set_coord; auto].
  subst. rewrite H1, H2, Hl by exact Ht. unfold gradf. rewrite Hd, H3.
  replace (S d - 1)%nat with d by lia. unfold coord, co. ring.
Qed.

Lemma set_coord_same F i k : (i < length F)%nat -> set_coord F i k (coord F i k) = F.
Proof.
  intros Hi. unfold set_coord, coord.
  assert (Hs : forall A (l : list A) n d, set_at n (nth n l d) l = l).
  { clear. intros A l. induction l as [|a l IH]; intros [|n] d; simpl; auto. f_equal; auto. }
  rewrite Hs. apply Hs.
Qed.

Lemma slope_partial F ref i k g : (i < length F)%nat -> is_slope F ref i k g -> is_partial F ref i k g.
Proof.
  intros Hi (e & He & Hs) h Hh.
  assert (Hv : is_hypervolume F ref (h (coord F i k))).
  { rewrite <- (set_coord_same F i k Hi) at 1. apply Hh. }
  apply (is_derive_ext_loc (fun t => h (coord F i k) + g * (t - coord F i k))).
  - exists (mkposreal e He). intros t Ht. symmetry. apply (Hs t); auto.
    unfold ball in Ht; simpl in Ht. unfold AbsRing_ball, abs, minus, plus, opp in Ht; simpl in Ht.
    apply Rabs_lt_between in Ht. lra.
  - auto_derive; auto. ring.
Qed.

Lemma partial_unique F ref i k g g' : rows_ok F ref -> (i < length F)%nat ->
  is_partial F ref i k g -> is_partial F ref i k g' -> g = g'.
Proof.
  intros Hr Hi H1 H2.
  pose proof (H1 (fun t => HVof (set_coord F i k t) ref)) as D1.
  pose proof (H2 (fun t => HVof (set_coord F i k t) ref)) as D2.
  rewrite <- (is_derive_unique _ _ _ (D1 ltac:(intros t; apply hv_is_hypervolume, rows_set_coord; auto))).
  apply is_derive_unique. apply D2. intros t; apply hv_is_hypervolume, rows_set_coord; auto.
Qed.

(** * Auxiliary list operations of the model *)
Lemma delete_at_length {A} k (l : list A) : (k < length l)%nat -> length (delete_at k l) = (length l - 1)%nat.
Proof.
  revert k. induction l as [|a l IH]; intros [|k] Hk; simpl in *; try lia.
  rewrite IH by lia. lia.
Qed.
Lemma nth_delete_at {A} k j (l : list A) d : nth j (delete_at k l) d = if (j <? k)%nat then nth j l d else nth (S j) l d.
Proof.
  revert k j. induction l as [|a l IH]; intros [|k] [|j]; simpl; auto.
  - destruct (_ <? _)%nat; auto.
  - rewrite IH. destruct (Nat.ltb_spec j k), (Nat.ltb_spec (S j) (S k)); try lia; auto.
Qed.
Lemma co_delete_at k (p : list R) j : co (delete_at k p) j = drop k (co p) j.
Proof. unfold co, drop. apply nth_delete_at. Qed.

Lemma map_res_ok {A B} (f : A -> res B) (g : A -> B) l : (forall a, In a l -> f a = Ok (g a)) ->
  map_res f l = Ok (map g l).
Proof.
  induction l as [|a l IH]; intros Hf; simpl; auto. rewrite Hf by (simpl; auto). simpl.
  rewrite IH by (intros; apply Hf; simpl; auto). reflexivity.
Qed.

Lemma gather_nth {A} (d d' : A) l ix s : (s < length ix)%nat -> nth s (gather d l ix) d' = nth (nth s ix 0%nat) l d.
Proof.
  intros Hs. unfold gather. rewrite (nth_indep _ d' (nth 0 l d)) by (rewrite map_length; auto).
  rewrite (map_nth (fun i => nth i l d)). reflexivity.
Qed.

(** * Non-dominated indices *)
Lemma argmin_aux_spec (l : list R) pos best b (L : nat -> R) :
  (forall j, (j < length l)%nat -> nth j l 0 = L (pos + j)%nat) -> L best = b -> (best < pos)%nat ->
  (forall j, (j < pos)%nat -> b <= L j) ->
  (argmin_aux l pos best b < pos + length l)%nat /\
  forall j, (j < pos + length l)%nat -> L (argmin_aux l pos best b) <= L j.
Proof.
  revert pos best b. induction l as [|x l IH]; intros pos best b Hl Hb Hbp Hmin; simpl.
  - split; [lia|]. intros j Hj. rewrite Hb. apply Hmin. lia.
  - assert (Hx : x = L pos) by (specialize (Hl 0%nat ltac:(simpl; lia)); simpl in Hl; rewrite Nat.add_0_r in Hl; auto).
    assert (Hl' : forall j, (j < length l)%nat -> nth j l 0 = L (S pos + j)%nat).
    { intros j Hj. specialize (Hl (S j) ltac:(simpl; lia)). simpl in Hl. rewrite Hl. f_equal. lia. }
    replace (pos + S (length l))%nat with (S pos + length l)%nat by lia.
    destruct (nltb_spec x b) as [Hlt|Hge].
    + apply IH; auto. intros j Hj. destruct (Nat.eq_dec j pos) as [->|]; [lra|]. specialize (Hmin j ltac:(lia)). lra.
    + apply IH; auto. intros j Hj. destruct (Nat.eq_dec j pos) as [->|]; [lra|]. apply Hmin. lia.
Qed.
Lemma argmin_spec (l : list R) : l <> [] ->
  exists i, argmin l = Ok i /\ (i < length l)%nat /\ forall j, (j < length l)%nat -> nth i l 0 <= nth j l 0.
Proof.
  destruct l as [|x l]; [congruence|]. intros _. simpl argmin.
  destruct (argmin_aux_spec l 1 0 x (fun j => nth j (x :: l) 0)) as [H1 H2]; auto.
  - intros j Hj. replace j with 0%nat by lia. simpl. lra.
  - eexists; split; [reflexivity|]. simpl length. split; [lia|]. intros j Hj. apply H2. lia.
Qed.

Lemma concat_one (P : list (list R)) : (forall p, In p P -> length p = 1%nat) ->
  length (concat P) = length P /\ forall j, nth j (concat P) 0 = nth 0 (nth j P []) 0.
Proof.
  induction P as [|p P IH]; intros Hp; simpl.
  - split; auto. intros [|j]; auto.
  - destruct p as [|x [|? ?]]; try (specialize (Hp _ (or_introl eq_refl)); discriminate).
    destruct IH as [H1 H2]; [intros; apply Hp; simpl; auto|]. simpl. split; [lia|].
    intros [|j]; auto.
Qed.

Lemma dominates_dec a b : {dominates a b} + {~ dominates a b}.
Proof.
  destruct (weakly_dominates_dec a b) as [Hw|Hw].
  - destruct (weakly_dominates_dec b a) as [Hv|Hv].
    + right. intros (_ & _ & k & Hk & Hlt). destruct Hv as [Hl Hv]. specialize (Hv k ltac:(lia)). lra.
    + left. destruct Hw as [Hl Hw]. split; auto. split; auto.
      destruct (not_all_ex (length a) (co b) (co a)) as [Hle|(k & Hk & Hlt)].
      * exfalso. apply Hv. split; auto. intros k Hk. apply Hle. lia.
      * exists k. split; auto.
  - right. intros (Hl & Hw' & _). apply Hw. split; auto.
Qed.
Lemma weak_dominates_trans a b c : dominates a b -> weakly_dominates b c -> dominates a c.
Proof.
  intros (L1 & A1 & k & Hk & S1) (L2 & A2). split; [congruence|]. split.
  - intros j Hj. specialize (A1 j Hj). specialize (A2 j ltac:(lia)). lra.
  - exists k. split; auto. specialize (A2 k ltac:(lia)). lra.
Qed.
Lemma dominates_weakly a b : dominates a b -> weakly_dominates a b.
Proof. intros (H1 & H2 & _). split; auto. Qed.
Lemma weakly_refl a : weakly_dominates a a.
Proof. split; auto. intros; lra. Qed.

Lemma front0_cover (P : list (list R)) i : (i < length P)%nat ->
  exists j, pareto_front P 0 j /\ weakly_dominates (row P j) (row P i).
Proof.
  intros Hi.
  set (D := fun i => filter (fun j => if dominates_dec (row P j) (row P i) then true else false) (seq 0 (length P))).
  remember (length (D i)) as n eqn:Hn. revert i Hi Hn.
  induction n as [n IH] using lt_wf_ind. intros i Hi Hn.
  destruct (D i) as [|j D'] eqn:ED.
  - exists i. split; [|apply weakly_refl]. split; [exact Hi|]. intros (j & Hj & Hd). simpl in Hj.
    assert (Hin : In j (D i)).
    { apply filter_In. split; [apply in_seq; lia|]. destruct (dominates_dec _ _); auto. }
    rewrite ED in Hin. destruct Hin.
  - assert (Hj : In j (D i)) by (rewrite ED; simpl; auto).
    apply filter_In in Hj as [Hjs Hjd]. apply in_seq in Hjs.
    destruct (dominates_dec (row P j) (row P i)) as [Hd|]; [|discriminate].
    destruct (IH (length (D j))) with (i := j) as (l & Hl & Hw); [ | lia | reflexivity | ].
    + assert (Hsub : incl (D j) (D i)).
      { intros l Hl. apply filter_In in Hl as [Hls Hld]. apply filter_In. split; auto.
        destruct (dominates_dec (row P l) (row P j)); [|discriminate].
        destruct (dominates_dec (row P l) (row P i)) as [|Hn0]; auto. exfalso. apply Hn0. eapply dominates_trans; eauto. }
      assert (Hnj : ~ In j (D j)).
      { intros Hc. apply filter_In in Hc as [_ Hc]. destruct (dominates_dec (row P j) (row P j)) as [Hdd|]; [|discriminate].
        apply (dominates_irrefl _ Hdd). }
      assert (Hle : (length (j :: D j) <= length (D i))%nat).
      { apply NoDup_incl_length.
        - constructor; auto. apply NoDup_filter, seq_NoDup.
        - intros x [<-|Hx]; [rewrite ED; simpl; auto|apply Hsub; auto]. }
      rewrite ED, <- Hn in Hle. simpl in Hle. lia.
    + exists l. split; auto. destruct Hd as (L1 & A1 & _), Hw as [L2 A2]. split; [congruence|].
      intros k Hk. specialize (A2 k Hk). specialize (A1 k ltac:(lia)). lra.
Qed.

Lemma first_front_spec (P : list (list R)) m : P <> [] -> (2 <= m)%nat -> (forall p, In p P -> length p = m) ->
  exists ind, first_front P = Ok ind /\ NoDup ind /\ (forall i, In i ind <-> pareto_front P 0 i).
Proof.
  intros HP Hm Hl. destruct (nds_idx_correct P m HP Hm Hl) as (d & E & [q H1] & H2 & H3 & _).
  unfold first_front. rewrite E. cbn [bind].
  assert (Hd : exists l, In (0%nat, l) d).
  { destruct P as [|p P]; [congruence|]. destruct (H3 0%nat ltac:(simpl; lia)) as (r & l & Hrl & _).
    assert (Hr : In r (map fst d)) by (apply in_map_iff; exists (r, l); auto).
    rewrite H1 in Hr. apply in_seq in Hr.
    assert (H0 : In 0%nat (map fst d)) by (rewrite H1; apply in_seq; lia).
    apply in_map_iff in H0 as ([r0 l0] & E0 & Hin). simpl in E0. subst. eauto. }
  destruct Hd as (l0 & Hl0).
  destruct (find (fun e => (fst e =? 0)%nat) d) as [[r l]|] eqn:Ef.
  - apply find_some in Ef as [Hin Hr]. apply Nat.eqb_eq in Hr. simpl in Hr. subst r.
    exists l. split; auto. destruct (H2 0%nat l Hin) as (A & B & C). split; [apply StronglySorted_lt_NoDup; auto|exact C].
  - exfalso. apply (find_none _ _ Ef) in Hl0. discriminate.
Qed.

Lemma nondominated_spec (P : list (list R)) m : P <> [] -> (1 <= m)%nat -> (forall p, In p P -> length p = m) ->
  exists ind, nondominated_indices m P = Ok ind /\ NoDup ind /\ (forall i, In i ind -> (i < length P)%nat) /\
    (forall i, (i < length P)%nat -> exists j, In j ind /\ weakly_dominates (row P j) (row P i)) /\
    (forall i, In i ind -> ~ exists j, (j < length P)%nat /\ dominates (row P j) (row P i)) /\
    ((2 <= m)%nat -> forall i, (i < length P)%nat -> ~ (exists j, (j < length P)%nat /\ dominates (row P j) (row P i)) -> In i ind).
Proof.
  intros HP Hm Hl. unfold nondominated_indices. destruct (Nat.eqb_spec m 1) as [->|Hne].
  - destruct (concat_one P Hl) as [C1 C2].
    destruct (argmin_spec (concat P)) as (i & E & Hi & Hmin).
    { intros Hc. apply (f_equal (@length R)) in Hc. rewrite C1 in Hc. destruct P; [congruence|discriminate]. }
    rewrite E. cbn [bind]. exists [i]. split; auto. rewrite C1 in *.
    split; [repeat constructor; auto|]. split; [intros j [<-|[]]; auto|]. split; [|split].
    + intros j Hj. exists i. split; [simpl; auto|]. unfold row.
      split; [rewrite !Hl; auto; apply nth_In; auto|]. rewrite Hl by (apply nth_In; auto).
      intros k Hk. replace k with 0%nat by lia. specialize (Hmin j Hj). rewrite !C2 in Hmin. auto.
    + intros j [<-|[]] (l & Hlt & (_ & _ & k & Hk & Hd)). unfold row in *. rewrite Hl in Hk by (apply nth_In; auto).
      replace k with 0%nat in Hd by lia. specialize (Hmin l Hlt). rewrite !C2 in Hmin. lra.
    + intros; lia.
  - destruct (first_front_spec P m HP ltac:(lia) Hl) as (ind & E & H1 & H2). exists ind. split; auto. split; auto.
    split; [|split; [|split]].
    + intros i Hi. apply H2 in Hi. apply Hi.
    + intros i Hi. destruct (front0_cover P i Hi) as (j & Hj & Hw). exists j. split; auto. apply H2; auto.
    + intros i Hi. apply H2 in Hi. apply Hi.
    + intros _ i Hi Hn. apply H2. split; auto.
Qed.

(** * Projection *)
Lemma project_spec (F : list (list R)) (ref : list R) axis i d :
  rows_ok F ref -> (i < length F)%nat -> length ref = S d -> (axis <= d)%nat -> (1 <= d)%nat ->
  exists front_ idx, project axis i F ref = Ok (delete_at axis (nth i F []), front_, delete_at axis ref, idx) /\
    length front_ = length idx /\ NoDup idx /\
    (forall s, (s < length idx)%nat -> (nth s idx 0 < length F)%nat /\ coord F (nth s idx 0%nat) axis < coord F i axis /\
        nth s front_ [] = delete_at axis (nth (nth s idx 0%nat) F [])) /\
    (forall j, (j < length F)%nat -> coord F j axis < coord F i axis ->
        exists s, (s < length idx)%nat /\ weakly_dominates (nth s front_ []) (delete_at axis (nth j F []))) /\
    (forall s j, (s < length idx)%nat -> (j < length F)%nat -> coord F j axis < coord F i axis ->
        ~ dominates (delete_at axis (nth j F [])) (nth s front_ [])) /\
    ((2 <= d)%nat -> forall j, (j < length F)%nat -> coord F j axis < coord F i axis ->
        (forall l, (l < length F)%nat -> coord F l axis < coord F i axis ->
            ~ dominates (delete_at axis (nth l F [])) (delete_at axis (nth j F []))) -> In j idx).
Proof.
  intros Hr Hi Hd Hax Hd1. unfold project.
  rewrite (nth_error_nth' F [] Hi).
  set (idx := filter _ (seq 0 (length F))).
  set (fr_ := map (delete_at axis) (gather [] F idx)).
  assert (Hidx : forall j, In j idx <-> (j < length F)%nat /\ coord F j axis < coord F i axis).
  { intros j. unfold idx. rewrite filter_In, in_seq, nltb_true. unfold coord. numR. split; intros [H1 H2]; split; auto; lia. }
  assert (Hnd : NoDup idx) by (apply NoDup_filter, seq_NoDup).
  assert (Hlf : length fr_ = length idx) by (unfold fr_, gather; rewrite !map_length; auto).
  assert (Hnf : forall s, (s < length idx)%nat -> nth s fr_ [] = delete_at axis (nth (nth s idx 0%nat) F [])).
  { intros s Hs. unfold fr_. rewrite (nth_indep _ [] (delete_at axis [])) by (rewrite map_length; unfold gather; rewrite map_length; auto).
    rewrite map_nth. f_equal. rewrite gather_nth by auto. reflexivity. }
  assert (Hsin : forall s, (s < length idx)%nat -> (nth s idx 0 < length F)%nat /\ coord F (nth s idx 0%nat) axis < coord F i axis).
  { intros s Hs. apply Hidx. apply nth_In; auto. }
  assert (Hrow : forall p, In p fr_ -> length p = d).
  { intros p Hp. apply in_map_iff in Hp as (q & <- & Hq). apply in_map_iff in Hq as (j & <- & Hj).
    apply Hidx in Hj as [Hj _]. assert (length (nth j F []) = S d) by (rewrite <- Hd; apply Hr, nth_In; auto).
    rewrite delete_at_length; lia. }
  destruct (Nat.eqb_spec (length fr_) 0) as [E0|E0].
  - exists fr_, idx. split; auto. split; auto. split; auto. rewrite Hlf in E0.
    split; [intros s Hs; lia|]. split; [|split].
    + intros j Hj Hlt. exfalso. assert (In j idx) by (apply Hidx; auto). destruct idx; [auto|discriminate].
    + intros s j Hs. lia.
    + intros _ j Hj Hlt _. apply Hidx; auto.
  - assert (HPne : fr_ <> []) by (intros Hc; rewrite Hc in E0; auto).
    assert (Hld : length (delete_at axis ref) = d) by (rewrite delete_at_length; lia).
    rewrite Hld.
    destruct (nondominated_spec fr_ d HPne Hd1 Hrow) as (ind & E & N1 & N2 & N3 & N4 & N5). rewrite E. cbn [bind].
    exists (gather [] fr_ ind), (gather 0%nat idx ind). split; auto.
    assert (Hg : forall s, (s < length ind)%nat -> (nth s ind 0 < length idx)%nat).
    { intros s Hs. rewrite <- Hlf. apply N2. apply nth_In; auto. }
    split; [unfold gather; rewrite !map_length; auto|]. split; [|split; [|split; [|split]]].
    + unfold gather. apply NoDup_nth with (d := 0%nat). intros a b Ha Hb. rewrite map_length in Ha, Hb.
      rewrite !(nth_indep (map _ ind) 0%nat (nth 0 idx 0%nat)) by (rewrite map_length; auto).
      rewrite !(map_nth (fun i => nth i idx 0%nat)). intros Hab.
      apply NoDup_nth in Hab; auto. apply NoDup_nth in Hab; auto.
    + intros s Hs. unfold gather in Hs. rewrite map_length in Hs. rewrite (gather_nth 0%nat 0%nat) by auto.
      rewrite gather_nth by auto. destruct (Hsin _ (Hg s Hs)) as [S1 S2]. split; auto.
    + intros j Hj Hlt. assert (Hjin : In j idx) by (apply Hidx; auto).
      apply In_nth with (d := 0%nat) in Hjin as (s & Hs & Hsj).
      destruct (N3 s ltac:(lia)) as (s' & Hs' & Hw). apply In_nth with (d := 0%nat) in Hs' as (u & Hu & Hus).
      exists u. split; [unfold gather; rewrite map_length; auto|]. rewrite gather_nth by auto. rewrite Hus.
      unfold row in Hw. rewrite (Hnf s Hs), Hsj in Hw. exact Hw.
    + intros s j Hs Hj Hlt Hdom. unfold gather in Hs. rewrite map_length in Hs. rewrite gather_nth in Hdom by auto.
      assert (Hjin : In j idx) by (apply Hidx; auto).
      apply In_nth with (d := 0%nat) in Hjin as (u & Hu & Huj).
      apply (N4 (nth s ind 0%nat)); [apply nth_In; auto|]. exists u. split; [lia|]. unfold row. rewrite (Hnf u Hu), Huj. auto.
    + intros Hd2 j Hj Hlt Hn. assert (Hjin : In j idx) by (apply Hidx; auto).
      apply In_nth with (d := 0%nat) in Hjin as (u & Hu & Huj).
      unfold gather. apply in_map_iff. exists u. split; auto.
      apply N5; auto; [lia|]. intros (v & Hv & Hdom). rewrite Hlf in Hv. unfold row in Hdom.
      rewrite (Hnf u Hu), (Hnf v Hv), Huj in Hdom.
      destruct (Hsin v Hv) as [V1 V2]. apply (Hn _ V1 V2 Hdom).
Qed.

(** the exclusive volume of the projection is the slope *)
Lemma project_slope (F : list (list R)) (ref : list R) axis i d front_ idx :
  rows_ok F ref -> length ref = S d -> (axis <= d)%nat ->
  length front_ = length idx ->
  (forall s, (s < length idx)%nat -> (nth s idx 0 < length F)%nat /\ coord F (nth s idx 0%nat) axis < coord F i axis /\
        nth s front_ [] = delete_at axis (nth (nth s idx 0%nat) F [])) ->
  (forall j, (j < length F)%nat -> coord F j axis < coord F i axis ->
        exists s, (s < length idx)%nat /\ weakly_dominates (nth s front_ []) (delete_at axis (nth j F []))) ->
  exc d (co (delete_at axis ref)) (map co front_) (co (delete_at axis (nth i F []))) =
  slope_lt d (co ref) (map co F) (co (nth i F [])) axis.
Proof.
  intros Hr Hd Hax Hlf Hs Hc. unfold slope_lt.
  rewrite (exc_ext_q d _ _ _ (drop axis (co (nth i F [])))) by (intros; apply co_delete_at).
  rewrite (exc_ext_r d (co (delete_at axis ref)) (drop axis (co ref))) by (intros; apply co_delete_at).
  apply exc_cover.
  - intros p Hp. apply in_map_iff in Hp as (q & <- & Hq). apply In_nth with (d := []) in Hq as (s & Hsl & <-).
    rewrite Hlf in Hsl. destruct (Hs s Hsl) as (S1 & S2 & ->).
    exists (drop axis (co (nth (nth s idx 0%nat) F []))). split.
    + apply in_map. apply filter_In. split; [apply in_map, nth_In; auto|]. apply ltb_true. exact S2.
    + intros k Hk. rewrite co_delete_at. lra.
  - intros p Hp. apply in_map_iff in Hp as (q & <- & Hq). apply filter_In in Hq as [Hq Hlt]. apply ltb_true in Hlt.
    apply in_map_iff in Hq as (q' & <- & Hq). apply In_nth with (d := []) in Hq as (j & Hj & <-).
    destruct (Hc j Hj Hlt) as (s & Hsl & Hw). exists (co (nth s front_ [])).
    split; [apply in_map, nth_In; lia|]. intros k Hk. destruct Hw as [Hwl Hw].
    rewrite <- co_delete_at. apply Hw. rewrite Hwl. rewrite delete_at_length.
    + rewrite (Hr (nth j F [])) by (apply nth_In; auto). lia.
    + rewrite (Hr (nth j F [])) by (apply nth_In; auto). lia.
Qed.

(** * Three and more objectives *)
Section Code.
Variable minf : R.
Variable argsort : list R -> list nat.
Hypothesis Ha : argsort_ok argsort.

Lemma hvi_exc x F ref : hv_ok minf argsort (x :: F) ref ->
  hypervolume_improvement minf argsort x F ref = Ok (exc (length ref) (co ref) (map co F) (co x)).
Proof.
  intros Hi. rewrite (hvi_ok minf argsort Ha x F ref Hi). f_equal. simpl map. rewrite hv_exc. ring.
Qed.

Lemma distinct_harmless' front ref : rows_ok front ref ->
  (forall p k, In p front -> (k < length ref)%nat -> nth k p 0 <> nth k ref 0) ->
  (forall i j k, (i < length front)%nat -> (j < length front)%nat -> i <> j -> (k < length ref)%nat ->
     nth k (nth i front []) 0 <> nth k (nth j front []) 0) -> harmless_ties front ref.
Proof.
  intros Hr Hin Hd. split.
  - intros p k Hp [Hl Hw] Hk. specialize (Hw k). rewrite Hl in Hw. specialize (Hw ltac:(lia)).
    specialize (Hin p k Hp ltac:(lia)). lra.
  - intros i j d k Hi Hj Hne _ _ Hdl Hle Hk1 Hk2. apply Hd; auto; lia.
Qed.

(** equal coordinates are smallest possible *)
Definition floor_ties (F : list (list R)) (ref : list R) : Prop := exists fl : nat -> R,
  (forall i k, (i < length F)%nat -> (k < length ref)%nat -> fl k <= coord F i k) /\
  (forall i j k, (i < length F)%nat -> (j < length F)%nat -> i <> j -> (k < length ref)%nat ->
     coord F i k = coord F j k -> coord F i k = fl k).
Definition none_dominated (F : list (list R)) : Prop :=
  forall i j, (i < length F)%nat -> (j < length F)%nat -> ~ dominates (nth j F []) (nth i F []).
Definition dims_ok (F : list (list R)) (ref : list R) : Prop :=
  (length ref <= 4)%nat \/ general_position F ref \/
  (length ref = 5%nat /\ argsort_stable argsort /\ off_reference F ref /\ (none_dominated F \/ floor_ties F ref)).

Lemma delete_coord F j axis k : nth k (delete_at axis (nth j F [])) 0 = coord F j (if (k <? axis)%nat then k else S k).
Proof. unfold coord. rewrite nth_delete_at. destruct (k <? axis)%nat; auto. Qed.

Lemma project_input F ref axis i d front_ idx :
  rows_ok F ref -> (i < length F)%nat -> length ref = S d -> (axis <= d)%nat -> (1 <= d)%nat ->
  above_all minf F ref -> dims_ok F ref ->
  length front_ = length idx -> NoDup idx ->
  (forall s, (s < length idx)%nat -> (nth s idx 0 < length F)%nat /\ coord F (nth s idx 0%nat) axis < coord F i axis /\
        nth s front_ [] = delete_at axis (nth (nth s idx 0%nat) F [])) ->
  (forall s j, (s < length idx)%nat -> (j < length F)%nat -> coord F j axis < coord F i axis ->
        ~ dominates (delete_at axis (nth j F [])) (nth s front_ [])) ->
  hv_ok minf argsort (delete_at axis (nth i F []) :: front_) (delete_at axis ref).
Proof.
  intros Hr Hi Hd Hax Hd1 Hab Hdim Hlf Hnd Hs Hnf.
  set (J := i :: idx).
  assert (HJ : NoDup J).
  { constructor; auto. intros Hc. apply In_nth with (d := 0%nat) in Hc as (s & Hsl & E).
    destruct (Hs s Hsl) as (_ & Hlt & _). rewrite E in Hlt. lra. }
  assert (HJF : forall s, (s < length J)%nat -> (nth s J 0 < length F)%nat /\
    nth s (delete_at axis (nth i F []) :: front_) [] = delete_at axis (nth (nth s J 0%nat) F [])).
  { intros [|s] Hsl; simpl in *; auto. destruct (Hs s ltac:(lia)) as (S1 & S2 & S3). auto. }
  assert (HlJ : length (delete_at axis (nth i F []) :: front_) = length J) by (simpl; lia).
  assert (Hlr : length (delete_at axis ref) = d) by (rewrite delete_at_length; lia).
  assert (Hin : forall p, In p (delete_at axis (nth i F []) :: front_) -> exists j, (j < length F)%nat /\ p = delete_at axis (nth j F [])).
  { intros p Hp. apply In_nth with (d := []) in Hp as (s & Hsl & <-). rewrite HlJ in Hsl.
    destruct (HJF s Hsl) as [S1 S2]. eauto. }
  set (rk := fun k => if (k <? axis)%nat then k else S k).
  assert (Hrk : forall k, (k < d)%nat -> (rk k < length ref)%nat).
  { intros k Hk. unfold rk. destruct (Nat.ltb_spec k axis); lia. }
  assert (Hrows : rows_ok (delete_at axis (nth i F []) :: front_) (delete_at axis ref)).
  { intros p Hp. destruct (Hin p Hp) as (j & Hj & ->). rewrite Hlr.
    pose proof (Hr (nth j F []) ltac:(apply nth_In; auto)). rewrite delete_at_length; lia. }
  assert (Hrefk : forall k, nth k (delete_at axis ref) 0 = nth (rk k) ref 0).
  { intros k. rewrite nth_delete_at. unfold rk. destruct (k <? axis)%nat; auto. }
  split; [lia|]. split; [exact Hrows|]. split.
  - intros p k Hp _ Hk. destruct (Hin p Hp) as (j & Hj & ->). rewrite Hlr in Hk.
    rewrite Hrefk. rewrite delete_coord. apply Hab; [auto|apply Hrk; auto].
  - destruct Hdim as [H4|[[G1 G2]|(H5 & Hst & G2 & Hties)]]; [left; lia|right; left; apply distinct_harmless'; auto; rewrite ?Hlr|].

    + intros p k Hp Hk. destruct (Hin p Hp) as (j & Hj & ->). rewrite Hrefk, delete_coord. apply G2; [auto|apply Hrk; auto].
    + intros s u k Hsl Hul Hne Hk. rewrite HlJ in Hsl, Hul. destruct (HJF s Hsl) as [S1 ->], (HJF u Hul) as [U1 ->].
      rewrite !delete_coord. fold (rk k). intros Hc. apply (G1 (nth u J 0%nat) (rk k) U1 (Hrk k Hk) (nth s J 0%nat) S1); auto.
      intros Hc2. apply Hne. apply (proj1 (NoDup_nth J 0%nat) HJ); auto.
    + right; right. split; auto. assert (Ed4 : d = 4%nat) by lia. split.
      * intros p k Hp [Hw1 Hw2] Hk. destruct (Hin p Hp) as (j & Hj & ->). rewrite Hlr in Hk.
        specialize (Hw2 k). rewrite (Hrows _ Hp), Hlr in Hw2. specialize (Hw2 ltac:(lia)).
        rewrite Hrefk, delete_coord in *. fold (rk k) in *. specialize (G2 j (rk k) Hj (Hrk k ltac:(lia))). lra.
      * intros a b e Hab' Hb _ _ He3 Hel Hle Hex Hz. rewrite Hlr in Hel. assert (e = 3)%nat as -> by lia.
        rewrite HlJ in Hb.
        assert (Hlp : forall s, (s < length J)%nat -> length (nth s (delete_at axis (nth i F []) :: front_) []) = 4%nat).
        { intros s Hsl. rewrite (Hrows _ (nth_In _ [] ltac:(rewrite HlJ; exact Hsl))). lia. }
        assert (Hdom : dominates (nth b (delete_at axis (nth i F []) :: front_) []) (nth a (delete_at axis (nth i F []) :: front_) [])).
        { split; [rewrite !Hlp; auto; lia|]. rewrite Hlp by auto. split.
          - intros k Hk. apply Hle. lia.
          - destruct Hex as (k & Hk & Hlt). exists k. split; [lia|auto]. }
        destruct b as [|b]; [lia|]. destruct (HJF (S b) Hb) as [B1 B2]. simpl in Hb.
        destruct (Hs b ltac:(lia)) as (_ & Bl & _). cbn [J nth] in B1, B2.
        destruct a as [|a].
        -- (* the first point is dominated by a later one *)
           destruct Hties as [Hnd'|(fl & Fl1 & Fl2)].
           { exfalso. apply (Hnd' i (nth b idx 0%nat) Hi B1).
             cbn [nth] in Hdom. rewrite B2 in Hdom. destruct Hdom as (L1 & L2 & L3).
             assert (HLb : length (nth (nth b idx 0%nat) F []) = S d) by (rewrite <- Hd; apply Hr, nth_In; auto).
             assert (HLi : length (nth i F []) = S d) by (rewrite <- Hd; apply Hr, nth_In; auto).
             split; [congruence|]. rewrite HLb. split.
             - intros k Hk. rewrite delete_at_length in L2 by lia. rewrite HLb in L2.
               destruct (lt_eq_lt_dec k axis) as [[Hka|Hka]|Hka].
               + specialize (L2 k ltac:(lia)). rewrite !nth_delete_at in L2. destruct (Nat.ltb_spec k axis); [auto|lia].
               + rewrite Hka. unfold coord in Bl. lra.
               + specialize (L2 (k - 1)%nat ltac:(lia)). rewrite !nth_delete_at in L2.
                 destruct (Nat.ltb_spec (k - 1) axis); [lia|]. replace (S (k - 1)) with k in L2 by lia. auto.
             - exists axis. split; [lia|]. exact Bl. }
           (* it shares the floor: then it is the last point in the last dimension *)
           destruct (Hz ltac:(lia)) as (z & Hzl & Hz1 & Hz2 & _ & Hzc). rewrite HlJ in Hzl.
           destruct z as [|z]; [congruence|]. destruct (HJF (S z) Hzl) as [Z1 Z2]. simpl in Hzl. cbn [J nth] in Z1, Z2.
           destruct (Hs z ltac:(lia)) as (_ & Zl & _).
           assert (Hbi : nth b idx 0%nat <> i) by (intros Ec; rewrite Ec in Bl; lra).
           set (bb := nth b idx 0%nat) in *. set (zz := nth z idx 0%nat) in *.
           assert (Hle' : forall l, (l <= 3)%nat -> coord F bb (rk l) <= coord F i (rk l)).
           { intros l Hl. specialize (Hle l Hl). cbn [nth] in Hle. rewrite B2, !delete_coord in Hle. exact Hle. }
           destruct (Rle_lt_or_eq_dec _ _ (Hle' 0%nat ltac:(lia))) as [|E0]; [exists 0%nat; split; [lia|]; cbn [nth]; rewrite B2, !delete_coord; auto|].
           destruct (Rle_lt_or_eq_dec _ _ (Hle' 1%nat ltac:(lia))) as [|E1]; [exists 1%nat; split; [lia|]; cbn [nth]; rewrite B2, !delete_coord; auto|].
           destruct (Rle_lt_or_eq_dec _ _ (Hle' 2%nat ltac:(lia))) as [|E2]; [exists 2%nat; split; [lia|]; cbn [nth]; rewrite B2, !delete_coord; auto|].
           exfalso. apply (Hnf z bb ltac:(lia) B1 Bl). rewrite Z2.
           assert (HLb : length (delete_at axis (nth bb F [])) = 4%nat) by (rewrite <- B2; apply (Hlp (S b)); simpl; lia).
           assert (HLz : length (delete_at axis (nth zz F [])) = 4%nat) by (rewrite <- Z2; apply (Hlp (S z)); simpl; lia).
           assert (E3 : coord F bb (rk 3%nat) < coord F i (rk 3%nat)).
           { destruct Hex as (l & Hl & Hlt). cbn [nth] in Hlt. rewrite B2, !delete_coord in Hlt. fold (rk l) in Hlt.
             destruct l as [|[|[|[|l]]]]; try lia; try lra. }
           cbn [nth] in Hzc. rewrite Z2, !delete_coord in Hzc. fold (rk 3%nat) in Hzc.
           split; [congruence|]. rewrite HLb. split.
           ++ intros l Hl. rewrite !delete_coord. fold (rk l).
              assert (Hfl : forall l', (l' <= 3)%nat -> coord F bb (rk l') = coord F i (rk l') -> coord F bb (rk l') <= coord F zz (rk l')).
              { intros l' Hl' Eq. rewrite (Fl2 bb i (rk l') B1 Hi Hbi (Hrk l' ltac:(lia)) Eq). apply Fl1; auto; apply Hrk; lia. }
              destruct l as [|[|[|[|l]]]]; try lia; [apply Hfl; auto; lia..|lra].
           ++ exists 3%nat. split; [lia|]. rewrite !delete_coord. fold (rk 3%nat). lra.
        -- exfalso. cbn [nth] in Hdom. rewrite B2 in Hdom. apply (Hnf a _ ltac:(lia) B1 Bl Hdom).
Qed.

Lemma grad_entry F ref axis i d :
  rows_ok F ref -> (i < length F)%nat -> length ref = S d -> (axis <= d)%nat -> (1 <= d)%nat ->
  above_all minf F ref -> dims_ok F ref ->
  (do pr <- project axis i F ref;
   let '(y_, front_, ref_, _) := pr in
   do v <- hypervolume_improvement minf argsort y_ front_ ref_;
   Ok (nmul (nopp none_) v)) = Ok (gradf F ref i axis).
Proof.
  intros Hr Hi Hd Hax Hd1 Hab Hdim.
  destruct (project_spec F ref axis i d Hr Hi Hd Hax Hd1) as (front_ & idx & E & P1 & P2 & P3 & P4 & P5 & _).
  rewrite E. cbn [bind].
  rewrite hvi_exc by (apply (project_input F ref axis i d front_ idx); auto). cbn [bind]. f_equal.
  unfold gradf. rewrite delete_at_length by lia. rewrite Hd. replace (S d - 1)%nat with d by lia.
  rewrite (project_slope F ref axis i d front_ idx); auto. numR. ring.
Qed.

Definition gradF (F : list (list R)) (ref : list R) : list (list R) :=
  map (fun i => map (fun k => gradf F ref i k) (seq 0 (length ref))) (seq 0 (length F)).

Lemma dY_ge3 F ref : rows_ok F ref -> (3 <= length ref)%nat -> above_all minf F ref -> dims_ok F ref ->
  hypervolume_dY minf argsort F ref = Ok (gradF F ref).
Proof.
  intros Hr H3 Hab Hdim. unfold hypervolume_dY.
  destruct (length ref) as [|[|[|d]]] eqn:Hd; try lia.
  unfold gradF. rewrite Hd. apply map_res_ok. intros i Hi. apply in_seq in Hi.
  apply map_res_ok. intros k Hk. apply in_seq in Hk. apply (grad_entry F ref k i (S (S d))); auto; lia.
Qed.
End Code.

(** * Two objectives *)
Definition sorted_desc (l : list R) (ix : list nat) : Prop :=
  StronglySorted (fun a b => nth a l 0 > nth b l 0 \/ (nth a l 0 = nth b l 0 /\ (a < b)%nat)) ix.

Lemma insert_desc_spec (l : list R) i acc :
  (forall j, In j acc -> (i < j)%nat) -> sorted_desc l acc ->
  Permutation (insert_desc l i acc) (i :: acc) /\ sorted_desc l (insert_desc l i acc).
Proof.
  induction acc as [|j acc IH]; intros Hlt Hs; simpl.
  - split; auto. repeat constructor.
  - inversion Hs as [|? ? Hs' Hf]; subst. destruct (nltb_spec (nth i l 0) (nth j l 0)) as [Hc|Hc].
    + destruct IH as [I1 I2]; auto. { intros; apply Hlt; simpl; auto. }
      split.
      * rewrite I1. apply perm_swap.
      * constructor; auto. apply Forall_forall. intros x Hx. apply (Permutation_in _ I1) in Hx.
        destruct Hx as [<-|Hx]; [left; lra|]. rewrite Forall_forall in Hf. apply Hf; auto.
    + split; auto. constructor; auto. apply Forall_forall. intros x [<-|Hx].
      * assert (i < j)%nat by (apply Hlt; simpl; auto). destruct (Rle_lt_or_eq_dec _ _ (Rnot_lt_le _ _ Hc)); [left|right]; auto.
      * rewrite Forall_forall in Hf. specialize (Hf x Hx). assert (i < x)%nat by (apply Hlt; simpl; auto).
        assert (nth j l 0 >= nth x l 0) by (destruct Hf as [|[]]; lra).
        apply Rnot_lt_le in Hc. destruct (Rle_lt_or_eq_dec _ _ (Rle_trans _ _ _ (Rge_le _ _ H0) Hc)); [left|right]; auto.
Qed.

Lemma argsort_desc_spec (l : list R) : Permutation (argsort_desc l) (seq 0 (length l)) /\ sorted_desc l (argsort_desc l).
Proof.
  unfold argsort_desc. generalize (length l) as n. intros n. generalize 0%nat as s.
  induction n as [|n IH]; intros s; simpl.
  - split; auto. constructor.
  - destruct (IH (S s)) as [I1 I2].
    destruct (insert_desc_spec l s (fold_right (insert_desc l) [] (seq (S s) n))) as [J1 J2]; auto.
    { intros j Hj. apply (Permutation_in _ I1) in Hj. apply in_seq in Hj. lia. }
    split; auto. rewrite J1. constructor; auto.
Qed.

Lemma StronglySorted_nth {A} (Rel : A -> A -> Prop) d l : StronglySorted Rel l ->
  forall a b, (a < b)%nat -> (b < length l)%nat -> Rel (nth a l d) (nth b l d).
Proof.
  induction 1 as [|x l Hs IH Hf]; intros a b Hab Hb; simpl in *; [lia|].
  destruct b as [|b]; [lia|]. destruct a as [|a].
  - rewrite Forall_forall in Hf. apply Hf. apply nth_In. lia.
  - apply IH; lia.
Qed.

Lemma gather_perm (ix ix2 : list nat) n : Permutation ix (seq 0 n) -> Permutation ix2 (seq 0 n) ->
  Permutation (gather 0%nat ix ix2) (seq 0 n).
Proof.
  intros H1 H2. assert (Hl : length ix = n) by (rewrite (Permutation_length H1), seq_length; auto).
  unfold gather. rewrite (Permutation_map _ H2). rewrite <- H1 at 2. rewrite <- Hl.
  clear. assert (E : map (fun i => nth i ix 0%nat) (seq 0 (length ix)) = ix).
  { apply nth_ext with (d := 0%nat) (d' := 0%nat); [rewrite map_length, seq_length; auto|].
    intros s Hs. rewrite map_length, seq_length in Hs.
    rewrite (nth_indep _ 0%nat (nth 0 ix 0%nat)) by (rewrite map_length, seq_length; auto).
    rewrite (map_nth (fun i => nth i ix 0%nat)), seq_nth; auto. }
  rewrite E. reflexivity.
Qed.

Lemma nth_col (F : list (list R)) k j : nth j (map (fun p => nth k p 0) F) 0 = coord F j k.
Proof.
  unfold coord. destruct (Nat.lt_ge_cases j (length F)) as [Hj|Hj].
  - rewrite (nth_indep _ 0 (nth k [] 0)) by (rewrite map_length; auto). rewrite (map_nth (fun p => nth k p 0)). reflexivity.
  - rewrite nth_overflow by (rewrite map_length; auto). rewrite (nth_overflow F) by auto. destruct k; auto.
Qed.

Lemma dY2_order_spec (F : list (list R)) : Permutation (dY2_order F) (seq 0 (length F)) /\
  forall a b, (a < b)%nat -> (b < length F)%nat ->
    coord F (nth a (dY2_order F) 0%nat) 1 > coord F (nth b (dY2_order F) 0%nat) 1 \/
    (coord F (nth a (dY2_order F) 0%nat) 1 = coord F (nth b (dY2_order F) 0%nat) 1 /\
     coord F (nth a (dY2_order F) 0%nat) 0 <= coord F (nth b (dY2_order F) 0%nat) 0).
Proof.
  unfold dY2_order. set (c0 := map (fun p => nth 0 p nzero) F). set (c1 := map (fun p => nth 1 p nzero) F).
  destruct (argsort_desc_spec c0) as [A1 A2]. set (i1 := rev (argsort_desc c0)).
  assert (L0 : length c0 = length F) by apply map_length.
  assert (P1 : Permutation i1 (seq 0 (length F))).
  { unfold i1. rewrite <- Permutation_rev. rewrite L0 in A1. exact A1. }
  assert (L1 : length i1 = length F) by (rewrite (Permutation_length P1), seq_length; auto).
  destruct (argsort_desc_spec (gather nzero c1 i1)) as [B1 B2]. set (i2 := argsort_desc (gather nzero c1 i1)) in *.
  assert (Lg : length (gather nzero c1 i1) = length F) by (unfold gather; rewrite map_length; auto).
  rewrite Lg in B1.
  assert (L2 : length i2 = length F) by (rewrite (Permutation_length B1), seq_length; auto).
  split; [apply gather_perm; auto|].
  intros a b Hab Hb. rewrite !(gather_nth 0%nat 0%nat) by lia.
  pose proof (StronglySorted_nth _ 0%nat _ B2 a b Hab ltac:(lia)) as Hv. cbn beta in Hv.
  assert (R2 : forall s, (s < length F)%nat -> (nth s i2 0 < length F)%nat).
  { intros s Hs. assert (Hin : In (nth s i2 0%nat) i2) by (apply nth_In; lia).
    apply (Permutation_in _ B1) in Hin. apply in_seq in Hin. lia. }
  assert (Hval : forall s, (s < length F)%nat -> nth (nth s i2 0%nat) (gather nzero c1 i1) 0 = coord F (nth (nth s i2 0%nat) i1 0%nat) 1).
  { intros s Hs. rewrite gather_nth by (rewrite L1; apply R2; auto). apply nth_col. }
  rewrite !Hval in Hv by lia. destruct Hv as [Hv|[Hv Hlt]]; [left; auto|right]. split; auto.
  set (u := nth a i2 0%nat) in *. set (w := nth b i2 0%nat) in *.
  assert (Hw : (w < length F)%nat) by (apply R2; lia).
  unfold i1. rewrite !rev_nth by (rewrite (Permutation_length A1), seq_length, L0; lia).
  rewrite (Permutation_length A1), seq_length, L0.
  pose proof (StronglySorted_nth _ 0%nat _ A2 (length F - S w) (length F - S u) ltac:(lia)) as Hx.
  rewrite (Permutation_length A1), seq_length, L0 in Hx. specialize (Hx ltac:(lia)). cbn beta in Hx.
  unfold c0 in Hx. rewrite !(nth_col F 0) in Hx. unfold c0.
  destruct Hx as [Hx|[Hx _]]; lra.
Qed.

Lemma map2_nth {A B C} (f : A -> B -> C) a b da db dc s : (s < length a)%nat -> (s < length b)%nat ->
  nth s (map2 f a b) dc = f (nth s a da) (nth s b db).
Proof.
  revert b s. induction a as [|x a IH]; intros [|y b] [|s] H1 H2; simpl in *; try lia; auto.
  apply IH; lia.
Qed.
Lemma map2_length {A B C} (f : A -> B -> C) a b : length (map2 f a b) = Nat.min (length a) (length b).
Proof. revert b. induction a as [|x a IH]; intros [|y b]; simpl; auto. Qed.

Lemma scatter_nth {A} (d : A) ix vals s : NoDup ix -> (s < length ix)%nat -> length vals = length ix ->
  scatter d ix vals (nth s ix 0%nat) = nth s vals d.
Proof.
  revert vals s. induction ix as [|j ix IH]; intros [|v vals] s Hn Hs Hl; simpl in *; try lia.
  inversion Hn; subst. destruct s as [|s]; simpl.
  - rewrite Nat.eqb_refl. auto.
  - destruct (Nat.eqb_spec j (nth s ix 0%nat)) as [E|E].
    + exfalso. apply H1. rewrite E. apply nth_In. lia.
    + apply IH; auto. lia.
Qed.
Lemma scatter_out {A} (d : A) ix vals i : ~ In i ix -> scatter d ix vals i = d.
Proof.
  revert vals. induction ix as [|j ix IH]; intros [|v vals] Hn; simpl in *; auto.
  destruct (Nat.eqb_spec j i) as [E|E]; [exfalso; auto|]. apply IH. auto.
Qed.

Lemma nth_removelast {A} (l : list A) s d : (S s < length l)%nat -> nth s (removelast l) d = nth s l d.
Proof.
  revert s. induction l as [|x l IH]; intros s Hs; simpl in *; [lia|]. destruct l as [|y l]; [simpl in *; lia|].
  destruct s as [|s]; auto. cbn [nth]. apply IH. simpl in *; lia.
Qed.
Lemma removelast_length {A} (l : list A) : length (removelast l) = (length l - 1)%nat.
Proof.
  induction l as [|x l IH]; auto. cbn [removelast]. destruct l as [|y l]; auto.
  cbn [length] in *. rewrite IH. lia.
Qed.

Lemma dY2_nth (F : list (list R)) ref s : (s < length F)%nat ->
  let idx := dY2_order F in
  nth (nth s idx 0%nat) (dY2 F ref) [] =
  [coord F (nth s idx 0%nat) 1 - (if (s =? 0)%nat then nth 1 ref 0 else coord F (nth (s - 1) idx 0%nat) 1);
   coord F (nth s idx 0%nat) 0 - (if (S s =? length F)%nat then nth 0 ref 0 else coord F (nth (S s) idx 0%nat) 0)].
Proof.
  intros Hs idx. destruct (dY2_order_spec F) as [HP _]. fold idx in HP.
  assert (Hl : length idx = length F) by (rewrite (Permutation_length HP), seq_length; auto).
  assert (Hnd : NoDup idx) by (apply (Permutation_NoDup (Permutation_sym HP)), seq_NoDup).
  assert (Hr : (nth s idx 0 < length F)%nat).
  { assert (Hin : In (nth s idx 0%nat) idx) by (apply nth_In; lia). apply (Permutation_in _ HP) in Hin. apply in_seq in Hin. lia. }
  unfold dY2. fold idx.
  set (y1 := gather nzero (map (fun p => nth 0 p nzero) F) idx).
  set (y2 := gather nzero (map (fun p => nth 1 p nzero) F) idx).
  assert (L1 : length y1 = length F) by (unfold y1, gather; rewrite map_length; auto).
  assert (L2 : length y2 = length F) by (unfold y2, gather; rewrite map_length; auto).
  assert (N1 : forall t, (t < length F)%nat -> nth t y1 0 = coord F (nth t idx 0%nat) 0).
  { intros t Ht. unfold y1. rewrite gather_nth by lia. apply nth_col. }
  assert (N2 : forall t, (t < length F)%nat -> nth t y2 0 = coord F (nth t idx 0%nat) 1).
  { intros t Ht. unfold y2. rewrite gather_nth by lia. apply nth_col. }
  clearbody y1 y2.
  assert (M0 : length (map2 nsub y2 (nth 1 ref nzero :: removelast y2)) = length F).
  { rewrite map2_length. simpl length. rewrite removelast_length. lia. }
  assert (M1 : length (map2 nsub y1 (tl y1 ++ [nth 0 ref nzero])) = length F).
  { rewrite map2_length, app_length. destruct y1; cbn [tl length] in *; lia. }
  match goal with |- nth ?i (map ?f _) _ = _ => rewrite (nth_indep _ [] (f 0%nat)) by (rewrite map_length, seq_length; auto); rewrite (map_nth f) end.
  rewrite seq_nth by auto. rewrite Nat.add_0_l.
  rewrite !scatter_nth by (auto; lia). f_equal; [|f_equal].
  - rewrite (map2_nth _ _ _ 0 0) by (simpl length; rewrite ?removelast_length; lia).
    rewrite N2 by auto. destruct s as [|s]; simpl; numR; auto.
    f_equal. rewrite nth_removelast by lia. rewrite N2 by lia. rewrite Nat.sub_0_r. reflexivity.
  - rewrite (map2_nth _ _ _ 0 0) by (rewrite ?app_length; destruct y1; simpl in *; lia).
    rewrite N1 by auto. numR. f_equal. destruct (Nat.eqb_spec (S s) (length F)) as [E|E].
    + rewrite app_nth2 by (destruct y1; simpl in *; lia).
      replace (s - length (tl y1))%nat with 0%nat by (destruct y1; simpl in *; lia). reflexivity.
    + rewrite app_nth1 by (destruct y1; simpl in *; lia). rewrite <- N1 by lia. destruct y1; simpl in *; auto. lia.
Qed.

(** exclusive length on a line *)
Lemma exc1_nil (r q : pt) : q 0%nat <= r 0%nat -> exc 1 r [] q = r 0%nat - q 0%nat.
Proof. intros Hq. unfold exc, hvs, box. cbn [prodn]. rewrite Rmax_right by lra. ring. Qed.
Lemma exc1_min (r q p : pt) P : In p P -> (forall p', In p' P -> p 0%nat <= p' 0%nat) ->
  q 0%nat <= p 0%nat -> p 0%nat <= r 0%nat -> exc 1 r P q = p 0%nat - q 0%nat.
Proof.
  intros Hp Hmin Hq Hr. rewrite (exc_cover 1 r P [p] q).
  - rewrite exc_cons. unfold exc, hvs, box, pjoin. cbn [prodn]. rewrite (Rmax_left (p 0%nat)) by lra.
    rewrite !Rmax_right by lra. ring.
  - intros p' Hp'. exists p. split; [simpl; auto|]. intros k Hk. replace k with 0%nat by lia. auto.
  - intros p' [<-|[]]. exists p. split; auto. intros; lra.
Qed.

Definition antitone (F : list (list R)) : Prop := forall i j, (i < length F)%nat -> (j < length F)%nat ->
  coord F i 1 > coord F j 1 -> coord F i 0 <= coord F j 0.

Lemma dY2_entry F ref i k : rows_ok F ref -> length ref = 2%nat -> antitone F ->
  (forall j l, (j < length F)%nat -> (l < 2)%nat -> coord F j l <= nth l ref 0) ->
  (i < length F)%nat -> (k < 2)%nat -> no_tie F i k -> coord (dY2 F ref) i k = gradf F ref i k.
Proof.
  intros Hr Hl Hanti Hin Hi Hk Hnt. destruct (dY2_order_spec F) as [HP Hlex].
  pose proof (dY2_nth F ref) as Hnth. cbn zeta in Hnth. set (idx := dY2_order F) in *.
  assert (Hli : length idx = length F) by (rewrite (Permutation_length HP), seq_length; auto).
  assert (Hran : forall s, (s < length F)%nat -> (nth s idx 0 < length F)%nat).
  { intros s Hs. assert (In (nth s idx 0%nat) idx) by (apply nth_In; lia). apply (Permutation_in _ HP) in H. apply in_seq in H. lia. }
  assert (Hsur : forall j, (j < length F)%nat -> exists s, (s < length F)%nat /\ nth s idx 0%nat = j).
  { intros j Hj. assert (In j idx) by (apply (Permutation_in _ (Permutation_sym HP)), in_seq; lia).
    apply In_nth with (d := 0%nat) in H as (s & Hs & E). exists s. split; auto. lia. }
  assert (Hinj : forall s t, (s < length F)%nat -> (t < length F)%nat -> s <> t -> nth s idx 0%nat <> nth t idx 0%nat).
  { intros s t Hs Ht Hne E. apply Hne. apply (proj1 (NoDup_nth idx 0%nat)) in E; auto; try lia.
    apply (Permutation_NoDup (Permutation_sym HP)), seq_NoDup. }
  destruct (Hsur i Hi) as (s & Hs & Es). unfold coord at 1. rewrite <- Es, (Hnth s Hs), Es.
  unfold gradf. rewrite Hl. change (2 - 1)%nat with 1%nat. unfold slope_lt.
  match goal with |- _ = - exc 1 _ ?PP _ => set (P := PP) end.
  assert (HPi : forall p, In p P <-> exists t, (t < length F)%nat /\ p = drop k (co (nth (nth t idx 0%nat) F [])) /\ coord F (nth t idx 0%nat) k < coord F i k).
  { intros p. unfold P. rewrite in_map_iff. split.
    - intros (q & <- & Hq). apply filter_In in Hq as [Hq Hlt]. apply ltb_true in Hlt.
      apply in_map_iff in Hq as (q' & <- & Hq'). apply In_nth with (d := []) in Hq' as (j & Hj & <-).
      destruct (Hsur j Hj) as (t & Ht & Et). exists t. rewrite Et. split; auto.
    - intros (t & Ht & -> & Hlt). eexists; split; [reflexivity|]. apply filter_In. split; [apply in_map, nth_In; auto|].
      apply ltb_true. exact Hlt. }
  clearbody P.
  assert (Hdrop : forall j, drop k (co (nth j F [])) 0%nat = coord F j (1 - k)).
  { intros j. unfold drop, co, coord. destruct k as [|[|k]]; simpl; auto; lia. }
  destruct k as [|[|k]]; [| |lia].
  - cbn [nth]. destruct (Nat.eqb_spec s 0) as [->|Hs0].
    + assert (EP : P = []).
      { destruct P as [|p P'] eqn:EP; auto. exfalso. destruct (proj1 (HPi p) ltac:(simpl; auto)) as (t & Ht & _ & Hlt).
        destruct (Nat.eq_dec t 0) as [->|Hne]; [rewrite Es in Hlt; lra|].
        destruct (Hlex 0%nat t ltac:(lia) Ht) as [Hx|[_ Hx]]; rewrite Es in Hx; [|lra].
        specialize (Hanti i (nth t idx 0%nat) Hi (Hran t Ht) Hx). lra. }
      rewrite EP, exc1_nil; rewrite Hdrop; simpl.
      * unfold drop, co. simpl. ring.
      * specialize (Hin i 1%nat Hi ltac:(lia)). unfold drop, co. simpl. auto.
    + assert (Hbefore : forall t, (t < s)%nat -> coord F (nth t idx 0%nat) 0 < coord F i 0).
      { intros t Ht. assert (Hne : nth t idx 0%nat <> i) by (rewrite <- Es; apply Hinj; lia).
        specialize (Hnt _ (Hran t ltac:(lia)) Hne). destruct (Hlex t s Ht Hs) as [Hx|[_ Hx]]; rewrite Es in Hx; [|lra].
        specialize (Hanti _ i (Hran t ltac:(lia)) Hi Hx). lra. }
      rewrite (exc1_min _ _ (drop 0 (co (nth (nth (s - 1) idx 0%nat) F []))) P).
      * rewrite !Hdrop. simpl. ring.
      * apply HPi. exists (s - 1)%nat. split; [lia|]. split; auto. apply Hbefore. lia.
      * intros p' Hp'. apply HPi in Hp' as (t & Ht & -> & Hlt). rewrite !Hdrop. simpl.
        assert (Hts : (t < s)%nat).
        { destruct (Nat.lt_ge_cases t s) as [|Hge]; auto. exfalso. destruct (Nat.eq_dec t s) as [->|Hne]; [rewrite Es in Hlt; lra|].
          destruct (Hlex s t ltac:(lia) Ht) as [Hx|[_ Hx]]; rewrite Es in Hx; [|lra].
          specialize (Hanti i _ Hi (Hran t Ht) Hx). lra. }
        destruct (Nat.eq_dec t (s - 1)) as [->|Hne]; [lra|].
        destruct (Hlex t (s - 1)%nat ltac:(lia) ltac:(lia)) as [Hx|[Hx _]]; lra.
      * rewrite !Hdrop. simpl. destruct (Hlex (s - 1)%nat s ltac:(lia) Hs) as [Hx|[Hx _]]; rewrite Es in Hx; lra.
      * rewrite Hdrop. simpl. unfold drop, co; simpl. apply Hin; [apply Hran; lia|lia].
  - cbn [nth]. destruct (Nat.eqb_spec (S s) (length F)) as [Hs0|Hs0].
    + assert (EP : P = []).
      { destruct P as [|p P'] eqn:EP; auto. exfalso. destruct (proj1 (HPi p) ltac:(simpl; auto)) as (t & Ht & _ & Hlt).
        destruct (Nat.eq_dec t s) as [->|Hne]; [rewrite Es in Hlt; lra|].
        destruct (Hlex t s ltac:(lia) Hs) as [Hx|[Hx _]]; rewrite Es in Hx; lra. }
      rewrite EP, exc1_nil; rewrite Hdrop; simpl.
      * unfold drop, co. simpl. ring.
      * specialize (Hin i 0%nat Hi ltac:(lia)). unfold drop, co. simpl. auto.
    + assert (Hafter : forall t, (s < t)%nat -> (t < length F)%nat -> coord F (nth t idx 0%nat) 1 < coord F i 1).
      { intros t Ht Htl. assert (Hne : nth t idx 0%nat <> i) by (rewrite <- Es; apply Hinj; lia).
        specialize (Hnt _ (Hran t ltac:(lia)) Hne). destruct (Hlex s t Ht Htl) as [Hx|[Hx _]]; rewrite Es in Hx; lra. }
      rewrite (exc1_min _ _ (drop 1 (co (nth (nth (S s) idx 0%nat) F []))) P).
      * rewrite !Hdrop. simpl. ring.
      * apply HPi. exists (S s). split; [lia|]. split; auto. apply Hafter; lia.
      * intros p' Hp'. apply HPi in Hp' as (t & Ht & -> & Hlt). rewrite !Hdrop. simpl.
        assert (Hts : (s < t)%nat).
        { destruct (Nat.lt_ge_cases s t) as [|Hge]; auto. exfalso. destruct (Nat.eq_dec t s) as [->|Hne]; [rewrite Es in Hlt; lra|].
          destruct (Hlex t s ltac:(lia) Hs) as [Hx|[Hx _]]; rewrite Es in Hx; lra. }
        destruct (Nat.eq_dec t (S s)) as [->|Hne]; [lra|].
        destruct (Hlex (S s) t ltac:(lia) ltac:(lia)) as [Hx|[_ Hx]]; [|lra].
        apply (Hanti _ _ (Hran (S s) ltac:(lia)) (Hran t ltac:(lia)) Hx).
      * rewrite !Hdrop. simpl.
        destruct (Hlex s (S s) ltac:(lia) ltac:(lia)) as [Hx|[_ Hx]]; rewrite Es in Hx; [|lra].
        apply (Hanti i _ Hi (Hran (S s) ltac:(lia)) Hx).
      * rewrite Hdrop. simpl. unfold drop, co; simpl. apply Hin; [apply Hran; lia|lia].
Qed.
