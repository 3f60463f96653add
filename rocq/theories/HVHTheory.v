(** The true second derivatives of the hypervolume. *)
From Coq Require Import List Arith Lia Reals Lra Permutation Bool Sorting.Sorted.
From Coquelicot Require Import Coquelicot.
From Verif Require Import Num Exn ListAux NDSModel NDSSpec NDSProof NDSTop UtilsModel UtilsProof
  HVModel HVSpec HVTheory HVTop HVExtra HVDModel HVDSpec HVDTheory HVDProof HVDTop.
Import ListNotations.
Open Scope R_scope.

(** covering up to the point itself *)
Lemma exc_clip d (r : pt) (P : list pt) (c q : pt) : (forall k, (k < d)%nat -> q k <= c k) ->
  exc d r (map (fun p => pjoin p q) P) c = exc d r P c.
Proof.
  revert c. induction P as [|p P IH]; intros c Hc; simpl map; auto.
  rewrite !exc_cons. rewrite IH by auto. f_equal.
  rewrite (exc_ext_q d r _ (pjoin (pjoin p q) c) (pjoin p c)).
  - apply IH. intros k Hk. unfold pjoin. specialize (Hc k Hk). pose proof (Rmax_r (p k) (c k)). lra.
  - intros k Hk. unfold pjoin. specialize (Hc k Hk). unfold Rmax. repeat destruct (Rle_dec _ _); lra.
Qed.
Lemma exc_cover_q d (r : pt) (P Q : list pt) (q : pt) :
  (forall p, In p P -> exists p', In p' Q /\ forall k, (k < d)%nat -> p' k <= Rmax (p k) (q k)) ->
  (forall p, In p Q -> exists p', In p' P /\ forall k, (k < d)%nat -> p' k <= Rmax (p k) (q k)) ->
  exc d r P q = exc d r Q q.
Proof.
  intros H1 H2. rewrite <- (exc_clip d r P q q), <- (exc_clip d r Q q q) by (intros; lra).
  apply exc_cover; intros p Hp; apply in_map_iff in Hp as (p0 & <- & Hp).
  - destruct (H1 p0 Hp) as (p' & Hp' & Hk). exists (pjoin p' q). split; [apply (in_map (fun p => pjoin p q)); auto|].
    intros k Hkd. unfold pjoin. specialize (Hk k Hkd). apply Rmax_lub; auto. apply Rmax_r.
  - destruct (H2 p0 Hp) as (p' & Hp' & Hk). exists (pjoin p' q). split; [apply (in_map (fun p => pjoin p q)); auto|].
    intros k Hkd. unfold pjoin. specialize (Hk k Hkd). apply Rmax_lub; auto. apply Rmax_r.
Qed.
Lemma exc_perm d (r : pt) (P Q : list pt) (q : pt) : Permutation P Q -> exc d r P q = exc d r Q q.
Proof. intros HP. apply exc_same; apply hv_perm; auto. Qed.

Definition un (k l : nat) : nat := if (l <? k)%nat then l else (l - 1)%nat.
Lemma drop_un k l (p : pt) : l <> k -> drop k p (un k l) = p l.
Proof.
  intros Hne. unfold drop, un. destruct (Nat.ltb_spec l k).
  - destruct (Nat.ltb_spec l k); [auto|lia].
  - destruct (Nat.ltb_spec (l - 1) k); [lia|]. f_equal. lia.
Qed.
Lemma drop_setk_ne k l t (p : pt) j : l <> k -> drop k (setk l t p) j = setk (un k l) t (drop k p) j.
Proof.
  intros Hne. unfold drop, setk, un. destruct (Nat.ltb_spec j k), (Nat.ltb_spec l k);
  repeat match goal with |- context[(?a =? ?b)%nat] => destruct (Nat.eqb_spec a b) end; try lia; auto.
Qed.

(** the slope in terms of indices *)
Definition pk (F : list (list R)) (k a : nat) : pt := drop k (co (nth a F [])).
Definition idxlt (F : list (list R)) (i k : nat) : list nat :=
  filter (fun a => ltb (coord F a k) (coord F i k)) (seq 0 (length F)).

Lemma filter_map_comm {A B} (f : A -> B) (p : B -> bool) l : filter p (map f l) = map f (filter (fun a => p (f a)) l).
Proof. induction l as [|a l IH]; simpl; auto. destruct (p (f a)); simpl; rewrite IH; auto. Qed.

Lemma map_nth_seq {A} (l : list A) d : map (fun a => nth a l d) (seq 0 (length l)) = l.
Proof.
  apply nth_ext with (d := d) (d' := d); [rewrite map_length, seq_length; auto|].
  intros s Hs. rewrite map_length, seq_length in Hs.
  rewrite (nth_indep _ d (nth 0 l d)) by (rewrite map_length, seq_length; auto).
  rewrite (map_nth (fun i => nth i l d)), seq_nth; auto.
Qed.

Lemma gradf_idx F ref i k : gradf F ref i k =
  - exc (length ref - 1) (drop k (co ref)) (map (pk F k) (idxlt F i k)) (pk F k i).
Proof.
  unfold gradf, slope_lt. f_equal. f_equal. rewrite <- (map_nth_seq F []) at 1. rewrite map_map.
  rewrite filter_map_comm, map_map. reflexivity.
Qed.

Lemma idxlt_In F i k a : In a (idxlt F i k) <-> (a < length F)%nat /\ coord F a k < coord F i k.
Proof. unfold idxlt. rewrite filter_In, in_seq, ltb_true. split; intros [H1 H2]; split; auto; lia. Qed.
Lemma idxlt_NoDup F i k : NoDup (idxlt F i k).
Proof. apply NoDup_filter, seq_NoDup. Qed.

Section True.
Variables (F : list (list R)) (ref : list R) (d : nat).
Hypothesis Hr : rows_ok F ref.
Hypothesis Hd : length ref = S (S d).
Hypothesis HG : general_position F ref.
Hypothesis Hin : inside F ref.

Definition hessf (i k j l : nat) : R :=
  if (l =? k)%nat then 0
  else if (j =? i)%nat then slope_lt d (drop k (co ref)) (map (pk F k) (idxlt F i k)) (pk F k i) (un k l)
  else if ltb (coord F j k) (coord F i k) && ltb (coord F i l) (coord F j l)
  then - slope_lt d (drop k (co ref)) (map (pk F k) (idxlt F i k)) (pjoin (pk F k j) (pk F k i)) (un k l)
  else 0.

Lemma len_row a : (a < length F)%nat -> length (nth a F []) = length ref.
Proof. intros Hl. apply Hr, nth_In; auto. Qed.

(** a neighbourhood in which the order of the coordinates does not change *)
Lemma safe_gap j l : (j < length F)%nat -> (l < length ref)%nat ->
  exists e, 0 < e /\ forall t, coord F j l - e <= t <= coord F j l + e ->
    t < nth l ref 0 /\ forall a, (a < length F)%nat -> a <> j ->
      (coord F a l < coord F j l /\ coord F a l < t) \/ (coord F j l < coord F a l /\ t < coord F a l).
Proof.
  intros Hj Hl. destruct (gap_both (nth l ref 0 :: map (fun a => coord F a l) (seq 0 (length F))) (coord F j l)) as (e & He & Hg).
  exists (e / 2). split; [lra|]. intros t Ht. split.
  - specialize (Hin j l Hj Hl). destruct (Hg (nth l ref 0) ltac:(simpl; auto) ltac:(lra)); lra.
  - intros a Ha Hne. destruct (Hg (coord F a l)) as [Hx|Hx].
    + right. apply (in_map (fun a => coord F a l)). apply in_seq. lia.
    + apply (proj1 HG); auto.
    + left. lra.
    + right. lra.
Qed.

Lemma coord_set j l t a c : (j < length F)%nat -> (l < length ref)%nat ->
  coord (set_coord F j l t) a c = if ((a =? j)%nat && (c =? l)%nat)%bool then t else coord F a c.
Proof.
  intros Hj Hl. unfold coord, set_coord. rewrite nth_set_at by auto. destruct (Nat.eqb_spec a j) as [->|]; simpl; auto.
  rewrite nth_set_at by (rewrite len_row; auto). reflexivity.
Qed.
Lemma set_coord_length j l t : length (set_coord F j l t) = length F.
Proof. apply set_at_length. Qed.

Definition safe (j l : nat) (t : R) : Prop :=
  t < nth l ref 0 /\ forall a, (a < length F)%nat -> a <> j ->
      (coord F a l < coord F j l /\ coord F a l < t) \/ (coord F j l < coord F a l /\ t < coord F a l).

Lemma perturbed_partial i k j l t : (i < length F)%nat -> (k < length ref)%nat -> (j < length F)%nat -> (l < length ref)%nat ->
  safe j l t -> is_partial (set_coord F j l t) ref i k (gradf (set_coord F j l t) ref i k).
Proof.
  intros Hi Hk Hj Hl [Ht1 Ht2]. apply slope_partial; [rewrite set_coord_length; auto|].
  apply two_sided_slope; auto.
  - apply rows_set_coord; auto.
  - rewrite set_coord_length; auto.
  - rewrite coord_set by auto. destruct (Nat.eqb_spec i j); simpl; [|apply Hin; auto].
    destruct (Nat.eqb_spec k l); [subst; auto|apply Hin; auto].
  - intros a Ha Hne. rewrite set_coord_length in Ha. rewrite !coord_set by auto.
    destruct (Nat.eqb_spec k l) as [->|Hkl].
    + rewrite !andb_true_r. destruct (Nat.eqb_spec a j) as [->|Haj], (Nat.eqb_spec i j) as [->|Hij]; try congruence.
      * specialize (Ht2 i Hi ltac:(auto)). destruct Ht2 as [[? ?]|[? ?]]; lra.
      * specialize (Ht2 a Ha ltac:(auto)). destruct Ht2 as [[? ?]|[? ?]]; lra.
      * apply (proj1 HG); auto.
    + rewrite !andb_false_r. apply (proj1 HG); auto.
Qed.

Lemma idxlt_perturbed i k j l t : (i < length F)%nat -> (k < length ref)%nat -> (j < length F)%nat -> (l < length ref)%nat ->
  safe j l t -> idxlt (set_coord F j l t) i k = idxlt F i k.
Proof.
  intros Hi Hk Hj Hl [Ht1 Ht2]. unfold idxlt. rewrite set_coord_length. apply filter_ext_in. intros a Ha. apply in_seq in Ha.
  rewrite !coord_set by auto. destruct (Nat.eqb_spec k l) as [->|Hkl].
  - rewrite !andb_true_r.
    assert (Hb : forall x y x' y', (x < y <-> x' < y') -> ltb x y = ltb x' y').
    { intros x y x' y' Hxy. apply eq_true_iff_eq. rewrite !ltb_true. exact Hxy. }
    destruct (Nat.eqb_spec a j) as [->|Haj], (Nat.eqb_spec i j) as [->|Hij]; auto; apply Hb.
    + split; intros; lra.
    + specialize (Ht2 i Hi ltac:(auto)). split; intros; lra.
    + specialize (Ht2 a ltac:(lia) ltac:(auto)). split; intros; lra.
  - rewrite !andb_false_r. reflexivity.
Qed.

Lemma pk_perturbed j l t a k x : (j < length F)%nat -> (l < length ref)%nat -> 
  pk (set_coord F j l t) k a x = if (a =? j)%nat then drop k (setk l t (co (nth j F []))) x else pk F k a x.
Proof.
  intros Hj Hl. unfold pk. unfold set_coord. rewrite nth_set_at by auto.
  destruct (Nat.eqb_spec a j) as [->|]; auto. unfold drop. destruct (_ <? _)%nat; apply co_set_at; rewrite len_row; auto.
Qed.

Lemma hess_affine i k j l : (i < length F)%nat -> (k < length ref)%nat -> (j < length F)%nat -> (l < length ref)%nat ->
  exists e, 0 < e /\ forall t, coord F j l - e <= t <= coord F j l + e ->
    gradf (set_coord F j l t) ref i k = gradf F ref i k + hessf i k j l * (t - coord F j l).
Proof.
  intros Hi Hk Hj Hl. destruct (safe_gap j l Hj Hl) as (e0 & He0 & Hsafe).
  assert (Hred : forall t, coord F j l - e0 <= t <= coord F j l + e0 ->
    gradf (set_coord F j l t) ref i k =
    - exc (S d) (drop k (co ref)) (map (pk (set_coord F j l t) k) (idxlt F i k)) (pk (set_coord F j l t) k i)).
  { intros t Ht. rewrite gradf_idx, Hd, idxlt_perturbed by (auto; apply Hsafe; auto). reflexivity. }
  assert (Hnoi : ~ In i (idxlt F i k)) by (rewrite idxlt_In; intros [_ Hc]; lra).
  assert (Hsame : forall t q ix, (forall a, In a ix -> a <> j) ->
     exc (S d) (drop k (co ref)) (map (pk (set_coord F j l t) k) ix) q = exc (S d) (drop k (co ref)) (map (pk F k) ix) q).
  { intros t q ix Hix. apply exc_ext_P. induction ix as [|a ix IH]; simpl; constructor.
    - intros x Hx. rewrite pk_perturbed by auto. destruct (Nat.eqb_spec a j); auto. exfalso. apply (Hix a); simpl; auto.
    - apply IH. intros b Hb. apply Hix. simpl; auto. }
  unfold hessf. destruct (Nat.eqb_spec l k) as [->|Hlk].
  - (* the dropped coordinate *)
    exists e0. split; auto. intros t Ht. rewrite Hred by auto. rewrite gradf_idx, Hd.
    replace (S (S d) - 1)%nat with (S d) by lia.
    assert (Hpk : forall a x, pk (set_coord F j k t) k a x = pk F k a x).
    { intros a x. rewrite pk_perturbed by auto. destruct (Nat.eqb_spec a j) as [->|]; auto. apply drop_setk. }
    rewrite (exc_ext_q _ _ _ _ (pk F k i)) by auto.
    rewrite (exc_ext_P _ _ (map (pk (set_coord F j k t) k) (idxlt F i k)) (map (pk F k) (idxlt F i k))); [ring|].
    clear -Hpk. induction (idxlt F i k); simpl; constructor; auto.
  - assert (Hul : (un k l <= d)%nat) by (unfold un; destruct (Nat.ltb_spec l k); lia).
    destruct (Nat.eqb_spec j i) as [->|Hji].
    + (* own block *)
      destruct (exc_two_sided d (drop k (co ref)) (map (pk F k) (idxlt F i k)) (pk F k i) (un k l) Hul) as (e1 & He1 & H1).
      { unfold pk. rewrite !drop_un by auto. apply Hin; auto. }
      { intros p Hp. apply in_map_iff in Hp as (a & <- & Ha). unfold pk. rewrite !drop_un by auto.
        apply idxlt_In in Ha as [Ha Hlt]. apply (proj1 HG); auto. intros ->; lra. }
      assert (Eui : pk F k i (un k l) = coord F i l) by (unfold pk; rewrite drop_un by auto; reflexivity).
      rewrite Eui in H1.
      exists (Rmin e0 e1). split; [apply Rmin_glb_lt; auto|]. intros t Ht. pose proof (Rmin_l e0 e1). pose proof (Rmin_r e0 e1).
      rewrite Hred by lra. rewrite Hsame by (intros a Ha ->; auto). rewrite gradf_idx, Hd.
      replace (S (S d) - 1)%nat with (S d) by lia.
      rewrite (exc_ext_q _ _ _ _ (setk (un k l) t (pk F k i))).
      * rewrite H1 by lra. ring.
      * intros x Hx. rewrite pk_perturbed by auto. rewrite Nat.eqb_refl. apply drop_setk_ne; auto.
    + assert (Hqi : forall t x, pk (set_coord F j l t) k i x = pk F k i x).
      { intros t x. rewrite pk_perturbed by auto. destruct (Nat.eqb_spec i j); auto. congruence. }
      destruct (ltb (coord F j k) (coord F i k)) eqn:Ejk.
      * apply ltb_true in Ejk. assert (Hjin : In j (idxlt F i k)) by (apply idxlt_In; auto).
        destruct (in_split _ _ Hjin) as (A & B & Esp). pose proof (idxlt_NoDup F i k) as Hnd. rewrite Esp in Hnd.
        apply NoDup_remove_2 in Hnd.
        assert (Hnin : forall a, In a (A ++ B) -> a <> j) by (intros a Ha ->; auto).
        set (P := map (pk F k) (A ++ B)). set (q := pk F k i).
        assert (Hexp : forall t, exc (S d) (drop k (co ref)) (map (pk (set_coord F j l t) k) (idxlt F i k)) (pk (set_coord F j l t) k i)
          = exc (S d) (drop k (co ref)) P q - exc (S d) (drop k (co ref)) P (pjoin (setk (un k l) t (pk F k j)) q)).
        { intros t. rewrite (exc_ext_q _ _ _ _ q) by (intros; apply Hqi).
          rewrite (exc_perm _ _ _ (map (pk (set_coord F j l t) k) (j :: A ++ B))).
          2:{ apply Permutation_map. rewrite Esp. symmetry. apply Permutation_middle. }
          simpl map. rewrite exc_cons. rewrite !Hsame by auto. fold P. f_equal.
          apply exc_ext_q. intros x Hx. unfold pjoin. f_equal. rewrite pk_perturbed by auto. rewrite Nat.eqb_refl.
          apply drop_setk_ne; auto. }
        assert (Hexp0 : gradf F ref i k = - (exc (S d) (drop k (co ref)) P q - exc (S d) (drop k (co ref)) P (pjoin (pk F k j) q))).
        { rewrite gradf_idx, Hd. replace (S (S d) - 1)%nat with (S d) by lia. f_equal.
          rewrite (exc_perm _ _ _ (map (pk F k) (j :: A ++ B))).
          2:{ apply Permutation_map. rewrite Esp. symmetry. apply Permutation_middle. }
          simpl map. rewrite exc_cons. reflexivity. }
        assert (Euj : pk F k j (un k l) = coord F j l) by (unfold pk; rewrite drop_un by auto; reflexivity).
        assert (Eui : q (un k l) = coord F i l) by (unfold q, pk; rewrite drop_un by auto; reflexivity).
        destruct (ltb (coord F i l) (coord F j l)) eqn:Eil.
        -- apply ltb_true in Eil. cbn [andb].
           set (c := pjoin (pk F k j) q).
           assert (Ec : c (un k l) = coord F j l) by (unfold c, pjoin; rewrite Euj, Eui; apply Rmax_left; lra).
           destruct (exc_two_sided d (drop k (co ref)) P c (un k l) Hul) as (e1 & He1 & H1).
           { rewrite Ec. rewrite drop_un by auto. apply Hin; auto. }
           { intros p Hp. apply in_map_iff in Hp as (a & <- & Ha). rewrite Ec. unfold pk. rewrite drop_un by auto.
             apply (proj1 HG); auto. assert (Hai : In a (idxlt F i k)) by (rewrite Esp; apply in_or_app; apply in_app_or in Ha; simpl; tauto).
             apply idxlt_In in Hai. apply Hai. }
           rewrite Ec in H1.
           exists (Rmin e0 e1). split; [apply Rmin_glb_lt; auto|]. intros t Ht. pose proof (Rmin_l e0 e1). pose proof (Rmin_r e0 e1).
           rewrite Hred by lra. rewrite Hexp, Hexp0.
           assert (Hti : coord F i l < t).
           { destruct (Hsafe t ltac:(lra)) as [_ Hs]. destruct (Hs i Hi ltac:(auto)); lra. }
           rewrite (exc_ext_q _ _ P (pjoin (setk (un k l) t (pk F k j)) q) (setk (un k l) t c)).
           2:{ intros x Hx. unfold c, pjoin, setk. destruct (Nat.eqb_spec x (un k l)) as [->|]; auto.
               rewrite Eui. apply Rmax_left. lra. }
           fold c. rewrite H1 by lra.
           replace (slope_lt d (drop k (co ref)) (map (pk F k) (idxlt F i k)) c (un k l)) with (slope_lt d (drop k (co ref)) P c (un k l)); [ring|].
           unfold slope_lt. apply exc_perm. apply Permutation_map. unfold P. rewrite Esp, !map_app, !filter_app.
           simpl map. simpl filter.
           assert (Hn : ltb (pk F k j (un k l)) (c (un k l)) = false).
           { rewrite Ec, Euj. destruct (ltb (coord F j l) (coord F j l)) eqn:El; auto. apply ltb_true in El. lra. }
           rewrite Hn. reflexivity.
        -- cbn [andb].
           assert (Hlt : coord F j l < coord F i l).
           { assert (Hne : coord F j l <> coord F i l) by (apply (proj1 HG); auto).
             destruct (Rlt_le_dec (coord F i l) (coord F j l)) as [Hc|]; [|lra]. apply ltb_true in Hc. congruence. }
           exists e0. split; auto. intros t Ht. rewrite Hred by lra. rewrite Hexp, Hexp0.
           assert (Hti : t < coord F i l).
           { destruct (Hsafe t ltac:(lra)) as [_ Hs]. destruct (Hs i Hi ltac:(auto)); lra. }
           rewrite (exc_ext_q _ _ P (pjoin (setk (un k l) t (pk F k j)) q) (pjoin (pk F k j) q)); [ring|].
           intros x Hx. unfold pjoin, setk. destruct (Nat.eqb_spec x (un k l)) as [->|]; auto.
           rewrite Eui, Euj, !Rmax_right by lra. reflexivity.
      * cbn [andb]. exists e0. split; auto. intros t Ht. rewrite Hred by lra.
        rewrite (exc_ext_q _ _ _ _ (pk F k i)) by (intros; apply Hqi). rewrite Hsame.
        -- rewrite gradf_idx, Hd. replace (S (S d) - 1)%nat with (S d) by lia. ring.
        -- intros a Ha ->. apply idxlt_In in Ha as [_ Ha]. apply ltb_true in Ha. congruence.
Qed.

Lemma hess_true i k j l : (i < length F)%nat -> (k < length ref)%nat -> (j < length F)%nat -> (l < length ref)%nat ->
  is_hess F ref i k j l (hessf i k j l).
Proof.
  intros Hi Hk Hj Hl. destruct (hess_affine i k j l Hi Hk Hj Hl) as (e1 & He1 & H1).
  destruct (safe_gap j l Hj Hl) as (e0 & He0 & Hsafe).
  exists (Rmin e0 e1). split; [apply Rmin_glb_lt; auto|]. intros t g g' Ht Hg Hg'.
  pose proof (Rmin_l e0 e1). pose proof (Rmin_r e0 e1).
  assert (E : g = gradf F ref i k).
  { apply (partial_unique F ref i k); auto. apply slope_partial; auto. apply two_sided_slope; auto. apply (proj1 HG); auto. }
  assert (E' : g' = gradf (set_coord F j l t) ref i k).
  { apply (partial_unique (set_coord F j l t) ref i k); auto.
    - apply rows_set_coord; auto.
    - rewrite set_coord_length; auto.
    - apply perturbed_partial; auto. apply Hsafe. lra. }
  rewrite E, E'. apply H1. lra.
Qed.
End True.
