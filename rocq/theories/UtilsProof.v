From Coq Require Import List Arith Bool Lia Reals Lra Sorting.Sorted.
From Verif Require Import Num Exn ListAux NDSSpec UtilsModel.
Import ListNotations.
Open Scope nat_scope.

Lemma zip_any_spec (f : R -> R -> bool) a b : length a = length b ->
  (zip_any f a b = true <-> exists k, k < length a /\ f (nth k a 0%R) (nth k b 0%R) = true).
Proof.
  revert b; induction a as [|x a IH]; intros [|y b]; simpl; intros Hl; try discriminate.
  - split; [discriminate|]. intros (k & Hk & _); lia.
  - injection Hl as Hl. rewrite orb_true_iff, IH by auto. split.
    + intros [Hf|(k & Hk & Hf)]; [exists 0; split; [lia|auto]|exists (S k); split; [lia|auto]].
    + intros ([|k] & Hk & Hf); [auto|right; exists k; split; [lia|auto]].
Qed.

Lemma some_worse_spec (q p : list R) : length q = length p ->
  (some_worse q p = true <-> ~ weakly_dominates q p).
Proof.
  intros Hl. unfold some_worse. rewrite zip_any_spec by auto. unfold weakly_dominates. split.
  - intros (k & Hk & Hf) [_ Hall]. apply nltb_true in Hf. specialize (Hall k Hk). lra.
  - intros Hn. destruct (zip_any (fun x y : R => nltb y x) q p) eqn:E.
    + apply zip_any_spec in E; auto.
    + exfalso. apply Hn. split; auto. intros k Hk.
      destruct (Rle_lt_dec (nth k q 0%R) (nth k p 0%R)) as [|Hlt]; auto.
      assert (Ht : zip_any (fun x y : R => nltb y x) q p = true); [|congruence].
      apply zip_any_spec; auto. exists k. split; auto. apply nltb_true. auto.
Qed.

Lemma forallb_split {A} (f : A -> bool) (M : list A) i d :
  forallb f (firstn i M) && forallb f (skipn (S i) M) = true <->
  (forall j, j < length M -> j <> i -> f (nth j M d) = true).
Proof.
  rewrite andb_true_iff, !forallb_forall. split.
  - intros [H1 H2] j Hj Hne. destruct (Nat.lt_ge_cases j i) as [Hlt|Hge].
    + apply H1. rewrite <- (firstn_skipn i M) at 1.
      rewrite app_nth1 by (rewrite firstn_length; lia). apply nth_In. rewrite firstn_length; lia.
    + apply H2. rewrite <- (firstn_skipn (S i) M) at 1.
      rewrite app_nth2 by (rewrite firstn_length; lia). apply nth_In.
      rewrite skipn_length, firstn_length. lia.
  - intros Hall. split; intros x Hx.
    + apply (In_nth _ _ d) in Hx as (j & Hj & <-). rewrite firstn_length in Hj.
      specialize (Hall j ltac:(lia) ltac:(lia)). rewrite <- (firstn_skipn i M) in Hall.
      rewrite app_nth1 in Hall by (rewrite firstn_length; lia). auto.
    + apply (In_nth _ _ d) in Hx as (j & Hj & <-). rewrite skipn_length in Hj.
      specialize (Hall (S i + j) ltac:(lia) ltac:(lia)). rewrite <- (firstn_skipn (S i) M) in Hall.
      rewrite app_nth2 in Hall by (rewrite firstn_length; lia).
      rewrite firstn_length in Hall. replace (S i + j - Nat.min (S i) (length M)) with j in Hall by lia. auto.
Qed.

Lemma gnd_spec isclose (M : list (list R)) m :
  (forall p, In p M -> length p = m) ->
  forall i, i < length M ->
  (gnd_cond isclose true M i = true <->
   forall j, j < length M -> j <> i -> ~ weakly_dominates (row M j) (row M i)).
Proof.
  intros Hlen i Hi. unfold gnd_cond. rewrite (forallb_split _ M i []).
  split; intros Hall j Hj Hne.
  - specialize (Hall j Hj Hne). apply some_worse_spec; auto. rewrite !Hlen; auto; apply nth_In; auto.
  - apply some_worse_spec; [rewrite !Hlen; auto; apply nth_In; auto|]. apply Hall; auto.
Qed.

Lemma get_non_dominated_correct isclose (M : list (list R)) m :
  (forall p, In p M -> length p = m) ->
  match get_non_dominated_idx isclose true M with
  | Ok ix => ix <> [] /\ StronglySorted lt ix /\
      forall i, In i ix <-> i < length M /\
        (forall j, j < length M -> j <> i -> ~ weakly_dominates (row M j) (row M i))
  | Exn e => e = IndexError /\
      ~ exists i, i < length M /\
        (forall j, j < length M -> j <> i -> ~ weakly_dominates (row M j) (row M i))
  end.
Proof.
  intros Hlen. unfold get_non_dominated_idx.
  assert (HI : forall i, In i (filter (gnd_cond isclose true M) (seq 0 (length M))) <->
     i < length M /\ (forall j, j < length M -> j <> i -> ~ weakly_dominates (row M j) (row M i))).
  { intros i. rewrite filter_In, in_seq. split.
    - intros [Hi Hc]. split; [lia|]. apply (gnd_spec isclose M m Hlen); [lia|auto].
    - intros [Hi Hc]. split; [lia|]. apply (gnd_spec isclose M m Hlen); auto. }
  pose proof (StronglySorted_filter lt (gnd_cond isclose true M) _ (StronglySorted_seq 0 (length M))) as Hs.
  destruct (filter (gnd_cond isclose true M) (seq 0 (length M))) as [|i ix] eqn:E.
  - split; auto. intros (i & Hi). apply HI in Hi. destruct Hi.
  - split; [discriminate|]. split; auto.
Qed.

(** Completeness for pairwise different rows: walk down the weak-dominance order. *)
Lemma weakly_dominates_trans a b c : weakly_dominates a b -> weakly_dominates b c -> weakly_dominates a c.
Proof.
  intros [L1 A1] [L2 A2]. split; [congruence|]. intros k Hk.
  specialize (A1 k Hk). specialize (A2 k ltac:(lia)). lra.
Qed.
Lemma weakly_dominates_antisym a b : weakly_dominates a b -> weakly_dominates b a -> a = b.
Proof.
  intros [L1 A1] [L2 A2]. apply (list_eq_nth 0%R); auto. intros k Hk.
  specialize (A1 k Hk). specialize (A2 k ltac:(lia)). lra.
Qed.
Lemma weakly_dominates_dec a b : {weakly_dominates a b} + {~ weakly_dominates a b}.
Proof.
  destruct (Nat.eq_dec (length a) (length b)) as [Hl|Hl].
  - destruct (some_worse a b) eqn:E.
    + right. apply some_worse_spec; auto.
    + left. split; auto. intros k Hk.
      destruct (Rle_lt_dec (nth k a 0%R) (nth k b 0%R)) as [|Hlt]; auto.
      assert (Ht : some_worse a b = true); [|congruence].
      apply zip_any_spec; auto. exists k. split; auto. apply nltb_true. auto.
  - right. intros [? _]. auto.
Qed.

(** A minimal element below [i] among a finite set of indices. *)
Lemma minimal_below (M : list (list R)) :
  NoDup M -> forall S i, In i S -> (forall j, In j S -> j < length M) ->
  exists j, In j S /\ weakly_dominates (row M j) (row M i) /\
    forall k, In k S -> k <> j -> ~ weakly_dominates (row M k) (row M j).
Proof.
  intros Hnd S. remember (length S) as q eqn:Eq. revert S Eq.
  induction q as [q IH] using lt_wf_ind. intros S Eq i Hi HS.
  (* is there another one below i? *)
  assert (Hdec : (exists k, In k S /\ k <> i /\ weakly_dominates (row M k) (row M i)) \/
                 (forall k, In k S -> k <> i -> ~ weakly_dominates (row M k) (row M i))).
  { clear IH Eq Hi HS. induction S as [|x S IHS]; [right; intros ? []|].
    destruct IHS as [(k & Hk & H1 & H2)|IHS].
    - left. exists k. simpl; auto.
    - destruct (Nat.eq_dec x i) as [->|Hne].
      + right. intros k [<-|Hk] Hne; auto.
      + destruct (weakly_dominates_dec (row M x) (row M i)) as [Hw|Hw].
        * left. exists x. simpl; auto.
        * right. intros k [<-|Hk] Hne'; auto. }
  destruct Hdec as [(k & Hk & Hne & Hw)|Hno].
  - set (S' := filter (fun j => negb (Nat.eqb j i)) S).
    assert (Hk' : In k S').
    { apply filter_In. split; auto. apply negb_true_iff, Nat.eqb_neq. auto. }
    destruct (IH (length S')) with (S := S') (i := k) as (j & Hj & Hjw & Hmin); auto.
    { subst q. apply filter_length_lt with (x := i); auto. rewrite Nat.eqb_refl. auto. }
    { intros j Hj. apply filter_In in Hj as [Hj _]. auto. }
    exists j. apply filter_In in Hj as [Hj Hji]. apply negb_true_iff, Nat.eqb_neq in Hji.
    split; auto. split; [eapply weakly_dominates_trans; eauto|].
    intros l Hl Hlj Hlw. destruct (Nat.eq_dec l i) as [->|Hli].
    + apply Hji. apply (proj1 (NoDup_nth M []) Hnd); auto.
      apply weakly_dominates_antisym; auto. eapply weakly_dominates_trans; eauto.
    + apply (Hmin l); auto. apply filter_In. split; auto. apply negb_true_iff, Nat.eqb_neq. auto.
  - exists i. split; auto. split; auto. split; auto. intros; lra.
Qed.

Lemma get_non_dominated_complete isclose (M : list (list R)) m :
  M <> [] -> NoDup M -> (forall p, In p M -> length p = m) ->
  exists ix, get_non_dominated_idx isclose true M = Ok ix /\
  forall i, i < length M -> exists j, In j ix /\ weakly_dominates (row M j) (row M i).
Proof.
  intros HM Hnd Hlen. pose proof (get_non_dominated_correct isclose M m Hlen) as Hc.
  assert (Hmin : forall i, i < length M -> exists j, j < length M /\ weakly_dominates (row M j) (row M i) /\
     forall k, k < length M -> k <> j -> ~ weakly_dominates (row M k) (row M j)).
  { intros i Hi. destruct (minimal_below M Hnd (seq 0 (length M)) i) as (j & Hj & Hw & Hm).
    - apply in_seq; lia.
    - intros j Hj. apply in_seq in Hj. lia.
    - apply in_seq in Hj. exists j. split; [lia|]. split; auto. intros k Hk. apply Hm, in_seq. lia. }
  destruct (get_non_dominated_idx isclose true M) as [ix|e].
  - exists ix. split; auto. destruct Hc as (_ & _ & Hin). intros i Hi.
    destruct (Hmin i Hi) as (j & Hj & Hw & Hm). exists j. split; auto. apply Hin. auto.
  - exfalso. destruct Hc as [_ Hc]. apply Hc. destruct M as [|p M']; [congruence|].
    destruct (Hmin 0) as (j & Hj & _ & Hm); [simpl; lia|]. exists j. auto.
Qed.
