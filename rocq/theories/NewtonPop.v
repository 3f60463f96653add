(** Proofs about duplicate removal, dominance layers and main loops. *)
From Coq Require Import List Arith Bool Reals ZArith Lia Lra Sorting.Sorted Permutation.
From Verif Require Import Num Exn ListAux NDSModel NDSSpec NDSTop NewtonModel NewtonProof.
Import ListNotations.
Open Scope nat_scope.

Lemma memn_true i l : memn i l = true <-> In i l.
Proof. unfold memn. rewrite existsb_exists. split. intros (x & Hx & E). apply Nat.eqb_eq in E. subst; auto. intros H. exists i. rewrite Nat.eqb_refl. auto. Qed.

(** * Duplicate removal *)
Section Dedup.
Variables (D : nat -> nat -> R) (eps : R) (N : nat).
Hypothesis Hsym : forall i j, D i j = D j i.
Definition near (i j : nat) : Prop := (Rabs (D i j) <= / 10 ^ 8)%R.
Lemma close_pair_near i j : close_pair D eps i j = true <-> near i j.
Proof using. unfold close_pair, near. rewrite rleb_true, Rabs_R0, Rmult_0_r, Rplus_0_r, Rminus_0_r. reflexivity. Qed.
Lemma near_sym i j : near i j -> near j i. Proof using Hsym. unfold near. rewrite Hsym. auto. Qed.

(** after processing the indices below [n] *)
Definition drop_upto (n : nat) : list nat := fold_left (drop_step D eps N) (seq 0 n) [].
Lemma drop_S n : drop_upto (S n) = drop_step D eps N (drop_upto n) n.
Proof using. unfold drop_upto. rewrite seq_S, fold_left_app. reflexivity. Qed.
Lemma drop_mono n j : In j (drop_upto n) -> In j (drop_upto (S n)).
Proof using. rewrite drop_S. unfold drop_step. destruct (memn n (drop_upto n)); auto. intros H. apply in_app_iff. auto. Qed.
Lemma drop_mono_le n m j : n <= m -> In j (drop_upto n) -> In j (drop_upto m).
Proof using. induction 1; auto. intros. apply drop_mono; auto. Qed.
Lemma drop_inv n : n <= N ->
  (forall i j, i < n -> j < N -> ~ In i (drop_upto n) -> j <> i -> near i j -> In j (drop_upto n)) /\
  (forall j, In j (drop_upto n) -> j < N /\ exists i, i < n /\ i <> j /\ ~ In i (drop_upto n) /\ near i j).
Proof using Hsym.
  induction n as [|n IH]; intros Hn.
  - split; [intros; lia|]. intros j [].
  - destruct IH as [I1 I2]; [lia|]. rewrite drop_S. unfold drop_step. destruct (memn n (drop_upto n)) eqn:E.
    + apply memn_true in E. split.
      * intros i j Hi Hj Hni Hne Hnear. destruct (Nat.eq_dec i n) as [->|]. contradiction. apply (I1 i); auto; lia.
      * intros j Hj. destruct (I2 j Hj) as (H & i & Hi & H'). split; auto. exists i. split; [lia|auto].
    + assert (Hn' : ~ In n (drop_upto n)) by (rewrite <- memn_true; congruence).
      assert (Hnew : forall j, In j (filter (fun j => close_pair D eps n j && negb (j =? n)) (seq 0 N)) <-> j < N /\ near n j /\ j <> n).
      { intros j. rewrite filter_In, in_seq, andb_true_iff, close_pair_near, negb_true_iff, Nat.eqb_neq. intuition lia. }
      split.
      * intros i j Hi Hj Hni Hne Hnear. apply in_app_iff. rewrite in_app_iff in Hni. destruct (Nat.eq_dec i n) as [->|].
        right. apply Hnew. auto. left. apply (I1 i); auto; lia.
      * intros j Hj. apply in_app_iff in Hj as [Hj|Hj].
        -- destruct (I2 j Hj) as (H & i & Hi & Hij & Hni & Hnr). split; auto. exists i. split; [lia|]. split; auto. split; auto.
           rewrite in_app_iff. intros [Hc|Hc]; [auto|]. apply Hnew in Hc as (Hi' & Hc & Hcn).
           apply Hn'. apply (I1 i); auto; try lia. apply near_sym; auto.
        -- apply Hnew in Hj as (Hj & Hc & Hcn). split; auto. exists n. split; [lia|]. split; auto. split; auto.
           rewrite in_app_iff. intros [H|H]; [auto|]. apply Hnew in H. lia.
Qed.

Lemma kept_spec order : (forall l, Permutation (order l) l) ->
  NoDup (kept order D eps N) /\ (forall i, In i (kept order D eps N) -> i < N) /\
  (forall i j, In i (kept order D eps N) -> In j (kept order D eps N) -> i <> j -> ~ near i j) /\
  (forall j, j < N -> ~ In j (kept order D eps N) -> exists i, In i (kept order D eps N) /\ i <> j /\ near i j) /\
  (0 < N -> kept order D eps N <> []).
Proof using Hsym.
  intros Ho. unfold kept. set (l := filter _ _). specialize (Ho l).
  assert (Hin : forall i, In i (order l) <-> i < N /\ ~ In i (drop_upto N)).
  { intros i. split. intros H. apply (Permutation_in _ Ho) in H. unfold l in H. apply filter_In in H as [H1 H2]. apply in_seq in H1.
    split; [lia|]. apply negb_true_iff in H2. rewrite <- memn_true. unfold drop_idx in H2. unfold drop_upto. congruence.
    intros [H1 H2]. apply (Permutation_in _ (Permutation_sym Ho)). apply filter_In. split. apply in_seq; lia. apply negb_true_iff.
    apply not_true_is_false. rewrite memn_true. auto. }
  destruct (drop_inv N (le_n N)) as [I1 I2].
  assert (K4 : forall j, j < N -> ~ In j (order l) -> exists i, In i (order l) /\ i <> j /\ near i j).
  { intros j Hj Hnj. assert (Hd : In j (drop_upto N)). { destruct (in_dec Nat.eq_dec j (drop_upto N)); auto. exfalso. apply Hnj. apply Hin. auto. }
    destruct (I2 j Hd) as (_ & i & Hi & Hij & Hni & Hnr). exists i. split; auto. apply Hin. auto. }
  split. { apply (Permutation_NoDup (Permutation_sym Ho)). apply NoDup_filter, seq_NoDup. }
  split. { intros i Hi. apply Hin in Hi. tauto. }
  split. { intros i j Hi Hj Hne Hnr. apply Hin in Hi as [Hi Hni]. apply Hin in Hj as [Hj Hnj]. apply Hnj. apply (I1 i); auto. }
  split; auto.
  intros HN E. destruct (K4 0 HN) as (i & Hi & _). rewrite E. auto. rewrite E in Hi. destruct Hi.
Qed.
End Dedup.

(** * Layers *)
Lemma insert_nat_perm x l : Permutation (x :: l) (insert_nat x l).
Proof. induction l as [|y l IH]; simpl; auto. destruct (x <=? y); auto. apply perm_trans with (y :: x :: l). apply perm_swap. auto. Qed.
Lemma sort_nat_perm l : Permutation l (sort_nat l).
Proof. induction l as [|x l IH]; simpl; auto. apply perm_trans with (x :: sort_nat l); auto. apply insert_nat_perm. Qed.

(** a chain of feasible points, each dominating the previous one *)
Fixpoint feasible_chain (feasible : list bool) (Y : list (list R)) (i : nat) (l : list nat) : Prop :=
  match l with
  | [] => True
  | j :: l' => nth j feasible false = true /\ dominates (row Y j) (row Y i) /\ feasible_chain feasible Y j l'
  end.

Lemma positions_of_true mask i : In i (positions_of true mask) <-> nth i mask false = true.
Proof.
  unfold positions_of. rewrite filter_In, in_seq. simpl. rewrite eqb_true_iff. split; [tauto|]. intros H. split; auto.
  split; [lia|]. destruct (Nat.lt_ge_cases i (length mask)); auto. rewrite nth_overflow in H by auto. discriminate.
Qed.
Lemma positions_of_false mask i : In i (positions_of false mask) <-> i < length mask /\ nth i mask false = false.
Proof.
  unfold positions_of. rewrite filter_In, in_seq. simpl. rewrite eqb_true_iff. split; intros [H1 H2].
  split; [lia|]. rewrite (nth_indep _ _ true) by lia. auto. split; [lia|]. rewrite (nth_indep _ _ false) by lia. auto.
Qed.

Section Layers.
Variables (feasible : list bool) (Y : list (list R)) (m : nat).
Hypothesis Hlen : length feasible = length Y.
Hypothesis Hm : 2 <= m.
Hypothesis HY : forall y, In y Y -> length y = m.
Let fi := positions_of true feasible.
Let ii := positions_of false feasible.
Let P := map (fun i => nth i Y []) fi.

Let fi_nodup : NoDup fi. Proof using. unfold fi, positions_of. apply NoDup_filter, seq_NoDup. Qed.
Let ii_nodup : NoDup ii. Proof using. unfold ii, positions_of. apply NoDup_filter, seq_NoDup. Qed.
Let fi_nth a : a < length fi -> nth (nth a fi 0) feasible false = true /\ nth a fi 0 < length Y.
Proof using Hlen.
  intros H. assert (Hin : In (nth a fi 0) fi) by (apply nth_In; auto). apply positions_of_true in Hin as Hf. split; auto.
  rewrite <- Hlen. destruct (Nat.lt_ge_cases (nth a fi 0) (length feasible)); auto. rewrite nth_overflow in Hf by auto. discriminate.
Qed.
Let row_P a : a < length fi -> row P a = row Y (nth a fi 0).
Proof using. intros H. unfold row, P. rewrite (nth_map_default _ _ _ 0) by auto. reflexivity. Qed.
Let LP : length P = length fi. Proof using. apply map_length. Qed.

Let chain_up c : forall a, a < length fi -> chain_to P a c -> feasible_chain feasible Y (nth a fi 0) (map (fun j => nth j fi 0) c).
Proof using Hlen.
  induction c as [|b c IH]; simpl; auto. intros a Ha (H1 & H2 & H3). rewrite LP in H1. destruct (fi_nth b H1) as [Hb _].
  rewrite !row_P in H2 by auto. auto.
Qed.
Let chain_down c : forall a, a < length fi -> feasible_chain feasible Y (nth a fi 0) c -> exists c', chain_to P a c' /\ length c' = length c.
Proof using.
  induction c as [|j c IH]; simpl. intros a _ _. exists []. split; simpl; auto.
  intros a Ha (H1 & H2 & H3). apply positions_of_true in H1. apply (In_nth _ _ 0) in H1 as (b & Hb & <-). fold fi in Hb, H2, H3.
  destruct (IH b Hb H3) as (c' & Hc & Hl). exists (b :: c'). simpl. split; auto. split. rewrite LP. auto. split; auto. rewrite !row_P; auto.
Qed.

Lemma hvn_layers_spec : exists d, hvn_layers feasible Y = Ok d /\
  (forall k l, In (k, l) d -> NoDup l /\ forall i, In i l -> i < length Y) /\
  (forall i, i < length Y -> exists k l, In (k, l) d /\ In i l /\ forall k' l', In (k', l') d -> In i l' -> k' = k /\ l' = l) /\
  (forall i k l, In (k, l) d -> In i l -> nth i feasible false = false -> k = 0) /\
  (forall i k l, In (k, l) d -> In i l -> nth i feasible false = true ->
     (exists c, feasible_chain feasible Y i c /\ length c = k) /\ (forall c, feasible_chain feasible Y i c -> length c <= k)).
Proof using Hlen Hm HY.
  unfold hvn_layers. fold fi ii.
  assert (Hcase : fi = [] \/ exists f0 fr', fi = f0 :: fr') by (destruct fi; eauto). destruct Hcase as [Efi|(f0 & fr' & Efi)].
  - rewrite Efi. exists [(0, seq 0 (length Y))]. split; auto.
    assert (Hno : forall i, nth i feasible false = true -> False). { intros i Hi. apply positions_of_true in Hi. fold fi in Hi. rewrite Efi in Hi. destruct Hi. }
    split. { intros k l [E|[]]. injection E as <- <-. split. apply seq_NoDup. intros i Hi. apply in_seq in Hi. lia. }
    split. { intros i Hi. exists 0, (seq 0 (length Y)). split; simpl; auto. split. apply in_seq; lia. intros k' l' [E|[]] _. injection E as <- <-. auto. }
    split. { intros i k l [E|[]]. injection E as <- <-. auto. }
    intros i k l _ _ Hf. exfalso. eauto.
  - assert (HB : forall A B : res (list (nat * list nat)), match fi with [] => A | _ :: _ => B end = B) by (rewrite Efi; reflexivity).
    rewrite HB. clear HB. fold P.
    assert (HP : P <> []) by (intros Hc; apply (f_equal (@length _)) in Hc; rewrite LP, Efi in Hc; discriminate).
    assert (HPl : forall p, In p P -> length p = m).
    { intros p Hp. unfold P in Hp. apply in_map_iff in Hp as (i & <- & Hi). apply HY, nth_In. apply (In_nth _ _ 0) in Hi as (a & Ha & <-). apply fi_nth; auto. }
    destruct (nds_idx_correct P m HP Hm HPl) as (d & Ed & (q & Hq) & Hfront & Hcover & Hub & Hex). rewrite Ed. cbn [bind].
    set (g := fun kv : nat * list nat => (fst kv, map (fun j => nth j fi 0) (snd kv))).
    assert (Hkeys : map fst (map g d) = seq 0 q) by (rewrite map_map; exact Hq).
    assert (Hq0 : 0 < q). { destruct (Hcover 0) as (r & l & Hrl & _). unfold P. rewrite map_length, Efi. simpl; lia.
      apply (in_map fst) in Hrl. rewrite Hq in Hrl. apply in_seq in Hrl. simpl in Hrl. lia. }
    destruct d as [|[k0 v0] d0]; [simpl in Hkeys; destruct q; [lia|discriminate]|].
    destruct q as [|q]; [lia|]. assert (k0 = 0) by (simpl in Hq; congruence). subst k0.
    assert (Hrest : forall kv, In kv d0 -> fst kv <> 0).
    { intros kv Hkv. simpl in Hq. injection Hq as Hq. apply (in_map fst) in Hkv. rewrite Hq in Hkv. apply in_seq in Hkv. lia. }
    cbn [map g fst snd get0 Nat.eqb bind]. set (l0 := map (fun j => nth j fi 0) v0).
    exists (put0 (sort_nat (l0 ++ ii)) ((0, l0) :: map g d0)). split; [reflexivity|].
    set (S0 := sort_nat (l0 ++ ii)).
    assert (HS0 : forall i, In i S0 <-> In i l0 \/ In i ii).
    { intros i. unfold S0. rewrite <- in_app_iff. split; apply Permutation_in; [apply Permutation_sym|]; apply sort_nat_perm. }
    assert (Hd' : forall k l, In (k, l) (put0 S0 ((0, l0) :: map g d0)) <-> (k = 0 /\ l = S0) \/ (exists v, In (k, v) d0 /\ l = map (fun j => nth j fi 0) v)).
    { intros k l. unfold put0. rewrite map_cons, map_map. cbn [fst Nat.eqb]. split.
      - intros [E|Hin]. injection E as <- <-. auto. right. apply in_map_iff in Hin as ([k' v'] & E & Hin). unfold g in E. cbn [fst snd] in E.
        pose proof (Hrest _ Hin) as Hne. simpl in Hne. replace (k' =? 0) with false in E by (symmetry; apply Nat.eqb_neq; auto). injection E as <- <-. exists v'. auto.
      - intros [[-> ->]|(v & Hin & ->)]. left; auto. right. apply in_map_iff. exists (k, v). split; auto. unfold g. cbn [fst snd].
        pose proof (Hrest _ Hin) as Hne. simpl in Hne. replace (k =? 0) with false by (symmetry; apply Nat.eqb_neq; auto). auto. }
    assert (Hvlt : forall k v a, In (k, v) ((0, v0) :: d0) -> In a v -> a < length fi).
    { intros k v a Hkv Ha. destruct (Hfront k v Hkv) as (_ & _ & Hf). apply Hf in Ha. destruct Ha as [Ha _]. rewrite <- LP.
      clear -Ha. revert a Ha. induction k; simpl; auto. intros a [Ha _]. auto. }
    assert (Hinj : forall a b, a < length fi -> b < length fi -> nth a fi 0 = nth b fi 0 -> a = b) by (intros a b Ha Hb E; exact (proj1 (NoDup_nth fi 0) fi_nodup a b Ha Hb E)).
    assert (Hmapnd : forall k v, In (k, v) ((0, v0) :: d0) -> NoDup (map (fun j => nth j fi 0) v)).
    { intros k v Hkv. destruct (Hfront k v Hkv) as (Hss & _ & _).
      assert (Hnd : NoDup v). { clear -Hss. induction Hss; constructor; auto. intros Hc. rewrite Forall_forall in H. apply H in Hc. lia. }
      assert (Hlt : forall a, In a v -> a < length fi) by (intros; eapply Hvlt; eauto). clear -Hnd Hlt Hinj.
      induction Hnd as [|a v Hn Hnd IH]; simpl; constructor. intros Hc. apply in_map_iff in Hc as (b & E & Hb). apply Hinj in E; try (apply Hlt; simpl; auto). subst. auto.
      apply IH. intros; apply Hlt; simpl; auto. }
    assert (Hfeas_of : forall k v i, In (k, v) ((0, v0) :: d0) -> In i (map (fun j => nth j fi 0) v) -> nth i feasible false = true /\ i < length Y).
    { intros k v i Hkv Hi. apply in_map_iff in Hi as (a & <- & Ha). apply fi_nth. eapply Hvlt; eauto. }
    (* the front of a feasible point is unique *)
    assert (Huniq : forall k v k' v' i, In (k, v) ((0, v0) :: d0) -> In (k', v') ((0, v0) :: d0) ->
       In i (map (fun j => nth j fi 0) v) -> In i (map (fun j => nth j fi 0) v') -> k = k' /\ v = v').
    { intros k v k' v' i H1 H2 Hi1 Hi2. apply in_map_iff in Hi1 as (a & Ea & Ha). apply in_map_iff in Hi2 as (b & Eb & Hb).
      assert (a = b). { apply Hinj; [exact (Hvlt k v a H1 Ha)|exact (Hvlt k' v' b H2 Hb)|congruence]. } subst b.
      assert (Ek : k = k').
      { destruct (Hex k v a H1 Ha) as (c & Hc & Lc). destruct (Hex k' v' a H2 Hb) as (c' & Hc' & Lc').
        pose proof (Hub k' v' a H2 Hb c Hc). pose proof (Hub k v a H1 Ha c' Hc'). lia. }
      split; auto. subst k'. assert (Hnd : NoDup (map fst ((0, v0) :: d0))) by (rewrite Hq; apply seq_NoDup).
      clear -Hnd H1 H2. revert H1 H2 Hnd. generalize ((0, v0) :: d0). induction l as [|[k1 v1] l IH]; intros H1 H2 Hnd; [destruct H1|].
      inversion Hnd; subst. destruct H1 as [E1|H1], H2 as [E2|H2]; try congruence.
      - injection E1 as -> ->. exfalso. apply H3. apply (in_map fst) in H2. auto.
      - injection E2 as -> ->. exfalso. apply H3. apply (in_map fst) in H1. auto.
      - auto. }
    split.
    { intros k l Hkl. apply Hd' in Hkl as [[-> ->]|(v & Hin & ->)].
      - split.
        + apply (Permutation_NoDup (sort_nat_perm _)). apply NoDup_app_iff. split; [apply (Hmapnd 0 v0); simpl; auto|]. split; auto.
          intros i H1 H2. apply (Hfeas_of 0 v0) in H1 as [H1 _]; simpl; auto. apply positions_of_false in H2. destruct H2 as [_ H2]. congruence.
        + intros i Hi. apply HS0 in Hi as [Hi|Hi]. apply (Hfeas_of 0 v0 i); simpl; auto. apply positions_of_false in Hi. lia.
      - split. apply (Hmapnd k v); simpl; auto. intros i Hi. apply (Hfeas_of k v i); simpl; auto. }
    split.
    { intros i Hi. destruct (nth i feasible false) eqn:Ef.
      - apply positions_of_true in Ef as Hin. fold fi in Hin. apply (In_nth _ _ 0) in Hin as (a & Ha & Ea).
        destruct (Hcover a) as (k & v & Hkv & Hav). { rewrite LP. auto. }
        assert (Hiv : In i (map (fun j => nth j fi 0) v)) by (rewrite <- Ea; exact (in_map (fun j => nth j fi 0) v a Hav)).
        assert (Hother : forall k' l', In (k', l') (put0 S0 ((0, l0) :: map g d0)) -> In i l' -> k' = k).
        { intros k' l' Hkl' Hil'. apply Hd' in Hkl' as [[-> ->]|(v' & Hin' & ->)].
          - apply HS0 in Hil' as [Hil'|Hil']. symmetry. apply (Huniq k v 0 v0 i); simpl; auto. apply positions_of_false in Hil'. destruct Hil'; congruence.
          - apply (Huniq k' v' k v i); simpl; auto. }
        assert (Hkk : forall k l l', In (k, l) (put0 S0 ((0, l0) :: map g d0)) -> In (k, l') (put0 S0 ((0, l0) :: map g d0)) -> In i l -> In i l' -> l = l').
        { intros k1 l1 l1' H1 H2 Hi1 Hi2. apply Hd' in H1 as [[-> ->]|(v1 & H1 & ->)]; apply Hd' in H2 as [[E2 ->]|(v2 & H2 & ->)]; auto.
          - exfalso. apply (Hrest _ H2). auto.
          - exfalso. apply (Hrest _ H1). auto.
          - f_equal. apply (Huniq k1 v1 k1 v2 i); simpl; auto. }
        destruct Hkv as [E|Hkv].
        + injection E as <- <-. exists 0, S0. assert (H0 : In (0, S0) (put0 S0 ((0, l0) :: map g d0))) by (apply Hd'; auto).
          assert (H1 : In i S0) by (apply HS0; left; auto). split; auto. split; auto. intros k' l' Hkl' Hil'. pose proof (Hother k' l' Hkl' Hil'). subst k'. split; auto. eapply Hkk; eauto.
        + exists k, (map (fun j => nth j fi 0) v). assert (H0 : In (k, map (fun j => nth j fi 0) v) (put0 S0 ((0, l0) :: map g d0))) by (apply Hd'; right; eauto).
          split; auto. split; auto. intros k' l' Hkl' Hil'. pose proof (Hother k' l' Hkl' Hil'). subst k'. split; auto. eapply Hkk; eauto.
      - assert (Hii : In i ii) by (apply positions_of_false; rewrite Hlen; auto).
        exists 0, S0. split. apply Hd'; auto. split. apply HS0; auto. intros k' l' Hkl' Hil'. apply Hd' in Hkl' as [[-> ->]|(v' & Hin' & ->)]; auto.
        exfalso. apply (Hfeas_of k' v' i) in Hil'; simpl; auto. destruct Hil'; congruence. }
    split.
    { intros i k l Hkl Hil Hf. apply Hd' in Hkl as [[-> ->]|(v' & Hin' & ->)]; auto.
      exfalso. apply (Hfeas_of k v' i) in Hil; simpl; auto. destruct Hil; congruence. }
    intros i k l Hkl Hil Hf.
    assert (Hv : exists v, In (k, v) ((0, v0) :: d0) /\ In i (map (fun j => nth j fi 0) v)).
    { apply Hd' in Hkl as [[-> ->]|(v' & Hin' & ->)]. exists v0. split; simpl; auto. apply HS0 in Hil as [Hil|Hil]; auto. apply positions_of_false in Hil. destruct Hil; congruence.
      exists v'. split; simpl; auto. }
    destruct Hv as (v & Hkv & Hiv). apply in_map_iff in Hiv as (a & Ea & Hav). assert (Ha : a < length fi) by (eapply Hvlt; eauto). split.
    + destruct (Hex k v a Hkv Hav) as (c & Hc & Lc). exists (map (fun j => nth j fi 0) c). split. rewrite <- Ea. apply chain_up; auto. rewrite map_length. auto.
    + intros c Hc. rewrite <- Ea in Hc. destruct (chain_down c a Ha Hc) as (c' & Hc' & Lc'). rewrite <- Lc'. eapply Hub; eauto.
Qed.
End Layers.

(** * Main loops *)
Section Loop.
Context {St : Type} (iterate : St -> res St).
(** the states after 1, 2, ..., n iterations *)
Fixpoint iterates (n : nat) (s : St) : res (list St) :=
  match n with O => Ok [] | S n' => do s' <- iterate s; do l <- iterates n' s'; Ok (s' :: l) end.
Lemma run_finite n : forall s i z h fuel l, iterates n s = Ok l -> n <= fuel -> (Z.of_nat (i + n) = z \/ (z <= Z.of_nat i)%Z /\ n = 0) ->
  run iterate fuel (mkOpt s i (Finite z) None h) = Ok (mkOpt (last l s) (i + n) (Finite z) (Some (i + n)) (h ++ l)).
Proof.
  induction n as [|n IH]; intros s i z h fuel l E Hf Hz; simpl in E.
  - injection E as <-. rewrite Nat.add_0_r, app_nil_r in *. assert (Hr : (z <=? Z.of_nat i)%Z = true) by (apply Z.leb_le; lia).
    destruct fuel; simpl; unfold reached; simpl; rewrite Hr; reflexivity.
  - destruct (iterate s) as [s'|e] eqn:Es; [|discriminate]. cbn [bind] in E. destruct (iterates n s') as [l'|e] eqn:El; [|discriminate]. injection E as <-.
    destruct fuel as [|fuel]; [lia|]. assert (Hr : (z <=? Z.of_nat i)%Z = false) by (apply Z.leb_gt; lia).
    cbn [run]. unfold terminate, reached. cbn [o_max o_iter o_state o_stop o_hist]. rewrite Hr. rewrite Es. cbn [bind].
    rewrite (IH s' (S i) z _ fuel l' El); [|lia|left; lia]. replace (S i + n) with (i + S n) by lia. f_equal. f_equal.
    + destruct l' as [|a l'']; auto. cbn [last]. assert (Hlast : forall (l : list St) a x y, last (a :: l) x = last (a :: l) y).
      { induction l as [|b l IHl]; intros; auto. cbn [last] in *. apply (IHl b). } apply (Hlast l'' a).
    + rewrite <- app_assoc. auto.
Qed.
Lemma run_exception n : forall s i z h fuel e, iterates n s = Exn e -> n <= fuel -> (Z.of_nat (i + n) <= z)%Z ->
  run iterate fuel (mkOpt s i (Finite z) None h) = Exn e.
Proof.
  induction n as [|n IH]; intros s i z h fuel e E Hf Hz; simpl in E; [discriminate|].
  destruct fuel as [|fuel]; [lia|]. assert (Hr : (z <=? Z.of_nat i)%Z = false) by (apply Z.leb_gt; lia).
  cbn [run]. unfold terminate, reached. cbn [o_max o_iter o_state o_stop o_hist]. rewrite Hr.
  destruct (iterate s) as [s'|e'] eqn:Es; cbn [bind] in *; [|congruence].
  destruct (iterates n s') as [l'|e'] eqn:El; [discriminate|]. cbn [bind] in E. apply IH; auto. congruence. lia. lia.
Qed.
Lemma run_unlimited fuel : forall s i h, (forall s, is_ok (iterate s) = true) -> run iterate fuel (mkOpt s i Unlimited None h) = Exn OutOfFuel.
Proof.
  induction fuel as [|f IH]; intros s i h H; cbn [run]; unfold terminate, reached; cbn [o_max o_iter o_state o_stop o_hist]; auto.
  destruct (iterate s) eqn:E; cbn [bind]. apply IH; auto. specialize (H s). rewrite E in H. discriminate.
Qed.
Lemma run_stopped fuel s i b k h : exists k', run iterate fuel (mkOpt s i b (Some k) h) = Ok (mkOpt s i b (Some k') h).
Proof.
  destruct fuel; cbn [run]; unfold terminate; cbn [o_max o_iter o_state o_stop o_hist]; destruct (reached _); eauto.
Qed.
End Loop.
