(** Proofs about [read_data]. *)
From Coq Require Import List Arith Bool Reals ZArith Lia Permutation Sorting.Sorted.
From Verif Require Import Exn ListAux RdModel RdSpec.
Import ListNotations.

(** * unique *)
Lemma ins_in z l a : In a (ins z l) <-> a = z \/ In a l.
Proof.
  induction l as [|b l IH]; simpl. intuition congruence.
  destruct (z <? b)%Z. simpl. intuition congruence. destruct (z =? b)%Z eqn:E.
  - apply Z.eqb_eq in E. subst. simpl. intuition congruence.
  - simpl. rewrite IH. intuition congruence.
Qed.
Lemma unique_in l a : In a (unique l) <-> In a l.
Proof. induction l as [|b l IH]; simpl; [tauto|]. rewrite ins_in, IH. intuition congruence. Qed.
Lemma ins_sorted z l : StronglySorted Z.lt l -> StronglySorted Z.lt (ins z l).
Proof.
  induction l as [|b l IH]; simpl; intros H. repeat constructor.
  inversion H as [|? ? H1 H2]; subst. destruct (z <? b)%Z eqn:E1. apply Z.ltb_lt in E1.
  - constructor; auto. constructor; auto. rewrite Forall_forall in *. intros x Hx. specialize (H2 x Hx). lia.
  - apply Z.ltb_ge in E1. destruct (z =? b)%Z eqn:E2; auto. apply Z.eqb_neq in E2. constructor; auto.
    rewrite Forall_forall in *. intros x Hx. apply ins_in in Hx. destruct Hx as [->|Hx]; auto. lia.
Qed.
Lemma unique_sorted l : StronglySorted Z.lt (unique l).
Proof. induction l; simpl. constructor. apply ins_sorted; auto. Qed.
Lemma unique_NoDup l : NoDup (unique l).
Proof.
  generalize (unique_sorted l). generalize (unique l). induction l0 as [|a t IH]; intros H; constructor; inversion H; subst; auto.
  intros Hin. rewrite Forall_forall in *. specialize (H3 a Hin). lia.
Qed.
Lemma unique_nil l : unique l = [] -> l = [].
Proof. intros H. destruct l as [|a l]; auto. assert (In a (unique (a :: l))) by (apply unique_in; simpl; auto). rewrite H in H0. destruct H0. Qed.

Lemma filter_all {A} (f : A -> bool) l : (forall a, In a l -> f a = true) -> filter f l = l.
Proof. induction l as [|a l IH]; simpl; intros H; auto. rewrite (H a) by auto. f_equal. apply IH. auto. Qed.
(** * groups *)
Lemma groups_spec lab g : In g (groups lab) ->
  g <> [] /\ StronglySorted lt g /\ forall i, In i g -> forall j, In j g <-> j < length lab /\ nth j lab 0%Z = nth i lab 0%Z.
Proof.
  unfold groups. intros H. apply in_map_iff in H. destruct H as (z & <- & Hz). split; [|split].
  - rewrite unique_in in Hz. destruct (In_nth _ _ 0%Z Hz) as (j & Hj & E). intros C.
    assert (In j (filter (fun j => (nth j lab 0 =? z)%Z) (seq 0 (length lab)))). { apply filter_In. split. apply in_seq. lia. apply Z.eqb_eq. auto. }
    rewrite C in H. destruct H.
  - apply StronglySorted_filter. apply StronglySorted_seq.
  - intros i Hi j. apply filter_In in Hi. destruct Hi as [_ Hi]. apply Z.eqb_eq in Hi. rewrite Hi, filter_In, in_seq, Z.eqb_eq.
    split; intros [A B]; (split; [lia|auto]).
Qed.
Lemma groups_concat zs lab l : NoDup zs -> NoDup l -> (forall j, In j l -> In (nth j lab 0%Z) zs) ->
  Permutation (concat (map (fun z => filter (fun j => (nth j lab 0 =? z)%Z) l) zs)) l.
Proof.
  revert l. induction zs as [|z zs IH]; intros l Hz Hl H; simpl.
  - destruct l as [|a l]; auto. destruct (H a). simpl; auto.
  - inversion Hz as [|? ? Hz1 Hz2]; subst.
    assert (E : map (fun w => filter (fun j => (nth j lab 0 =? w)%Z) l) zs =
                map (fun w => filter (fun j => (nth j lab 0 =? w)%Z) (filter (fun j => negb (nth j lab 0 =? z)%Z) l)) zs).
    { apply map_ext_in. intros w Hw. clear -Hw Hz1. induction l as [|a l IH]; simpl; auto.
      destruct (nth a lab 0 =? w)%Z eqn:E1; destruct (nth a lab 0 =? z)%Z eqn:E2; simpl; rewrite ?E1, IH; auto.
      apply Z.eqb_eq in E1. apply Z.eqb_eq in E2. congruence. }
    rewrite E. rewrite (IH (filter (fun j => negb (nth j lab 0 =? z)%Z) l)); auto.
    + clear. induction l as [|a l IH]; simpl; auto. destruct (nth a lab 0 =? z)%Z; simpl. constructor; auto.
      rewrite <- Permutation_middle. constructor; auto.
    + apply NoDup_filter; auto.
    + intros j Hj. apply filter_In in Hj. destruct Hj as [Hj Hn]. destruct (H j Hj) as [E0|]; auto. rewrite (proj2 (Z.eqb_eq _ _) (eq_sym E0)) in Hn. discriminate.
Qed.
Lemma groups_cover lab : Permutation (concat (groups lab)) (seq 0 (length lab)).
Proof.
  apply groups_concat. apply unique_NoDup. apply seq_NoDup. intros j Hj. apply unique_in. apply nth_In. apply in_seq in Hj. lia.
Qed.
Lemma filter_count lab z a : length (filter (fun j => (nth (j - a) lab 0 =? z)%Z) (seq a (length lab))) = count_occ Z.eq_dec lab z.
Proof.
  revert a. induction lab as [|b lab IH]; intros a; simpl; auto. rewrite Nat.sub_diag. simpl.
  assert (E : forall l, (forall j, In j l -> a < j) -> filter (fun j => (match (j - a)%nat with 0%nat => b | S m => nth m lab 0 end =? z)%Z) l = filter (fun j => (nth (j - S a) lab 0 =? z)%Z) l).
  { induction l as [|c l IHl]; simpl; intros Hl; auto. assert (a < c) by (apply Hl; auto). replace (c - a) with (S (c - S a)) by lia. rewrite IHl; auto. }
  rewrite E by (intros j Hj; apply in_seq in Hj; lia). destruct (Z.eq_dec b z) as [->|N].
  - rewrite Z.eqb_refl. simpl. rewrite IH. auto.
  - apply Z.eqb_neq in N. rewrite N. apply IH.
Qed.
Lemma groups_sizes lab : map (@length nat) (groups lab) = map (fun z => count_occ Z.eq_dec lab z) (unique lab).
Proof.
  unfold groups. rewrite map_map. apply map_ext. intros z. rewrite <- (filter_count lab z 0). f_equal. apply filter_ext. intros j. rewrite Nat.sub_0_r. auto.
Qed.
Lemma groups_zero n : 0 < n -> groups (repeat 0%Z n) = [seq 0 n].
Proof.
  intros Hn. unfold groups. rewrite repeat_length. assert (E : unique (repeat 0%Z n) = [0%Z]).
  { destruct n as [|n]; [lia|]. clear. induction n as [|n IH]; auto. change (repeat 0%Z (S (S n))) with (0%Z :: repeat 0%Z (S n)). unfold unique in *. cbn [fold_right]. rewrite IH. auto. }
  rewrite E. simpl. f_equal. apply filter_all. intros j _. apply Z.eqb_eq. apply nth_repeat.
Qed.

(** * mask *)
Lemma mask_length {A} m (l r : list A) : mask m l = Ok r -> length l = length m.
Proof.
  revert l r. induction m as [|b m IH]; intros [|a l] r; simpl; try discriminate; auto.
  destruct (mask m l) eqn:E; simpl; [|discriminate]. intros _. f_equal. eauto.
Qed.
Lemma mask_total {A} m (l : list A) : length l = length m -> exists r, mask m l = Ok r.
Proof.
  revert l. induction m as [|b m IH]; intros [|a l]; simpl; try discriminate; eauto.
  intros H. injection H as H. destruct (IH l H) as (r & E). rewrite E. simpl. eauto.
Qed.
Lemma mask_rows {A} (d : A) m l r : mask m l = Ok r -> forall c, r = map (fun p => nth (p - c) l d) (filter (fun p => nth (p - c) m false) (seq c (length m))).
Proof.
  revert l r. induction m as [|b m IH]; intros [|a l] r; simpl; try discriminate.
  - intros [= <-] c. auto.
  - destruct (mask m l) as [t|] eqn:E; simpl; [|discriminate]. intros [= <-] c. specialize (IH l t E (S c)).
    assert (K : forall q : list nat, (forall p, In p q -> c < p) ->
      map (fun p => match (p - c)%nat with 0 => a | S k => nth k l d end) (filter (fun p => match (p - c)%nat with 0 => b | S k => nth k m false end) q)
      = map (fun p => nth (p - S c) l d) (filter (fun p => nth (p - S c) m false) q)).
    { induction q as [|p q IHq]; intros Hq; simpl; auto. assert (c < p) by (apply Hq; simpl; auto). replace (p - c)%nat with (S (p - S c)) by lia.
      destruct (nth (p - S c) m false); simpl; rewrite IHq; auto; try (intros; apply Hq; simpl; auto). f_equal. replace (p - c)%nat with (S (p - S c)) by lia. auto.  }
    rewrite Nat.sub_diag. destruct b; simpl; [rewrite Nat.sub_diag; f_equal|]; rewrite K; auto; intros p Hp; apply in_seq in Hp; lia.
Qed.
Lemma mask_inliers {A} (d : A) L l r : mask (map (fun z => negb (z =? -2)%Z && negb (z =? -1)%Z) (map (fun z => (z - 1)%Z) L)) l = Ok r ->
  length l = length L /\ r = map (fun p => nth p l d) (inliers L).
Proof.
  intros H. split. rewrite (mask_length _ _ _ H), !map_length. auto.
  rewrite (mask_rows d _ _ _ H 0). rewrite !map_length. unfold inliers. 
  rewrite (filter_ext_in (fun p => nth (p - 0) (map (fun z => negb (z =? -2)%Z && negb (z =? -1)%Z) (map (fun z => (z - 1)%Z) L)) false)
     (fun p => negb (nth p L 0 =? 0)%Z && negb (nth p L 0 =? -1)%Z)).
  - apply map_ext. intros p. rewrite Nat.sub_0_r. auto.
  - intros p Hp. apply in_seq in Hp. rewrite Nat.sub_0_r, map_map. rewrite (nth_map_default _ _ _ 0%Z) by lia.
    destruct (Z.eqb_spec (nth p L 0 - 1) (-2))%Z, (Z.eqb_spec (nth p L 0 - 1) (-1))%Z, (Z.eqb_spec (nth p L 0) 0)%Z, (Z.eqb_spec (nth p L 0) (-1))%Z; auto; lia.
Qed.

(** * counts *)
Lemma min_count_spec l m : min_count l = Ok m -> l <> [] /\ forall a, In a l -> m <= a.
Proof.
  destruct l as [|b l]; simpl; [discriminate|]. intros [= <-]. split; [discriminate|]. intros a [<-|H].
  - induction l; simpl; lia.
  - induction l as [|c l IH]; [destruct H|]. simpl. destruct H as [<-|H]; [lia|]. specialize (IH H). lia.
Qed.
Lemma max_count_spec l m : max_count l = Ok m -> l <> [] /\ forall a, In a l -> a <= m.
Proof.
  destruct l as [|b l]; simpl; [discriminate|]. intros [= <-]. split; [discriminate|]. intros a [<-|H].
  - induction l; simpl; lia.
  - induction l as [|c l IH]; [destruct H|]. simpl. destruct H as [<-|H]; [lia|]. specialize (IH H). lia.
Qed.
Lemma min_count_in l m : min_count l = Ok m -> In m l.
Proof.
  destruct l as [|b l]; simpl; [discriminate|]. intros [= <-]. induction l as [|c l IH]; simpl; auto.
  destruct (Nat.min_dec c (fold_right Nat.min b l)) as [->| ->]; intuition.
Qed.
Lemma max_count_in l m : max_count l = Ok m -> In m l.
Proof.
  destruct l as [|b l]; simpl; [discriminate|]. intros [= <-]. induction l as [|c l IH]; simpl; auto.
  destruct (Nat.max_dec c (fold_right Nat.max b l)) as [->| ->]; intuition.
Qed.
Lemma vstack_spec ls a : vstack ls = Ok a -> a = concat ls /\ a <> [] /\ same_width ls.
Proof.
  unfold vstack, same_width. destruct (concat ls) as [|r t] eqn:E; [discriminate|]. destruct (forallb _ t) eqn:F; [|discriminate]. intros [= <-].
  split; auto. split; [discriminate|]. rewrite forallb_forall in F.
  assert (K : forall q, In q (r :: t) -> length q = length r). { intros q [<-|Hq]; auto. apply Nat.eqb_eq. auto. }
  intros p q Hp Hq. rewrite (K p), (K q); auto.
Qed.
Lemma vstack_total ls : concat ls <> [] -> same_width ls -> vstack ls = Ok (concat ls).
Proof.
  unfold vstack, same_width. destruct (concat ls) as [|r t] eqn:E; [congruence|]. intros _ H.
  rewrite (proj2 (forallb_forall (fun q => (length q =? length r)%nat) t)); auto. intros q Hq. apply Nat.eqb_eq. apply H; simpl; auto.
Qed.

(** * loading the components *)
Section Load.
Variable sample : nat -> list (list R) -> list (list R).
Variable fs : files.
Hypothesis sample_good : sample_ok sample.

Lemma thin_ok i r : thinned r (if (3000 <=? length r)%nat then sample i r else r).
Proof using sample_good.
  unfold thinned. destruct (3000 <=? length r) eqn:E; auto. apply Nat.leb_le in E.
  destruct (sample_good i r E) as (ix & H1 & H2 & H3 & H4). split. rewrite H4. unfold at_rows. rewrite map_length. auto. exists ix. auto.
Qed.
Lemma lookup_app {V} k (d e : list (nat * V)) : lookup k (d ++ e) = match lookup k d with Some v => Some v | None => lookup k e end.
Proof. unfold lookup. induction d as [|[a v] d IH]; simpl; auto. destruct (a =? k)%nat; auto. Qed.
Lemma lookup_none {V} k (d : list (nat * V)) : lookup k d = None <-> ~ In k (keys d).
Proof.
  unfold lookup, keys. induction d as [|[a v] d IH]; simpl. tauto. destruct (Nat.eqb_spec a k) as [->|N]; simpl.
  - split; [discriminate|]. intros H. exfalso. auto.
  - rewrite IH. intuition.
Qed.
(** what has been read after the clusters 0 ... k-1 *)
Definition loaded (n k : nat) (ref : list (nat * list (list R))) (eta : option (list (nat * list (option R)))) : Prop :=
  keys ref = filter (readable fs n) (seq 0 k) /\
  (forall i r, In (i, r) ref -> exists t, ref_table fs n i = Some t /\ thinned t r) /\
  match eta with
  | None => 0 < k /\ readable fs n 0 = true /\ no_eta fs 0
  | Some d => keys d = keys ref /\ (0 < k -> readable fs n 0 = true -> ~ no_eta fs 0) /\
              (forall i, In i (keys ref) -> exists v, lookup i d = Some v /\ direction fs i = Some v)
  end.
Definition fillable_at (n i : nat) : Prop :=
  readable fs n i = true ->
  (0 < i -> readable fs n 0 = true -> ~ no_eta fs 0) /\ (0 < i -> no_eta fs i -> readable fs n (i - 1) = true).
Lemma load_one_spec n k ref eta : loaded n k ref eta ->
  match load_one sample fs n k ref eta with
  | Ok re => fillable_at n k /\ loaded n (S k) (fst re) (snd re)
  | Exn e => ~ fillable_at n k
  end.
Proof using sample_good.
  intros (K & C & D). unfold load_one, fillable_at.
  assert (HS : seq 0 (S k) = seq 0 k ++ [k]) by (rewrite seq_S; auto).
  destruct (f_ref fs (if (n =? 1)%nat then None else Some (S k))) as [r|] eqn:ER.
  2:{ assert (ERd : readable fs n k = false) by (unfold readable, ref_table; rewrite ER; auto). cbn [fst snd]. split. congruence.
      split. rewrite HS, filter_app. simpl. rewrite ERd, app_nil_r. auto. split; auto. destruct eta as [d|].
      - destruct D as (D1 & D2 & D3). split; auto. split; auto. intros _ R0 NE. destruct k. congruence. apply D2; auto. lia.
      - destruct D as (D1 & D2). split; auto. }
  assert (ERd : readable fs n k = true) by (unfold readable, ref_table; rewrite ER; auto).
  set (r' := if (3000 <=? length r)%nat then sample k r else r).
  assert (K' : keys (ref ++ [(k, r')]) = filter (readable fs n) (seq 0 (S k))).
  { unfold keys. rewrite map_app. fold (keys ref). rewrite HS, filter_app, K. simpl. rewrite ERd. auto. }
  assert (C' : forall i q, In (i, q) (ref ++ [(k, r')]) -> exists t, ref_table fs n i = Some t /\ thinned t q).
  { intros i q H. apply in_app_iff in H. destruct H as [H|[[= <- <-]|[]]]; auto. exists r. split; auto. apply thin_ok. }
  assert (NK : ~ In k (keys ref)). { rewrite K. intros H. apply filter_In in H. destruct H as [H _]. apply in_seq in H. lia. }
  assert (EXT : forall d v, keys d = keys ref -> (forall i, In i (keys ref) -> exists w, lookup i d = Some w /\ direction fs i = Some w) ->
     direction fs k = Some v -> keys (d ++ [(k, v)]) = keys (ref ++ [(k, r')]) /\
     forall i, In i (keys (ref ++ [(k, r')])) -> exists w, lookup i (d ++ [(k, v)]) = Some w /\ direction fs i = Some w).
  { intros d v E1 E2 E3. split. unfold keys in *. rewrite !map_app. simpl. congruence.
    intros i Hi. rewrite lookup_app. unfold keys in Hi. rewrite map_app in Hi. apply in_app_iff in Hi. destruct Hi as [Hi|[<-|[]]].
    - destruct (E2 i Hi) as (w & -> & Hw). eauto.
    - cbn [fst]. rewrite (proj2 (lookup_none k d)) by congruence. exists v. split; auto. unfold lookup. simpl. rewrite Nat.eqb_refl. auto. }
  destruct (f_eta fs (S k)) as [e|] eqn:EE.
  - assert (Dk : direction fs k = Some (concat e)) by (destruct k; simpl; rewrite EE; auto).
    destruct eta as [d|].
    + destruct D as (D1 & D2 & D3). cbn [fst snd]. split.
      * intros _. split. intros Hk. apply D2; auto. unfold no_eta. congruence.
      * destruct (EXT d (concat e) D1 D3 Dk) as [X1 X2]. split; auto. split; auto. split; auto. split; auto.
        intros _ R0 NE. destruct k. unfold no_eta in NE. congruence. apply D2; auto. lia.
    + destruct D as (D1 & D2 & D3). rewrite (proj2 (Nat.ltb_lt 0 k) D1). intros F. destruct (F ERd) as [F1 _]. apply F1; auto.
  - assert (G : match (if (0 <? k)%nat then
            match eta with
            | None => Exn TypeError
            | Some d => match lookup (k - 1) d with
                        | None => Exn KeyError
                        | Some e => Ok (ref ++ [(k, r')], Some (d ++ [(k, e)]))
                        end
            end
          else Ok (ref ++ [(k, r')], None)) with
  | Ok re => (readable fs n k = true -> (0 < k -> readable fs n 0 = true -> ~ no_eta fs 0) /\ (0 < k -> no_eta fs k -> readable fs n (k - 1) = true)) /\ loaded n (S k) (fst re) (snd re)
  | Exn e => ~ (readable fs n k = true -> (0 < k -> readable fs n 0 = true -> ~ no_eta fs 0) /\ (0 < k -> no_eta fs k -> readable fs n (k - 1) = true))
  end).
    { destruct (Nat.ltb_spec 0 k) as [Hk|Hk].
      - destruct eta as [d|].
        + destruct D as (D1 & D2 & D3). destruct (lookup (k - 1) d) as [e|] eqn:EL.
          * assert (HI : In (k - 1) (keys ref)). { rewrite <- D1. destruct (in_dec Nat.eq_dec (k - 1) (keys d)); auto. apply lookup_none in n0. congruence. }
            cbn [fst snd]. split.
            { intros _. split; auto. intros _ _. rewrite K in HI. apply filter_In in HI. tauto. }
            { assert (Dk : direction fs k = Some e). { destruct k; [lia|]. simpl. rewrite EE. destruct (D3 _ HI) as (v & E1 & E2). replace (S k - 1)%nat with k in * by lia. congruence. }
              destruct (EXT d e D1 D3 Dk) as [X1 X2]. repeat (split; auto). }
          * intros F. destruct (F ERd) as [_ F2]. apply lookup_none in EL. apply EL. rewrite D1, K. apply filter_In. split. apply in_seq. lia. apply F2; auto.
        + intros F. destruct (F ERd) as [F1 _]. apply F1; tauto.
      - assert (k = 0) by lia. subst k. cbn [fst snd]. split. intros _. split; intros; lia.
        repeat (split; auto). }
    destruct eta; exact G.
Qed.
Lemma load_spec n m k ref eta : loaded n k ref eta ->
  match load sample fs n (seq k m) ref eta with
  | Ok re => (forall i, k <= i < k + m -> fillable_at n i) /\ loaded n (k + m) (fst re) (snd re)
  | Exn e => ~ forall i, k <= i < k + m -> fillable_at n i
  end.
Proof using sample_good.
  revert k ref eta. induction m as [|m IH]; intros k ref eta H; cbn [seq load].
  - split. intros; lia. rewrite Nat.add_0_r. auto.
  - pose proof (load_one_spec n k ref eta H) as S1. destruct (load_one sample fs n k ref eta) as [re|e]; cbn [bind].
    + destruct S1 as [S1 S2]. specialize (IH (S k) _ _ S2). destruct (load _ _ _ _ _ _) as [re'|e'].
      * destruct IH as [I1 I2]. split. intros i Hi. destruct (Nat.eq_dec i k) as [->|]; auto. apply I1. lia.
        replace (k + S m)%nat with (S k + m)%nat by lia. auto.
      * intros F. apply IH. intros i Hi. apply F. lia.
    + intros F. apply S1. apply F. lia.
Qed.
Lemma fillable_iff n : fillable fs n <-> forall i, i < n -> fillable_at n i.
Proof.
  unfold fillable, fillable_at. split.
  - intros [H1 H2] i Hi R. split. intros Hp R0 NE. rewrite (H1 i) in R; auto. discriminate.
    intros Hp NE. destruct i; [lia|]. simpl. rewrite Nat.sub_0_r. apply (H2 i); auto.
  - intros H. split.
    + intros j R0 NE Hj. destruct (readable fs n j) eqn:E; auto. destruct (H j) as [H1 _]; auto. lia. exfalso. apply H1; auto. lia.
    + intros i Hi R NE. destruct (H (S i) Hi R) as [_ H2]. specialize (H2 ltac:(lia) NE). simpl in H2. rewrite Nat.sub_0_r in H2. auto.
Qed.
Lemma load_all n :
  match load sample fs n (seq 0 n) [] (Some []) with
  | Ok re => fillable fs n /\ loaded n n (fst re) (snd re)
  | Exn _ => ~ fillable fs n
  end.
Proof using sample_good.
  assert (H0 : loaded n 0 [] (Some [])). { split; auto. split. intros i r []. split; auto. split. lia. intros i []. }
  pose proof (load_spec n n 0 _ _ H0) as H. destruct (load _ _ _ _ _ _) as [re|e]; rewrite fillable_iff.
  - destruct H as [H1 H2]. split; auto. intros i Hi. apply H1. lia.
  - intros F. apply H. intros i Hi. apply F. lia.
Qed.

(** * the whole function *)
Lemma read_spec d : read_data sample fs = Ok d ->
  exists n ref eta X Y L, ids fs n /\ fillable fs n /\ loaded n n ref eta /\ population fs X Y L /\
  length X = length L /\ length Y = length L /\ ref <> [] /\ inliers L <> [] /\
  let lab := map (fun p => (nth p L 0 - 1)%Z) (inliers L) in
  ((fits (groups lab) (map snd ref) /\ d = mkRD ref (at_rows (inliers L) X) (at_rows (inliers L) Y) (groups lab) (drop_nan eta)) \/
   (~ fits (groups lab) (map snd ref) /\ same_width (map snd ref) /\ 0 < size (map snd ref) /\
     exists k, (if (size (map snd ref) <? length (inliers L))%nat then k = 1%nat else k = length (inliers L)) /\
     d = mkRD [(0%nat, concat (map snd ref))] (firstn k (at_rows (inliers L) X)) (firstn k (at_rows (inliers L) Y)) [seq 0 k] None)).
Proof using sample_good.
  unfold read_data, n_cluster. destruct (f_comp fs) as [[|row t]|] eqn:EC; cbn [need bind]; try discriminate.
  set (n := length (unique row)). pose proof (load_all n) as HL. destruct (load sample fs n (seq 0 n) [] (Some [])) as [[ref eta]|e]; cbn [bind]; [|discriminate].
  cbn [fst snd] in HL. destruct HL as [HF HL].
  destruct (f_x fs) as [X|] eqn:EX; cbn [need bind]; [|discriminate].
  destruct (f_y fs) as [Y|] eqn:EY; cbn [need bind]; [|discriminate].
  destruct (f_lab fs) as [lb|] eqn:EL; cbn [need bind]; [|discriminate].
  set (L := concat lb). cbv zeta.
  destruct (mask _ X) as [x|] eqn:MX; cbn [bind]; [|discriminate]. destruct (mask_inliers [] L X x MX) as [LX ->].
  destruct (mask _ Y) as [y|] eqn:MY; cbn [bind]; [|discriminate]. destruct (mask_inliers [] L Y y MY) as [LY ->].
  destruct (mask _ (map _ L)) as [lab'|] eqn:ML; cbn [bind]; [|discriminate]. destruct (mask_inliers 0%Z L _ lab' ML) as [_ EL'].
  assert (EL2 : lab' = map (fun p => (nth p L 0 - 1)%Z) (inliers L)).
  { rewrite EL'. apply map_ext_in. intros p Hp. unfold inliers in Hp. apply filter_In in Hp. destruct Hp as [Hp _]. apply in_seq in Hp. apply (nth_map_default (fun z => (z - 1)%Z)). lia. }
  clear EL'. subst lab'. set (lab := map (fun p => (nth p L 0 - 1)%Z) (inliers L)).
  destruct (min_count _) as [mn|] eqn:EMn; cbn [bind]; [|discriminate].
  destruct (max_count _) as [mx|] eqn:EMx; cbn [bind]; [|discriminate].
  assert (HR : ref <> []). { intros ->. discriminate. }
  assert (HI : inliers L <> []). { intros E. unfold lab in EMx. rewrite E in EMx. discriminate. }
  intros H. exists n, ref, eta, X, Y, L. split. exists row, t. auto. split; auto. split; auto. split. split; auto. split; auto. exists lb. auto.
  split; auto. split; auto. split; auto. split; auto. cbv zeta. fold lab. fold (at_rows (inliers L) X) in H. fold (at_rows (inliers L) Y) in H.
  assert (Hf : fits (groups lab) (map snd ref) <-> (length ref <? length (unique lab))%nat || (mn <? mx)%nat = false).
  { unfold fits. assert (EG : length (groups lab) = length (unique lab)) by (unfold groups; apply map_length). rewrite EG, map_length, orb_false_iff, Nat.ltb_ge, Nat.ltb_ge.
    pose proof (min_count_spec _ _ EMn) as [_ Mn]. pose proof (max_count_spec _ _ EMx) as [_ Mx]. pose proof (min_count_in _ _ EMn) as In1. pose proof (max_count_in _ _ EMx) as In2.
    rewrite <- groups_sizes in *. split; intros [A B]; split; auto.
    - apply in_map_iff in In1. destruct In1 as ([i c] & <- & Hc). apply in_map_iff in In2. destruct In2 as (g & <- & Hg). cbn [snd]. apply B; auto. apply in_map_iff. exists (i, c). auto.
    - intros g c Hg Hc. apply in_map_iff in Hc. destruct Hc as ([i c'] & <- & Hc). specialize (Mn (length c')). specialize (Mx (length g)).
      assert (length g <= mx) by (apply Mx; apply in_map; auto). assert (mn <= length c'). { apply Mn. apply in_map_iff. exists (i, c'). auto. } cbn [snd]. lia. }
  destruct ((length ref <? length (unique lab))%nat || (mn <? mx)%nat) eqn:EB.
  - right. split. intros C. apply Hf in C. discriminate. destruct (vstack (map snd ref)) as [all|] eqn:EV; cbn [bind] in H; [|discriminate].
    destruct (vstack_spec _ _ EV) as (-> & HNE & HW). split; auto. split. unfold size. destruct (concat (map snd ref)) eqn:?; [congruence|simpl; lia].
    assert (LR : length (at_rows (inliers L) Y) = length (inliers L)) by (unfold at_rows; apply map_length).
    assert (LRx : length (at_rows (inliers L) X) = length (inliers L)) by (unfold at_rows; apply map_length).
    assert (0 < length (inliers L)) by (destruct (inliers L); [congruence|simpl; lia]).
    rewrite LR in H. fold (size (map snd ref)) in H. destruct (size (map snd ref) <? length (inliers L))%nat.
    + exists 1. split; auto. injection H as <-. f_equal. rewrite <- groups_zero by lia. f_equal. destruct (length (inliers L)); [lia|]. auto.
    + exists (length (inliers L)). split; auto. injection H as <-. rewrite !firstn_all2 by lia. f_equal. apply groups_zero. auto.
  - left. split. apply Hf; auto. injection H as <-. auto.
Qed.
(** when it succeeds *)
Lemma read_total n X Y L : ids fs n -> fillable fs n -> population fs X Y L -> length X = length L -> length Y = length L -> inliers L <> [] ->
  (exists i, i < n /\ readable fs n i = true) -> has_rows fs ->
  (forall i j t u a b, ref_table fs n i = Some t -> ref_table fs n j = Some u -> In a t -> In b u -> length a = length b) ->
  exists d, read_data sample fs = Ok d.
Proof using sample_good.
  intros (row & t & EC & En) HF (EX & EY & lb & EL & EqL) LX LY HI (i0 & Hi0 & R0) HRows HW.
  unfold read_data, n_cluster. rewrite EC. cbn [need bind]. rewrite <- En. pose proof (load_all n) as HL.
  destruct (load sample fs n (seq 0 n) [] (Some [])) as [[ref eta]|e]; [|contradiction]. cbn [bind fst snd] in *. destruct HL as [_ HL].
  rewrite EX, EY, EL. cbn [need bind]. rewrite <- EqL. cbv zeta.
  set (m := map (fun z => negb (z =? -2)%Z && negb (z =? -1)%Z) (map (fun z => (z - 1)%Z) L)). assert (Lm : length m = length L) by (unfold m; rewrite !map_length; auto).
  destruct (mask_total m X) as (x & MX). congruence. rewrite MX. cbn [bind].
  destruct (mask_total m Y) as (y & MY). congruence. rewrite MY. cbn [bind].
  destruct (mask_total m (map (fun z => (z - 1)%Z) L)) as (lab & ML). rewrite map_length; auto. rewrite ML. cbn [bind].
  destruct (mask_inliers 0%Z L _ lab ML) as [_ El].
  destruct HL as (K & C & _).
  assert (HIn : In i0 (keys ref)). { rewrite K. apply filter_In. split; auto. apply in_seq. lia. }
  destruct ref as [|[k0 r0] ref]; [destruct HIn|]. cbn [map min_count bind snd].
  assert (HU : unique lab <> []). { intros E. apply unique_nil in E. rewrite E in El. symmetry in El. apply map_eq_nil in El. auto. }
  destruct (unique lab) as [|u us]; [congruence|]. cbn [map max_count bind].
  assert (HC : forall c, In c (r0 :: map snd ref) -> c <> [] /\ exists i t, ref_table fs n i = Some t /\ incl c t).
  { intros c Hc. assert (Hc' : exists i, In (i, c) ((k0, r0) :: ref)). { destruct Hc as [<-|Hc]. exists k0. simpl; auto. apply in_map_iff in Hc. destruct Hc as ([i c'] & <- & Hc). exists i. simpl. auto. }
    destruct Hc' as (i & Hc'). destruct (C i c Hc') as (tb & E1 & E2). unfold thinned in E2. destruct (3000 <=? length tb) eqn:E3.
    - destruct E2 as (E2 & ix & _ & _ & E5 & E6). split. destruct c; [discriminate|discriminate]. exists i, tb. split; auto. rewrite E6. intros q Hq. unfold at_rows in Hq. apply in_map_iff in Hq. destruct Hq as (j & <- & Hj). apply nth_In. auto.
    - subst c. split. unfold ref_table in E1. apply HRows in E1. auto. exists i, tb. split; auto. apply incl_refl. }
  destruct (_ || _); [|eexists; reflexivity]. rewrite vstack_total; cbn [bind].
  destruct (_ <? _); eexists; reflexivity.
  destruct (HC r0) as [H _]. simpl; auto. destruct r0; [congruence|discriminate].
  intros a b Ha Hb. apply in_concat in Ha. destruct Ha as (ca & Hca & Ha). apply in_concat in Hb. destruct Hb as (cb & Hcb & Hb).
    destruct (HC ca Hca) as (_ & i & ta & E1 & I1). destruct (HC cb Hcb) as (_ & j & tb & E2 & I2). exact (HW i j ta tb a b E1 E2 (I1 a Ha) (I2 b Hb)).
Qed.
End Load.
