(** Main lemmas about matching and shifting. *)
From Coq Require Import List Arith Bool Reals Lia Lra Permutation Sorting.Sorted.
From Verif Require Import Num Exn ListAux StateModel StateProof NewtonModel NewtonProof RefModel RefProof RefSpec.
Import ListNotations.
Open Scope nat_scope.

(** ** lists of indices *)
Lemma sorted_lt_bound l : forall h b, StronglySorted lt (h :: l) -> (forall i, In i (h :: l) -> i < b) -> h + length l < b.
Proof.
  induction l as [|x l IH]; intros h b Hs Hb. simpl. rewrite Nat.add_0_r. apply Hb. simpl; auto.
  inversion Hs as [|? ? Hs' Hf]; subst. inversion Hf; subst. assert (Hx : x + length l < b) by (apply IH; auto; intros; apply Hb; simpl; auto). simpl. lia.
Qed.
Lemma sorted_full l : forall a, StronglySorted lt l -> (forall i, In i l -> a <= i < a + length l) -> l = seq a (length l).
Proof.
  induction l as [|h l IH]; intros a Hs Hb; simpl; auto.
  assert (h = a). { pose proof (sorted_lt_bound l h (a + length (h :: l)) Hs) as H. simpl in H. assert (h + length l < a + S (length l)) by (apply H; intros i Hi; apply Hb; auto).
    specialize (Hb h ltac:(simpl; auto)). lia. }
  subst h. f_equal. inversion Hs as [|? ? Hs' Hf]; subst. apply IH; auto. intros i Hi. rewrite Forall_forall in Hf. specialize (Hf i Hi). specialize (Hb i ltac:(simpl; auto)). simpl in Hb. lia.
Qed.
Lemma nodup_full l n : NoDup l -> length l = n -> (forall i, In i l -> i < n) -> Permutation l (seq 0 n).
Proof.
  intros Hnd Hl Hb. apply NoDup_Permutation_bis; auto. rewrite seq_length; lia. intros i Hi. apply in_seq. specialize (Hb i Hi). lia.
Qed.
Lemma NoDup_map_in {A B} (f : A -> B) l : (forall a b, In a l -> In b l -> f a = f b -> a = b) -> NoDup l -> NoDup (map f l).
Proof.
  induction l as [|a l IH]; simpl; intros H Hnd; constructor.
  - apply NoDup_cons_iff in Hnd as [Hn _]. intros Hc. apply in_map_iff in Hc as (b & E & Hb). apply H in E; auto. subst; auto.
  - apply NoDup_cons_iff in Hnd as [_ Hn]. apply IH; auto.
Qed.
Lemma covers_parts ix N : covers ix N -> (forall v, NoDup (nth v ix [])) /\
  (forall v v' a, In a (nth v ix []) -> In a (nth v' ix []) -> v = v') /\ (forall v i, In i (nth v ix []) -> i < N) /\
  (forall i, i < N -> exists v, v < length ix /\ In i (nth v ix [])).
Proof.
  intros H. assert (Hnd : NoDup (concat ix)) by (apply (Permutation_NoDup (Permutation_sym H)), seq_NoDup).
  assert (Hb : forall i, In i (concat ix) <-> i < N). { intros i. split; intros Hi. apply (Permutation_in _ H) in Hi. apply in_seq in Hi. lia. apply (Permutation_in _ (Permutation_sym H)). apply in_seq. lia. }
  clear H. assert (K : forall ix : list (list nat), NoDup (concat ix) -> (forall v, NoDup (nth v ix [])) /\ (forall v v' a, In a (nth v ix []) -> In a (nth v' ix []) -> v = v')).
  { clear. induction ix as [|l ix IH]; simpl; intros Hnd. split. intros [|v]; constructor. intros [|v] v' a [].
    apply NoDup_app_iff in Hnd as (H1 & H2 & H3). destruct (IH H2) as [I1 I2]. split. intros [|v]; auto.
    assert (Hc : forall v a, In a (nth v ix []) -> In a (concat ix)). { intros v a Ha. apply in_concat. destruct (Nat.lt_ge_cases v (length ix)). exists (nth v ix []). split; auto. apply nth_In; auto. rewrite nth_overflow in Ha by auto. destruct Ha. }
    intros [|v] [|v'] a Ha Ha'; auto. exfalso. apply (H3 a); eauto. exfalso. apply (H3 a); eauto. f_equal. eauto. }
  destruct (K ix Hnd) as [K1 K2]. split; auto. split; auto. split.
  - intros v i Hi. apply Hb. apply in_concat. destruct (Nat.lt_ge_cases v (length ix)). exists (nth v ix []). split; auto. apply nth_In; auto. rewrite nth_overflow in Hi by auto. destruct Hi.
  - intros i Hi. apply Hb in Hi. apply in_concat in Hi as (l & Hl & Hi). apply (In_nth _ _ []) in Hl as (v & Hv & <-). eauto.
Qed.
Lemma covers_length ix N : covers ix N -> fold_right Nat.add 0 (map (@length _) ix) = N.
Proof.
  intros H. apply Permutation_length in H. rewrite seq_length in H. rewrite <- H. clear. induction ix; simpl; auto. rewrite app_length. auto.
Qed.

(** ** the assignment of rows *)
Lemma take_rows_nth {A} (l : list A) ix r i : take_rows l ix = Ok r -> i < length ix -> nth_error r i = nth_error l (nth i ix 0).
Proof.
  intros H Hi. apply take_rows_ok in H. pose proof (f_equal (fun x => nth_error x i) H) as E. cbv beta in E.
  rewrite (map_nth_error _ i ix (nth_error_nth' ix 0 Hi)) in E.
  destruct (nth_error r i) as [x|] eqn:Er. rewrite (map_nth_error _ _ _ Er) in E. congruence.
  apply nth_error_None in Er. apply (f_equal (@length _)) in H. rewrite !map_length in H. lia.
Qed.
Lemma take_rows_perm {A} (l : list A) ix r : take_rows l ix = Ok r -> Permutation ix (seq 0 (length l)) -> Permutation r l.
Proof.
  intros H Hp. apply take_rows_ok in H.
  assert (Hm : Permutation (map Some r) (map (@Some A) l)).
  { rewrite <- H. apply perm_trans with (map (nth_error l) (seq 0 (length l))). apply Permutation_map; auto.
    assert (E : map (nth_error l) (seq 0 (length l)) = map Some l).
    { clear. induction l as [|a l IH]; auto. cbn [length seq map nth_error]. f_equal. rewrite <- seq_shift, map_map. exact IH. }
    rewrite E. apply Permutation_refl. }
  destruct l as [|d l']. { simpl in Hm. apply Permutation_sym, Permutation_nil in Hm. destruct r; [auto|discriminate]. }
  apply (Permutation_map (fun o => match o with Some a => a | None => d end)) in Hm. rewrite !map_map, !map_id in Hm. auto.
Qed.
Lemma perm_take_rows {A} (l r : list A) : Permutation l r -> exists ix, Permutation ix (seq 0 (length l)) /\ take_rows l ix = Ok r.
Proof.
  intros H. destruct l as [|d l']. { apply Permutation_nil in H. subst. exists []. split; auto. }
  pose proof (Permutation_length H) as HL. set (l := d :: l') in *.
  apply (Permutation_nth l r d) in H as (_ & f & Hb & Hi & Hn).
  exists (map f (seq 0 (length l))). split.
  - apply nodup_full. apply NoDup_map_in; [|apply seq_NoDup]. intros a b Ha Hb' E. apply in_seq in Ha, Hb'. apply Hi; auto; lia.
    rewrite map_length, seq_length; auto. intros i Hin. apply in_map_iff in Hin as (a & <- & Ha). apply in_seq in Ha. apply Hb. lia.
  - apply take_rows_ok. rewrite map_map. apply (list_eq_nth None). rewrite !map_length, seq_length. auto. intros i Hlt. rewrite map_length, seq_length in Hlt.
    rewrite (nth_map_default _ _ _ 0) by (rewrite seq_length; auto). rewrite seq_nth by auto. simpl. rewrite (nth_map_default _ _ _ d) by lia.
    rewrite Hn by auto. apply nth_error_nth'. apply Hb. auto.
Qed.

Section Match.
Variables (lsa : list (list R) -> res (list nat * list nat)) (hausdorff : list (list R) -> list (list R) -> res R)
  (kmedoids : list (list R) -> nat -> res (list nat)).
Hypothesis Hlsa : lsa_ok lsa.
Hypothesis Hkm : kmedoids_ok kmedoids.

Lemma cdist_rect Y X r : In r (cdist Y X) -> length r = length X.
Proof using. unfold cdist. intros H. apply in_map_iff in H as (y & <- & _). apply map_length. Qed.
Lemma lsa_square X Y a : length X = length Y -> lsa (cdist Y X) = Ok a -> fst a = seq 0 (length Y) /\ Permutation (snd a) (seq 0 (length Y)) /\
  forall a', assignment (length Y) (length Y) a' -> (total (cdist Y X) a <= total (cdist Y X) a')%R.
Proof using Hlsa.
  intros HL E. destruct (Hlsa (cdist Y X) (length X) a (cdist_rect Y X) E) as [(H1 & H2 & H3 & H4 & H5 & H6) Hbest].
  unfold cdist in H1, H2, H4, Hbest. rewrite map_length in *. rewrite HL, Nat.min_id in *. split; [|split].
  - rewrite <- H1. apply sorted_full; auto. intros i Hi. apply H4 in Hi. lia.
  - apply nodup_full; auto.
  - intros a' Ha'. apply Hbest. auto.
Qed.
Lemma lsa_len X Y a : length X = length Y -> lsa (cdist Y X) = Ok a -> length (snd a) = length Y.
Proof using Hlsa. intros HL E. destruct (lsa_square X Y a HL E) as (_ & H & _). apply Permutation_length in H. rewrite seq_length in H. auto. Qed.
Lemma total_sum X Y ix M : length X = length Y -> length ix = length Y -> take_rows X ix = Ok M ->
  total (cdist Y X) (seq 0 (length Y), ix) = sum_dist Y M.
Proof using.
  intros HL HI E. unfold total, sum_dist. cbn [fst snd]. f_equal. apply (list_eq_nth 0%R).
  - rewrite map_length, combine_length, seq_length, zip_with_length. lia. apply take_rows_length in E. lia.
  - intros i Hi. rewrite map_length, combine_length, seq_length in Hi. rewrite (nth_map_default _ _ _ (0, 0)) by (rewrite combine_length, seq_length; auto).
    rewrite combine_nth by (rewrite seq_length; auto). cbn [fst snd]. rewrite seq_nth by lia. cbn [plus].
    apply take_rows_length in E as LM. rewrite (zip_with_nth _ _ _ _ [] []) by lia.
    unfold cdist. rewrite (nth_map_default _ _ _ []) by lia.
    assert (Hx : nth i ix 0 < length X). { apply (take_rows_nth X ix M i) in E; [|lia]. apply nth_error_Some. rewrite <- E. apply nth_error_Some. lia. }
    rewrite (nth_map_default _ _ _ []) by lia. f_equal. apply (take_rows_nth X ix M i) in E; [|lia].
    rewrite (nth_error_nth' X [] Hx) in E. symmetry. apply nth_error_nth. auto.
Qed.
Lemma match_rows_spec X Y M : length X = length Y -> match_rows lsa X Y = Ok M ->
  Permutation M X /\ forall P, Permutation P X -> (sum_dist Y M <= sum_dist Y P)%R.
Proof using Hlsa.
  intros HL. unfold match_rows. destruct (lsa (cdist Y X)) as [a|] eqn:E; [|discriminate]. cbn [bind]. intros HM.
  destruct (lsa_square X Y a HL E) as (H1 & H2 & H3). split.
  - apply (take_rows_perm _ _ _ HM). rewrite HL. auto.
  - intros P HP. destruct (perm_take_rows X P (Permutation_sym HP)) as (ix & Hix & EP). rewrite HL in Hix.
    rewrite <- (total_sum X Y (snd a) M HL), <- (total_sum X Y ix P HL); auto.
    + rewrite <- H1. destruct a as [r c]. cbn [fst snd] in *. rewrite H1 at 2. apply H3.
      split; cbn [fst snd]. rewrite seq_length, Nat.min_id; auto. split. rewrite (Permutation_length Hix), seq_length, Nat.min_id; auto.
      split. apply StronglySorted_seq. split. intros i Hi. apply in_seq in Hi. lia. split. apply (Permutation_NoDup (Permutation_sym Hix)), seq_NoDup.
      intros i Hi. apply (Permutation_in _ Hix) in Hi. apply in_seq in Hi. lia.
    + rewrite (Permutation_length Hix), seq_length. auto.
    + rewrite (Permutation_length H2), seq_length. auto.
Qed.

(** ** partitions *)
Lemma argmin_from_lt l : forall b k i, k < i -> argmin_from b k i l < i + length l.
Proof using. induction l as [|a l IH]; intros b k i H; simpl. lia. destruct (rltb a b). specialize (IH a i (S i)). lia. specialize (IH b k (S i)). lia. Qed.
Lemma argminR_lt l : l <> [] -> argminR l < length l.
Proof using. destruct l as [|a l]; [congruence|]. intros _. unfold argminR. simpl. apply argmin_from_lt. lia. Qed.
Lemma label_cells labels n N : length labels = N -> (forall l, In l labels -> l < n) ->
  covers (map (fun i => filter (fun j => nth j labels n =? i) (seq 0 N)) (seq 0 n)) N.
Proof using.
  intros HL Hb. unfold covers. apply NoDup_Permutation.
  - assert (K : forall vs, NoDup vs -> NoDup (concat (map (fun i => filter (fun j => nth j labels n =? i) (seq 0 N)) vs))).
    { induction vs as [|v vs IH]; simpl; intros Hv. constructor. apply NoDup_cons_iff in Hv as [Hv Hvs]. apply NoDup_app_iff. split. apply NoDup_filter, seq_NoDup. split; auto.
      intros j Hj Hc. apply filter_In in Hj as [_ Hj]. apply Nat.eqb_eq in Hj. apply in_concat in Hc as (l & Hl & Hc). apply in_map_iff in Hl as (v' & <- & Hv').
      apply filter_In in Hc as [_ Hc]. apply Nat.eqb_eq in Hc. congruence. }
    apply K, seq_NoDup.
  - apply seq_NoDup.
  - intros j. rewrite in_seq. split.
    + intros H. apply in_concat in H as (l & Hl & Hj). apply in_map_iff in Hl as (v & <- & _). apply filter_In in Hj as [Hj _]. apply in_seq in Hj. lia.
    + intros Hj. apply in_concat. exists (filter (fun j0 => nth j0 labels n =? nth j labels n) (seq 0 N)). split.
      apply in_map_iff. exists (nth j labels n). split; auto. apply in_seq. split; [lia|]. simpl. apply Hb, nth_In. lia.
      apply filter_In. rewrite Nat.eqb_refl. split; auto. apply in_seq. lia.
Qed.
Lemma partition_spec s Y ix parts : rs_ref s <> [] -> partition_Y s Y = Ok (ix, parts) ->
  length parts = length ix /\ (forall v, length (nth v parts []) = length (nth v ix [])) /\
  (forall v, take_rows Y (nth v ix []) = Ok (nth v parts [])) /\
  (length (rs_ref s) = 1 \/ rs_Yidx s = None -> covers ix (length Y)) /\
  (length (rs_ref s) <> 1 -> forall u, rs_Yidx s = Some u -> ix = u) /\ (length (rs_ref s) = 1 -> length ix = 1).
Proof using.
  intros Hne. unfold partition_Y. destruct (Nat.eqb_spec (length (rs_ref s)) 1) as [H1|H1].
  - intros E. injection E as <- <-. split; auto. split. { intros [|[|v]]; simpl; auto. rewrite seq_length; auto. }
    split. { intros [|[|v]]; auto. cbn [nth]. apply take_rows_ok. apply (list_eq_nth None). rewrite !map_length, seq_length; auto.
      intros i Hi. rewrite map_length, seq_length in Hi. rewrite (nth_map_default _ _ _ 0) by (rewrite seq_length; auto). rewrite seq_nth by auto. simpl.
      rewrite (nth_map_default _ _ _ []) by auto. apply nth_error_nth'. auto. }
    split. { intros _. unfold covers. simpl. rewrite app_nil_r. apply Permutation_refl. } split; [congruence|]. auto.
  - intros E. destruct (match rs_Yidx s with Some ix => Ok ix | None => _ end) as [ix'|] eqn:EI; [|discriminate]. cbn [bind] in E.
    destruct (mapM (take_rows Y) ix') as [parts'|] eqn:EP; [|discriminate]. cbn [bind] in E. injection E as <- <-.
    pose proof (mapM_length _ _ _ EP) as HL.
    assert (Htk : forall v, take_rows Y (nth v ix' []) = Ok (nth v parts' [])).
    { intros v. destruct (Nat.lt_ge_cases v (length ix')) as [Hv|Hv]. apply (mapM_nth _ _ _ v _ _ EP). apply nth_error_nth'; auto. apply nth_error_nth'. lia.
      rewrite !nth_overflow by lia. reflexivity. }
    split; auto. split. { intros v. apply take_rows_length with (l := Y). auto. } split; auto. split.
    { intros [?|HN]; [congruence|]. rewrite HN in EI. destruct (mapM (label (rs_ref s)) Y) as [labels|] eqn:EL; [|discriminate]. cbn [bind] in EI. injection EI as <-.
      apply label_cells. apply (mapM_length _ _ _ EL). intros l Hl. apply (In_nth _ _ 0) in Hl as (j & Hj & <-).
      rewrite (mapM_length _ _ _ EL) in Hj. pose proof (mapM_nth _ _ _ j _ (nth j labels 0) EL (nth_error_nth' Y [] Hj)) as Hlab.
      rewrite (nth_error_nth' labels 0) in Hlab by (rewrite (mapM_length _ _ _ EL); auto). specialize (Hlab eq_refl). unfold label in Hlab.
      destruct (mapM _ (rs_ref s)) as [d|] eqn:Ed in Hlab; [|discriminate]. cbn [bind] in Hlab. injection Hlab as <-. rewrite <- (mapM_length _ _ _ Ed).
      apply argminR_lt. intros ->. apply mapM_length in Ed. destruct (rs_ref s); [congruence|discriminate]. }
    split. { intros _ u Hu. rewrite Hu in EI. congruence. } congruence.
Qed.

Lemma components_spec ref parts vs : ref <> [] -> match_components lsa hausdorff ref parts = Ok vs ->
  length parts <= length ref /\ Permutation vs (seq 0 (length parts)) /\
  ((length ref = 1 /\ length parts = 1 /\ vs = [0]) \/ exists cost rows, length cost = length ref /\ (forall i r, nth_error cost i = Some r -> exists c, nth_error ref i = Some c /\ mapM (hausdorff c) parts = Ok r) /\
     lsa cost = Ok (rows, vs) /\ best_assignment cost (length parts) (rows, vs)).
Proof using Hlsa.
  intros Hne. unfold match_components. destruct (Nat.ltb_spec (length ref) (length parts)) as [|Hge]; [discriminate|].
  destruct ((length ref =? 1) && (length parts =? 1)) eqn:E1.
  - apply andb_true_iff in E1 as [A B]. apply Nat.eqb_eq in A, B. intros E. injection E as <-. split; auto. rewrite B. split; auto.
  - destruct (mapM (fun r => mapM (hausdorff r) parts) ref) as [cost|] eqn:EC; [|discriminate]. cbn [bind].
    destruct (lsa cost) as [[rows cols]|] eqn:EA; [|discriminate]. cbn [bind snd]. intros E. injection E as ->.
    pose proof (mapM_length _ _ _ EC) as LC.
    assert (Hrow : forall i r, nth_error cost i = Some r -> exists c, nth_error ref i = Some c /\ mapM (hausdorff c) parts = Ok r).
    { intros i r Hr. destruct (nth_error ref i) as [c|] eqn:Ec. exists c. split; auto. apply (mapM_nth _ _ _ i c r EC Ec Hr).
      apply nth_error_None in Ec. rewrite <- LC in Ec. apply nth_error_None in Ec. congruence. }
    assert (Hb : best_assignment cost (length parts) (rows, vs)).
    { apply Hlsa; auto. intros r Hr. apply In_nth_error in Hr as (i & Hi). destruct (Hrow i r Hi) as (c & _ & Hc). apply mapM_length in Hc. auto. }
    split; auto. split. { destruct Hb as [(_ & H2 & _ & _ & H5 & H6) _]. cbn [snd] in *. apply nodup_full; auto. rewrite H2, LC. lia. }
    right. exists cost, rows. auto.
Qed.

(** ** matching *)
Lemma match_spec n_obj s Y s' : wf s -> (rs_rematch s = true \/ rs_matched s = None) ->
  match_Y lsa hausdorff kmedoids n_obj s Y = Ok s' ->
  exists ix parts vs out mi, partition_Y s Y = Ok (ix, parts) /\ match_components lsa hausdorff (rs_ref s) parts = Ok vs /\
    rs_Yidx s' = Some ix /\ rs_ref s' = rs_ref s /\ rs_eta s' = rs_eta s /\ rs_matched s' = Some (out, mi) /\ wf s' /\ rs_rematch s' = rs_rematch s /\
  (covers ix (length Y) ->
   length out = length Y /\ consistent s' /\
   forall k, k < length vs -> let v := nth k vs 0 in exists comp X M,
     nth_error (rs_ref s) k = Some comp /\ medoids_for kmedoids (nth k (rs_medoids s) None) comp (length (nth v ix [])) = Ok X /\
     nth k (rs_medoids s') None = Some M /\ length M = length (nth v ix []) /\
     map (nth_error out) (nth v ix []) = map Some M /\
     map (nth_error mi) (nth v ix []) = map (fun i => Some (Some (k, i))) (seq 0 (length M)) /\
     Permutation M X /\ forall P, Permutation P X -> (sum_dist (nth v parts []) M <= sum_dist (nth v parts []) P)%R).
Proof using Hlsa Hkm.
  intros [Hwf Hne] Hre E. unfold match_Y in E.
  assert (E' : (do ixp <- partition_Y s Y;
    let (ix, parts) := ixp in
    let N := fold_right Nat.add 0 (map (@length _) parts) in
    do vs <- match_components lsa hausdorff (rs_ref s) parts;
    do r <- match_loop lsa kmedoids (rs_ref s) ix parts 0 vs (repeat (repeat 0%R n_obj) N) (repeat None N) (rs_medoids s);
    let '(out, mi, med) := r in
    Ok (mkRS (rs_ref s) (rs_eta s) (Some ix) (rs_rematch s) med (Some (out, mi)))) = Ok s').
  { destruct (rs_rematch s); auto. destruct (rs_matched s); auto. destruct Hre; discriminate. }
  clear E. rename E' into E. destruct (partition_Y s Y) as [[ix parts]|] eqn:EP; [|discriminate]. cbn [bind] in E.
  destruct (match_components lsa hausdorff (rs_ref s) parts) as [vs|] eqn:EV; [|discriminate]. cbn [bind] in E. cbv zeta in E.
  set (N := fold_right Nat.add 0 (map (@length _) parts)) in *.
  destruct (match_loop _ _ _ _ _ _ _ _ _ _) as [[[out mi] med]|] eqn:EL in E; [|discriminate]. cbn [bind] in E. injection E as <-.
  cbn [rs_ref rs_eta rs_Yidx rs_rematch rs_medoids rs_matched].
  destruct (partition_spec s Y ix parts Hne EP) as (P1 & P2 & P3 & P4 & _).
  destruct (components_spec _ _ _ Hne EV) as (Q1 & Q2 & _).
  assert (Lvs : length vs = length parts) by (rewrite (Permutation_length Q2), seq_length; auto).
  assert (Hvs : NoDup vs) by (apply (Permutation_NoDup (Permutation_sym Q2)), seq_NoDup).
  exists ix, parts, vs, out, mi. split; auto. split; auto. split; auto. split; auto. split; auto. split; auto.
  assert (Lmed : length med = length (rs_medoids s)).
  { clear -EL. revert EL. generalize (repeat (repeat 0%R n_obj) N), (repeat (@None (nat * nat)) N), (rs_medoids s), 0. induction vs as [|v vs IH]; intros o m md k EL; cbn [match_loop] in EL. congruence.
    repeat match type of EL with (bind ?x _) = _ => destruct x; cbn [bind] in EL; [|discriminate] | (if ?b then _ else _) = _ => destruct b; [discriminate|] end.
    apply IH in EL. rewrite EL. apply set_row_length. }
  split. { split; auto. cbn. congruence. } split; auto.
  intros Hc. destruct (covers_parts ix (length Y) Hc) as (C1 & C2 & C3 & C4).
  assert (HN : N = length Y). { rewrite <- (covers_length ix (length Y) Hc). unfold N. f_equal. apply (list_eq_nth 0). rewrite !map_length; auto. intros i Hi. rewrite map_length in Hi. rewrite !(nth_map_default _ _ _ []) by lia. auto. }
  destruct (loop_spec lsa kmedoids (rs_ref s) ix parts C1 C2 P2 lsa_len (fun c k r H => proj1 (Hkm c k r H)) vs 0 _ _ _ out mi med Hvs EL ltac:(rewrite Hwf; lia)) as (L1 & L2 & L3 & L4 & L5 & L6).
  rewrite repeat_length in L1, L2. split; [congruence|].
  assert (Hpos : forall k, k < length Y -> exists q i, q < length vs /\ i < length (nth (nth q vs 0) ix []) /\ k = nth i (nth (nth q vs 0) ix []) 0).
  { intros k Hk. destruct (C4 k Hk) as (v & Hv & Hin). apply (In_nth _ _ 0) in Hin as (i & Hi & Ei).
    assert (Hvin : In v vs) by (apply (Permutation_in _ (Permutation_sym Q2)), in_seq; lia). apply (In_nth _ _ 0) in Hvin as (q & Hq & Eq). exists q, i. rewrite Eq. auto. }
  split.
  - exists out, mi. cbn. split; auto. split; [congruence|]. split.
    + intros k Hk. rewrite L1, HN in Hk. destruct (Hpos k Hk) as (q & i & Hq & Hi & ->). destruct (L4 q Hq) as (comp & X & M & _ & _ & _ & _ & _ & HM & LM & Hrow). cbv zeta in *.
      destruct (Hrow i Hi) as (R1 & R2 & _). exists q, i, M. simpl in R2, HM. split; auto. split. { rewrite (nth_error_nth' med None). f_equal; auto. rewrite L3, Hwf. lia. }
      split; [lia|]. symmetry. auto.
    + intros k k' p Hk Hk'.
      assert (B1 : k < length Y) by (rewrite <- HN, <- L2; apply nth_error_Some; congruence). assert (B2 : k' < length Y) by (rewrite <- HN, <- L2; apply nth_error_Some; congruence).
      destruct (Hpos k B1) as (q & i & Hq & Hi & ->). destruct (Hpos k' B2) as (q' & i' & Hq' & Hi' & ->).
      destruct (L4 q Hq) as (c1 & X1 & M1 & _ & _ & _ & _ & _ & _ & _ & Hrow). destruct (L4 q' Hq') as (c2 & X2 & M2 & _ & _ & _ & _ & _ & _ & _ & Hrow'). cbv zeta in *.
      destruct (Hrow i Hi) as (_ & R2 & _). destruct (Hrow' i' Hi') as (_ & R2' & _). simpl in R2, R2'. rewrite Hk in R2. rewrite Hk' in R2'. congruence.
  - intros k Hk. destruct (L4 k Hk) as (comp & X & M & A1 & A2 & A3 & A4 & A5 & A6 & A7 & A8). cbv zeta in *. simpl in *. exists comp, X, M.
    split; auto. split; auto. split; auto. split; auto.
    split. { apply (list_eq_nth None). rewrite !map_length; auto. intros i Hi. rewrite map_length in Hi. rewrite (nth_map_default _ _ _ 0) by auto. destruct (A8 i Hi) as (-> & _). rewrite (nth_map_default _ _ _ []) by lia. apply nth_error_nth'. lia. }
    split. { apply (list_eq_nth None). rewrite !map_length, seq_length; auto. intros i Hi. rewrite map_length in Hi. rewrite (nth_map_default _ _ _ 0) by auto. destruct (A8 i Hi) as (_ & -> & _).
      rewrite (nth_map_default _ _ _ 0) by (rewrite seq_length; lia). rewrite seq_nth by lia. auto. }
    apply match_rows_spec; auto. apply medoids_for_length with (k := length (nth (nth k vs 0) ix [])) in A4. rewrite P2. auto. intros c k0 r H. apply (Hkm c k0 r H).
Qed.
End Match.
