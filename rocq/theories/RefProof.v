(** Proofs about the reference set. *)
From Coq Require Import List Arith Bool Reals Lia Lra Permutation.
From Verif Require Import Num Exn ListAux StateModel StateProof NewtonModel NewtonProof RefModel.
Import ListNotations.
Open Scope nat_scope.

Lemma nth_res_ok {A} e (l : list A) i a : nth_res e l i = Ok a -> nth_error l i = Some a.
Proof. unfold nth_res. destruct (nth_error l i); congruence. Qed.
Lemma put_row_spec {A} i (x : A) l l' : put_row i x l = Ok l' -> length l' = length l /\
  (forall j, nth_error l' j = if j =? i then Some x else nth_error l j) /\ i < length l.
Proof.
  intros H. apply put_row_inv in H as [Hi ->]. split. apply set_row_length. split; auto. intros j. rewrite set_row_nth.
  replace (i <? length l) with true by (symmetry; apply Nat.ltb_lt; auto). rewrite andb_true_r. auto.
Qed.
Lemma set_rows_spec {A} ix : forall (l rows l' : list A), length rows = length ix -> NoDup ix -> set_rows l ix rows = Ok l' ->
  length l' = length l /\
  (forall i, i < length ix -> nth_error l' (nth i ix 0) = nth_error rows i) /\
  (forall j, ~ In j ix -> nth_error l' j = nth_error l j) /\ (forall i, In i ix -> i < length l).
Proof.
  induction ix as [|a ix IH]; intros l rows l' Hl Hnd E; destruct rows as [|x rows]; try discriminate; simpl in E.
  - injection E as <-. split; auto. split; [simpl; intros; lia|]. split; auto. intros i [].
  - inversion Hnd as [|? ? Hna Hnd']; subst. destruct (put_row a x l) as [l1|] eqn:E1; [|discriminate]. cbn [bind] in E.
    apply put_row_spec in E1 as (L1 & N1 & Ha). destruct (IH l1 rows l' ltac:(simpl in Hl; lia) Hnd' E) as (L2 & N2 & N3 & N4).
    split; [lia|]. split.
    { intros [|i] Hi; simpl in *. rewrite N3 by auto. rewrite N1, Nat.eqb_refl. auto. apply N2. lia. }
    split. { intros j Hj. simpl in Hj. rewrite N3 by tauto. rewrite N1. destruct (Nat.eqb_spec j a); auto. subst. tauto. }
    intros i [->|Hi]; auto. rewrite <- L1. auto.
Qed.
Lemma set_rows_total {A} ix : forall (l rows : list A), (forall i, In i ix -> i < length l) -> exists l', set_rows l ix rows = Ok l'.
Proof.
  induction ix as [|a ix IH]; intros l rows H; destruct rows as [|x rows]; simpl; eauto. unfold put_row.
  replace (a <? length l) with true by (symmetry; apply Nat.ltb_lt, H; simpl; auto). cbn [bind]. apply IH. intros i Hi. rewrite set_row_length. apply H. simpl; auto.
Qed.
Lemma mapM_ok {A B} (f : A -> res B) l bs : mapM f l = Ok bs <-> map f l = map Ok bs.
Proof.
  revert bs. induction l as [|a l IH]; intros bs; simpl. split. intros E; injection E as <-; auto. destruct bs; [auto|discriminate].
  destruct (f a) as [b|e] eqn:E; cbn [bind]. 2:{ split; [discriminate|]. destruct bs; discriminate. }
  destruct (mapM f l) as [bs'|e] eqn:E2; cbn [bind].
  - split. intros H; injection H as <-. simpl. f_equal. apply IH; auto. destruct bs as [|b' bs0]; [discriminate|]. simpl. intros H. injection H as -> H.
    apply IH in H. injection H as ->. auto.
  - split; [discriminate|]. destruct bs as [|b' bs0]; [discriminate|]. simpl. intros H. injection H as -> H. apply IH in H. discriminate.
Qed.
Lemma mapM_length {A B} (f : A -> res B) l bs : mapM f l = Ok bs -> length bs = length l.
Proof. rewrite mapM_ok. intros H. apply (f_equal (@length _)) in H. rewrite !map_length in H. auto. Qed.
Lemma mapM_nth {A B} (f : A -> res B) l bs i a b : mapM f l = Ok bs -> nth_error l i = Some a -> nth_error bs i = Some b -> f a = Ok b.
Proof.
  rewrite mapM_ok. intros H Ha Hb. apply (map_nth_error f) in Ha. apply (map_nth_error (@Ok B)) in Hb. rewrite H in Ha. congruence.
Qed.
Lemma mapM_total {A B} (f : A -> res B) l : (forall a, In a l -> exists b, f a = Ok b) -> exists bs, mapM f l = Ok bs.
Proof.
  induction l as [|a l IH]; simpl; intros H; eauto. destruct (H a) as (b & ->); auto. cbn [bind]. destruct IH as (bs & ->); auto. cbn [bind]. eauto.
Qed.

Lemma nth_error_eq {A} (l l' : list A) c d : nth_error l c = nth_error l' c -> nth c l d = nth c l' d.
Proof.
  intros H. destruct (nth_error l' c) as [a|] eqn:E. rewrite (nth_error_nth l c d H), (nth_error_nth l' c d E). auto.
  apply nth_error_None in H, E. rewrite !nth_overflow; auto.
Qed.

(** ** the loop of [match] *)
Section Loop.
Variables (lsa : list (list R) -> res (list nat * list nat)) (kmedoids : list (list R) -> nat -> res (list nat)).
Variables (ref : list (list (list R))) (ix : list (list nat)) (parts : list (list (list R))).
Hypothesis Hnd : forall v, NoDup (nth v ix []).
Hypothesis Hdisj : forall v v' a, In a (nth v ix []) -> In a (nth v' ix []) -> v = v'.
Hypothesis Hlen : forall v, length (nth v parts []) = length (nth v ix []).
(** the solver returns an index for every row of a square problem *)
Hypothesis Hlsa : forall X Y r, length X = length Y -> lsa (cdist Y X) = Ok r -> length (snd r) = length Y.
Hypothesis Hkm : forall comp k r, kmedoids comp k = Ok r -> length r = k.

Lemma cluster_length comp k X : cluster kmedoids comp k = Ok X -> length X = k.
Proof using Hkm.
  unfold cluster. destruct (Nat.eqb_spec (length comp) k). congruence. destruct (kmedoids comp k) as [r|] eqn:E; [|discriminate]. cbn [bind].
  intros H. apply take_rows_length in H. rewrite H. eapply Hkm; eauto.
Qed.
Lemma medoids_for_length old comp k X : medoids_for kmedoids old comp k = Ok X -> length X = k.
Proof using Hkm.
  unfold medoids_for. destruct old as [M|]. destruct (Nat.eqb_spec (length M) k). congruence. apply cluster_length. apply cluster_length.
Qed.
Lemma match_rows_length X Y M : length X = length Y -> match_rows lsa X Y = Ok M -> length M = length Y.
Proof using Hlsa.
  intros HXY. unfold match_rows. destruct (lsa (cdist Y X)) as [r|] eqn:E; [|discriminate]. cbn [bind]. intros H. apply take_rows_length in H.
  rewrite H. apply (Hlsa X Y r HXY E).
Qed.

Lemma loop_spec vs : forall k out mi med out' mi' med', NoDup vs ->
  match_loop lsa kmedoids ref ix parts k vs out mi med = Ok (out', mi', med') ->
  k + length vs <= length med ->
  length out' = length out /\ length mi' = length mi /\ length med' = length med /\
  (forall q, q < length vs -> let v := nth q vs 0 in exists comp X M,
     nth_error ref (k + q) = Some comp /\ length (nth v ix []) <= length comp /\ v < length parts /\
     medoids_for kmedoids (nth (k + q) med None) comp (length (nth v ix [])) = Ok X /\
     match_rows lsa X (nth v parts []) = Ok M /\ nth (k + q) med' None = Some M /\ length M = length (nth v ix []) /\
     forall i, i < length (nth v ix []) ->
       nth_error out' (nth i (nth v ix []) 0) = nth_error M i /\ nth_error mi' (nth i (nth v ix []) 0) = Some (Some (k + q, i)) /\
       nth i (nth v ix []) 0 < length out) /\
  (forall j, (forall v, In v vs -> ~ In j (nth v ix [])) -> nth_error out' j = nth_error out j /\ nth_error mi' j = nth_error mi j) /\
  (forall c, (c < k \/ k + length vs <= c) -> nth c med' None = nth c med None).
Proof using Hnd Hdisj Hlen Hlsa Hkm.
  induction vs as [|v vs IH]; intros k out mi med out' mi' med' Hvs E Hk; cbn [match_loop] in E.
  - injection E as <- <- <-. repeat split; auto. simpl; intros; lia.
  - destruct (nth_res IndexError parts v) as [Yv|] eqn:EY; [|discriminate]. cbn [bind] in E.
    destruct (nth_res KeyError ref k) as [comp|] eqn:EC; [|discriminate]. cbn [bind] in E.
    destruct (Nat.ltb_spec (length comp) (length Yv)) as [|Hge]; [discriminate|].
    destruct (medoids_for kmedoids (nth k med None) comp (length Yv)) as [X|] eqn:EX; [|discriminate]. cbn [bind] in E.
    destruct (match_rows lsa X Yv) as [M|] eqn:EM; [|discriminate]. cbn [bind] in E.
    destruct (nth_res IndexError ix v) as [iv|] eqn:EI; [|discriminate]. cbn [bind] in E.
    destruct (set_rows out iv M) as [out1|] eqn:E1; [|discriminate]. cbn [bind] in E.
    destruct (set_rows mi iv (map (fun i => Some (k, i)) (seq 0 (length iv)))) as [mi1|] eqn:E2; [|discriminate]. cbn [bind] in E.
    apply nth_res_ok in EY, EC, EI.
    assert (Eiv : nth v ix [] = iv) by (apply nth_error_nth; auto). assert (EYv : nth v parts [] = Yv) by (apply nth_error_nth; auto).
    pose proof (Hlen v) as Hlv. rewrite Eiv, EYv in Hlv. pose proof (Hnd v) as Hndv. rewrite Eiv in Hndv.
    assert (LX : length X = length Yv) by (eapply medoids_for_length; eauto).
    assert (LM : length M = length iv). { rewrite <- Hlv. eapply match_rows_length; eauto. }
    destruct (set_rows_spec iv out M out1 LM Hndv E1) as (A1 & A2 & A3 & A4).
    destruct (set_rows_spec iv mi _ mi1 ltac:(rewrite map_length, seq_length; auto) Hndv E2) as (B1 & B2 & B3 & B4).
    apply NoDup_cons_iff in Hvs as [Hv Hvs'].
    assert (Hk' : S k + length vs <= length (set_row k (Some M) med)) by (rewrite set_row_length; simpl in Hk; lia).
    destruct (IH (S k) out1 mi1 (set_row k (Some M) med) out' mi' med' Hvs' E Hk') as (C1 & C2 & C3 & C4 & C5 & C6).
    assert (Hmk : nth k (set_row k (Some M) med) None = Some M).
    { apply nth_error_nth. rewrite set_row_nth, Nat.eqb_refl. replace (k <? length med) with true by (symmetry; apply Nat.ltb_lt; simpl in Hk; lia). auto. }
    assert (Hmo : forall c, c <> k -> nth c (set_row k (Some M) med) None = nth c med None).
    { intros c Hc. apply nth_error_eq. rewrite set_row_nth. replace (c =? k) with false by (symmetry; apply Nat.eqb_neq; auto). auto. }
    split; [congruence|]. split; [congruence|]. split; [rewrite C3; apply set_row_length|]. split.
    { intros [|q] Hq; cbv zeta; cbn [nth].
      - rewrite Nat.add_0_r, Eiv, EYv. exists comp, X, M. split; auto. split; [lia|]. split. { apply nth_error_Some. congruence. }
        split; [rewrite <- Hlv; auto|]. split; auto. split. { rewrite C6 by (left; lia). auto. } split; auto.
        intros i Hi. assert (Hin : In (nth i iv 0) iv) by (apply nth_In; auto).
        assert (Hno : forall v', In v' vs -> ~ In (nth i iv 0) (nth v' ix [])).
        { intros v' Hv' Hc. assert (v' = v). { apply (Hdisj v' v (nth i iv 0)); auto. rewrite Eiv. auto. } subst v'. auto. }
        destruct (C5 _ Hno) as [D1 D2]. rewrite D1, D2, A2, B2 by auto. split; auto. split. { rewrite (map_nth_error _ i _ (d := i)). auto. rewrite (nth_error_nth' _ 0) by (rewrite seq_length; auto). rewrite seq_nth; auto. }
        auto.
      - simpl in Hq. destruct (C4 q ltac:(lia)) as (comp' & X' & M' & D1 & D2 & D3 & D4 & D5 & D6 & D7 & D8). cbv zeta in *.
        replace (k + S q) with (S k + q) by lia. exists comp', X', M'. split; auto. split; auto. split; auto. split. { rewrite Hmo in D4 by lia. auto. }
        split; auto. split; auto. split; auto. intros i Hi. rewrite A1 in D8. auto. }
    split.
    { intros j Hj. destruct (C5 j) as [D1 D2]. intros v' Hv'. apply Hj. simpl; auto. rewrite D1, D2. split; [apply A3|apply B3]; rewrite <- Eiv; apply Hj; simpl; auto. }
    intros c Hc. simpl in Hc. rewrite C6 by lia. apply Hmo. lia.
Qed.

(** the loop succeeds when the external routines do *)
Hypothesis Tlsa : forall X Y, length X = length Y -> exists r, lsa (cdist Y X) = Ok r /\ forall i, In i (snd r) -> i < length X.
Hypothesis Tkm : forall comp k, k <= length comp -> exists r, kmedoids comp k = Ok r /\ forall i, In i r -> i < length comp.
Hypothesis Hpl : length parts = length ix.
Lemma loop_total vs : forall k out mi med,
  (forall q, q < length vs -> let v := nth q vs 0 in v < length ix /\ exists comp, nth_error ref (k + q) = Some comp /\ length (nth v ix []) <= length comp) ->
  (forall v i, In i (nth v ix []) -> i < length out) -> length mi = length out ->
  exists r, match_loop lsa kmedoids ref ix parts k vs out mi med = Ok r.
Proof using Hnd Hdisj Hlen Hlsa Hkm Tlsa Tkm Hpl.
  induction vs as [|v vs IH]; intros k out mi med Hv Hb Hm; cbn [match_loop]; eauto.
  destruct (Hv 0 ltac:(simpl; lia)) as (Hvi & comp & EC & Hc). cbv zeta in *. cbn [nth] in *. rewrite Nat.add_0_r in EC.
  destruct (nth_error parts v) as [Yv|] eqn:EY. 2:{ apply nth_error_None in EY. lia. }
  destruct (nth_error ix v) as [iv|] eqn:EI. 2:{ apply nth_error_None in EI. lia. }
  unfold nth_res at 1. rewrite EY. cbn [bind]. unfold nth_res at 1. rewrite EC. cbn [bind].
  assert (Eiv : nth v ix [] = iv) by (apply nth_error_nth; auto). assert (EYv : nth v parts [] = Yv) by (apply nth_error_nth; auto).
  pose proof (Hlen v) as Hlv. rewrite Eiv, EYv in Hlv. rewrite Eiv in Hc.
  replace (length comp <? length Yv) with false by (symmetry; apply Nat.ltb_ge; lia).
  assert (HX : exists X, medoids_for kmedoids (nth k med None) comp (length Yv) = Ok X).
  { assert (Hcl : exists X, cluster kmedoids comp (length Yv) = Ok X).
    { unfold cluster. destruct (length comp =? length Yv); eauto. destruct (Tkm comp (length Yv) ltac:(lia)) as (r & -> & Hr). cbn [bind]. apply take_rows_exists. auto. }
    unfold medoids_for. destruct (nth k med None) as [M0|]; auto. destruct (length M0 =? length Yv); eauto. }
  destruct HX as (X & EX). rewrite EX. cbn [bind]. apply medoids_for_length in EX as LX.
  assert (HM : exists M, match_rows lsa X Yv = Ok M). { unfold match_rows. destruct (Tlsa X Yv LX) as (r & -> & Hr). cbn [bind]. apply take_rows_exists. auto. }
  destruct HM as (M & EM). rewrite EM. cbn [bind]. unfold nth_res at 1. rewrite EI. cbn [bind].
  assert (Hbi : forall i, In i iv -> i < length out) by (intros i Hi; apply (Hb v); rewrite Eiv; auto).
  destruct (set_rows_total iv out M Hbi) as (out1 & E1). rewrite E1. cbn [bind].
  destruct (set_rows_total iv mi (map (fun i => Some (k, i)) (seq 0 (length iv)))) as (mi1 & E2). { rewrite Hm. auto. } rewrite E2. cbn [bind].
  assert (LM : length M = length iv). { rewrite <- Hlv. eapply match_rows_length; eauto. }
  pose proof (Hnd v) as Hndv. rewrite Eiv in Hndv.
  destruct (set_rows_spec iv out M out1 LM Hndv E1) as (A1 & _).
  destruct (set_rows_spec iv mi _ mi1 ltac:(rewrite map_length, seq_length; auto) Hndv E2) as (B1 & _).
  apply IH. { intros q Hq. specialize (Hv (S q) ltac:(simpl; lia)). cbn [nth] in Hv. replace (k + S q) with (S k + q) in Hv by lia. auto. }
  intros v' i Hi. rewrite A1. eauto. congruence.
Qed.
End Loop.
