(** Proofs about the Newton step control, duplicate removal and main loops. *)
From Coq Require Import List Arith Bool Reals ZArith Lia Lra Sorting.Sorted Permutation.
From Verif Require Import Num Exn ListAux NDSModel NewtonModel.
Import ListNotations.
Open Scope R_scope.

Lemma rleb_true a b : rleb a b = true <-> a <= b.
Proof. unfold rleb. destruct (Rle_dec a b); split; intros; auto; try discriminate. Qed.
Lemma rleb_false a b : rleb a b = false <-> b < a.
Proof. unfold rleb. destruct (Rle_dec a b); split; intros; auto; try discriminate; lra. Qed.
Lemma rltb_true a b : rltb a b = true <-> a < b.
Proof. unfold rltb. destruct (Rlt_dec a b); split; intros; auto; try discriminate. Qed.
Lemma rltb_false a b : rltb a b = false <-> b <= a.
Proof. unfold rltb. destruct (Rlt_dec a b); split; intros; auto; try discriminate; lra. Qed.
Lemma reqb_true a b : reqb a b = true <-> a = b.
Proof. unfold reqb. destruct (Req_EM_T a b); split; intros; auto; try discriminate. Qed.
Lemma reqb_false a b : reqb a b = false <-> a <> b.
Proof. unfold reqb. destruct (Req_EM_T a b); split; intros; auto; try discriminate; contradiction. Qed.

(** * Halving line search *)
Definition trial (s : R) (k : nat) : R := s * (/ 2) ^ k.
Lemma backtrack_spec n c1 phi phi0 : forall s, exists k, (k <= n)%nat /\
  fst (backtrack n c1 phi phi0 s) = trial s k /\
  snd (backtrack n c1 phi phi0 s) = map (trial s) (seq 0 (Nat.min n (S k))) /\
  (forall j, (j < k)%nat -> armijo c1 phi0 (trial s j) (phi (trial s j)) = false) /\
  ((k < n)%nat -> armijo c1 phi0 (trial s k) (phi (trial s k)) = true).
Proof.
  assert (T0 : forall s, trial s 0 = s) by (intros; unfold trial; simpl; lra).
  assert (TS : forall s k, trial (s * / 2) k = trial s (S k)) by (intros; unfold trial; simpl; lra).
  induction n as [|n IH]; intros s; simpl.
  - exists 0%nat. split; [lia|]. rewrite T0. split; auto. split; auto. split; intros; lia.
  - destruct (armijo c1 phi0 s (phi s)) eqn:E.
    + exists 0%nat. rewrite T0. split; [lia|]. split; [auto|]. split; [|split; auto; intros; lia]. change (Nat.min (S n) 1) with (S (Nat.min n 0)). rewrite Nat.min_0_r. cbn [seq map snd]. auto.
    + destruct (IH (s * / 2)) as (k & Hk & H1 & H2 & H3 & H4). exists (S k). split; [lia|]. cbn [fst snd].
      rewrite H1, H2, TS. split; auto. split.
      { change (Nat.min (S n) (S (S k))) with (S (Nat.min n (S k))). cbn [seq map]. rewrite T0. f_equal. rewrite <- seq_shift, map_map.
        apply map_ext. intros j. apply TS. }
      split. { intros [|j] Hj. rewrite T0. auto. specialize (H3 j ltac:(lia)). rewrite TS in H3. auto. }
      intros Hn. specialize (H4 ltac:(lia)). rewrite TS in H4. auto.
Qed.

(** * Cubic interpolation line search *)
Lemma next_step_bounds s2 s1 p2 p1 : 0 <= s1 -> 4 / 10 * s1 <= next_step s2 s1 p2 p1 <= 6 / 10 * s1.
Proof.
  intros H. unfold next_step. assert (Hle : 4 / 10 * s1 <= 6 / 10 * s1) by lra.
  destruct (cubic s2 s1 p2 p1) as [r| | |]; simpl.
  - unfold Rmin, Rmax. destruct (Rle_dec r (4 / 10 * s1)), (Rle_dec _ _); lra.
  - lra.
  - unfold Rmin. destruct (Rle_dec _ _); lra.
  - lra.
Qed.
Lemma cubic_search_spec n c1 phi phi0 : forall s2 p2 s1, 0 <= s1 ->
  exists k, (k <= n)%nat /\
  let r := cubic_search n c1 phi phi0 s2 p2 s1 in
  (4 / 10) ^ k * s1 <= fst r <= (6 / 10) ^ k * s1 /\
  length (snd r) = Nat.min n (S k) /\
  (forall j, (S j < length (snd r))%nat -> 4 / 10 * nth j (snd r) 0 <= nth (S j) (snd r) 0 <= 6 / 10 * nth j (snd r) 0) /\
  (forall j, (j < k)%nat -> armijo c1 phi0 (nth j (snd r) 0) (phi (nth j (snd r) 0)) = false) /\
  ((0 < n)%nat -> nth 0 (snd r) 0 = s1) /\
  ((k < n)%nat -> nth k (snd r) 0 = fst r /\ armijo c1 phi0 (fst r) (phi (fst r)) = true).
Proof.
  induction n as [|n IH]; intros s2 p2 s1 Hs; cbn [cubic_search].
  - exists 0%nat. split; [lia|]. simpl. split; [lra|]. repeat split; intros; try lia.
  - destruct (armijo c1 phi0 s1 (phi s1)) eqn:E.
    + exists 0%nat. split; [lia|]. simpl. rewrite Nat.min_0_r. split; [lra|]. repeat split; intros; try lia; auto.
    + pose proof (next_step_bounds s2 s1 p2 (phi s1) Hs) as Hn. set (t := next_step s2 s1 p2 (phi s1)) in *.
      destruct (IH s1 (phi s1) t ltac:(lra)) as (k & Hk & H1 & H2 & H3 & H4 & H5 & H6). cbv zeta in *.
      set (r := cubic_search n c1 phi phi0 s1 (phi s1) t) in *. exists (S k). split; [lia|]. cbn [fst snd].
      assert (P4 : 0 < (4 / 10) ^ k) by (apply pow_lt; lra). assert (P6 : 0 < (6 / 10) ^ k) by (apply pow_lt; lra).
      split. { simpl. split. apply Rle_trans with ((4 / 10) ^ k * t); [|lra]. nra. apply Rle_trans with ((6 / 10) ^ k * t); [lra|]. nra. }
      split. { simpl. rewrite H2. lia. }
      split. { intros [|j] Hj; simpl in *. rewrite H5 by lia. auto. apply H3. lia. }
      split. { intros [|j] Hj; simpl. auto. apply H4. lia. }
      split. { intros _. reflexivity. }
      intros Hkn. simpl. apply H6. lia.
Qed.

(** * Lists *)
Lemma zip_with_length {A B C} (f : A -> B -> C) l l' : length l = length l' -> length (zip_with f l l') = length l.
Proof. revert l'. induction l; intros [|b l']; simpl; intros; auto; try lia. Qed.
Lemma zip_with_nth {A B C} (f : A -> B -> C) l l' k da db dc : (k < length l)%nat -> (k < length l')%nat ->
  nth k (zip_with f l l') dc = f (nth k l da) (nth k l' db).
Proof. revert l' k. induction l as [|a l IH]; intros [|b l'] [|k]; simpl; intros; auto; try lia. apply IH; lia. Qed.
Lemma concat_length_u {A} (X : list (list A)) d : (forall r, In r X -> length r = d) -> length (concat X) = (length X * d)%nat.
Proof. induction X as [|x X IH]; simpl; intros H; auto. rewrite app_length, IH, H by auto. auto. Qed.
Lemma nth_concat_u {A} (X : list (list A)) d i j da : (forall r, In r X -> length r = d) -> (i < length X)%nat -> (j < d)%nat ->
  nth (i * d + j) (concat X) da = nth j (nth i X []) da.
Proof.
  revert i. induction X as [|x X IH]; intros i H Hi Hj; simpl in Hi; [lia|]. simpl concat. destruct i as [|i].
  - simpl. apply app_nth1. rewrite H by (simpl; auto). auto.
  - rewrite app_nth2; rewrite H by (simpl; auto); [|simpl; lia]. replace (S i * d + j - d)%nat with (i * d + j)%nat by (simpl; lia).
    simpl nth. apply IH; auto. intros; apply H; simpl; auto. lia.
Qed.
Lemma fold_left_Rmin l : forall a, fold_left Rmin l a <= a /\ (forall x, In x l -> fold_left Rmin l a <= x) /\ In (fold_left Rmin l a) (a :: l).
Proof.
  induction l as [|b l IH]; intros a; simpl. repeat split; auto. lra. intros x [].
  destruct (IH (Rmin a b)) as (H1 & H2 & H3). pose proof (Rmin_l a b). pose proof (Rmin_r a b). split; [lra|]. split.
  intros x [<-|Hx]; auto. lra. destruct H3 as [H3|H3]; auto. rewrite <- H3. unfold Rmin. destruct (Rle_dec a b); auto.
Qed.
Lemma list_minR_spec l m : list_minR l = Ok m -> (forall x, In x l -> m <= x) /\ In m l.
Proof.
  destruct l as [|a l]; simpl; intros H; [discriminate|]. injection H as <-. destruct (fold_left_Rmin l a) as (H1 & H2 & H3).
  split; auto. intros x [<-|Hx]; auto.
Qed.

(** * HVN._compute_max_step_size *)
Section MaxStep.
Variables (xl xu : list R) (X step : list (list R)).
Hypothesis Hxu : length xu = length xl.
Hypothesis HX : forall r, In r X -> length r = length xl.
Hypothesis Hs : forall r, In r step -> length r = length xl.
Hypothesis HN : length step = length X.
Let d := length xl.
Let n := length X.
Let x := concat X.
Let dist := zip_with (fun a b => Rabs (a - b)) x (concat (repeat xl n)) ++ zip_with (fun a b => Rabs (a - b)) (concat (repeat xu n)) x.
Let v := concat step ++ map Ropp (concat step).
Let sel := filter (fun dv => rltb (snd dv) 0) (combine dist v).

Let Lrep (l : list R) : length l = d -> length (concat (repeat l n)) = (n * d)%nat.
Proof using. intros H. rewrite (concat_length_u _ d). rewrite repeat_length. auto. intros r Hr. apply repeat_spec in Hr. subst r. auto. Qed.
Let Lx : length x = (n * d)%nat. Proof using HX. unfold x. apply concat_length_u. auto. Qed.
Let Ls : length (concat step) = (n * d)%nat.
Proof using Hs HN. rewrite (concat_length_u _ d). unfold n. congruence. auto. Qed.
Let Nrep (l : list R) i j : length l = d -> (i < n)%nat -> (j < d)%nat -> nth (i * d + j) (concat (repeat l n)) 0 = nth j l 0.
Proof using.
  intros H Hi Hj. rewrite nth_concat_u; auto. rewrite (nth_indep _ _ l) by (rewrite repeat_length; auto). rewrite nth_repeat. auto.
  intros r Hr. apply repeat_spec in Hr. subst r. auto. rewrite repeat_length. auto.
Qed.
Let idx i j : (i < n)%nat -> (j < d)%nat -> (i * d + j < n * d)%nat. Proof using. intros. nia. Qed.

Lemma sel_lower i j : (i < n)%nat -> (j < d)%nat -> nth j (nth i step []) 0 < 0 ->
  In (Rabs (nth j (nth i X []) 0 - nth j xl 0), nth j (nth i step []) 0) sel.
Proof using Hxu HX Hs HN.
  intros Hi Hj Hneg. unfold sel. apply filter_In. split; [|apply rltb_true; auto].
  assert (L1 : length (zip_with (fun a b => Rabs (a - b)) x (concat (repeat xl n))) = (n * d)%nat) by (rewrite zip_with_length; rewrite ?Lrep; auto; congruence).
  assert (L2 : length (zip_with (fun a b => Rabs (a - b)) (concat (repeat xu n)) x) = (n * d)%nat) by (rewrite zip_with_length; rewrite ?Lrep by auto; congruence).
  assert (Ld : length dist = length v). { unfold dist, v. rewrite !app_length, map_length, L1, L2, Ls. auto. }
  pose proof (idx i j Hi Hj). replace (_, _) with (nth (i * d + j) (combine dist v) (0, 0)).
  apply nth_In. rewrite combine_length, <- Ld, Nat.min_id. unfold dist. rewrite app_length, L1. lia.
  rewrite combine_nth by auto. unfold dist, v. rewrite !app_nth1 by (rewrite ?L1, ?Ls; auto).
  rewrite (zip_with_nth _ _ _ _ 0 0) by (rewrite ?Lx, ?Lrep; auto). f_equal.
  - rewrite Nrep by auto. unfold x. rewrite nth_concat_u; auto.
  - rewrite nth_concat_u; auto. rewrite HN. auto.
Qed.
Lemma sel_upper i j : (i < n)%nat -> (j < d)%nat -> 0 < nth j (nth i step []) 0 ->
  In (Rabs (nth j xu 0 - nth j (nth i X []) 0), - nth j (nth i step []) 0) sel.
Proof using Hxu HX Hs HN.
  intros Hi Hj Hneg. unfold sel. apply filter_In. split; [|apply rltb_true; simpl; lra].
  assert (L1 : length (zip_with (fun a b => Rabs (a - b)) x (concat (repeat xl n))) = (n * d)%nat) by (rewrite zip_with_length; rewrite ?Lrep; auto; congruence).
  assert (L2 : length (zip_with (fun a b => Rabs (a - b)) (concat (repeat xu n)) x) = (n * d)%nat) by (rewrite zip_with_length; rewrite ?Lrep by auto; congruence).
  assert (Ld : length dist = length v). { unfold dist, v. rewrite !app_length, map_length, L1, L2, Ls. auto. }
  pose proof (idx i j Hi Hj). replace (_, _) with (nth (n * d + (i * d + j)) (combine dist v) (0, 0)).
  apply nth_In. rewrite combine_length, <- Ld, Nat.min_id. unfold dist. rewrite app_length, L1, L2. lia.
  rewrite combine_nth by auto. unfold dist, v. rewrite !app_nth2 by (rewrite ?L1, ?Ls; lia). rewrite L1, Ls.
  replace (n * d + (i * d + j) - n * d)%nat with (i * d + j)%nat by lia.
  rewrite (zip_with_nth _ _ _ _ 0 0) by (rewrite ?Lx, ?Lrep; auto). f_equal.
  - rewrite Nrep by auto. unfold x. rewrite nth_concat_u; auto.
  - rewrite <- Ropp_0 at 1. rewrite map_nth. f_equal. rewrite nth_concat_u; auto. rewrite HN. auto.
Qed.
Lemma sel_nil : sel = [] <-> forall i j, (i < n)%nat -> (j < d)%nat -> nth j (nth i step []) 0 = 0.
Proof using Hxu HX Hs HN.
  split.
  - intros E i j Hi Hj. destruct (Rtotal_order (nth j (nth i step []) 0) 0) as [H|[H|H]]; auto; exfalso.
    apply (sel_lower i j) in H; auto. rewrite E in H. destruct H. apply (sel_upper i j) in H; auto. rewrite E in H. destruct H.
  - intros H. assert (Hz : forall t, In t (concat step) -> t = 0).
    { intros t Ht. apply in_concat in Ht as (r & Hr & Ht). apply (In_nth _ _ []) in Hr as Hr'. destruct Hr' as (i & Hi & <-).
      apply (In_nth _ _ 0) in Ht as (j & Hj & <-). apply H. unfold n. rewrite <- HN. auto. unfold d. rewrite <- (Hs (nth i step [])); auto. }
    unfold sel. destruct (filter _ _) as [|[a b] l] eqn:E; auto. exfalso.
    assert (Hin : In (a, b) (filter (fun dv => rltb (snd dv) 0) (combine dist v))) by (rewrite E; simpl; auto).
    apply filter_In in Hin as [Hin Hlt]. apply rltb_true in Hlt. simpl in Hlt. apply in_combine_r in Hin. unfold v in Hin.
    apply in_app_iff in Hin as [Hin|Hin]. apply Hz in Hin. lra. apply in_map_iff in Hin as (t & <- & Ht). apply Hz in Ht. lra.
Qed.

Lemma max_step_value m : max_step_size true xl xu X step = Ok m ->
  m <= 1 /\ (forall dv, In dv sel -> m <= / 4 * (fst dv / Rabs (snd dv))) /\
  (m = 1 \/ exists dv, In dv sel /\ m = / 4 * (fst dv / Rabs (snd dv))).
Proof using.
  unfold max_step_size. cbn [negb]. fold n x dist v sel. destruct (list_minR _) as [m'|] eqn:E; [|discriminate]. simpl. intros H. injection H as <-.
  apply list_minR_spec in E as [H1 H2]. pose proof (Rmin_l 1 (/ 4 * m')). pose proof (Rmin_r 1 (/ 4 * m')). split; auto. split.
  - intros dv Hdv. specialize (H1 _ (in_map (fun dv => fst dv / Rabs (snd dv)) _ _ Hdv)). simpl in H1. lra.
  - unfold Rmin. destruct (Rle_dec 1 (/ 4 * m')); auto. right. apply in_map_iff in H2 as (dv & <- & Hin). eauto.
Qed.
Lemma max_step_errors : (exists i j, (i < n)%nat /\ (j < d)%nat /\ nth j (nth i step []) 0 <> 0) <-> exists m, max_step_size true xl xu X step = Ok m.
Proof using Hxu HX Hs HN.
  unfold max_step_size. cbn [negb]. fold n x dist v sel. split.
  - intros (i & j & Hi & Hj & Hne). destruct sel as [|dv l] eqn:E. exfalso. apply Hne. apply sel_nil; auto. simpl. eauto.
  - intros (m & Hm). destruct sel as [|[a b] l] eqn:E; [discriminate|]. clear Hm.
    assert (Hin : In (a, b) sel) by (rewrite E; simpl; auto). clear E l. unfold sel in Hin. apply filter_In in Hin as [Hin Hlt].
    apply rltb_true in Hlt. simpl in Hlt. apply in_combine_r in Hin. unfold v in Hin.
    assert (Hz : exists t, In t (concat step) /\ t <> 0).
    { apply in_app_iff in Hin as [Hin|Hin]. exists b. split; auto. lra. apply in_map_iff in Hin as (t & <- & Ht). exists t. split; auto. lra. }
    destruct Hz as (t & Ht & Hne). apply in_concat in Ht as (r & Hr & Ht). apply (In_nth _ _ []) in Hr as Hr'. destruct Hr' as (i & Hi & <-).
    apply (In_nth _ _ 0) in Ht as (j & Hj & <-). exists i, j. repeat split; auto. unfold n. rewrite <- HN. auto. unfold d. rewrite <- (Hs (nth i step [])); auto.
Qed.

Definition in_box_at (strict : bool) (i j : nat) (s : R) : Prop :=
  let p := nth j (nth i X []) 0 + s * nth j (nth i step []) 0 in
  if strict then nth j xl 0 < p < nth j xu 0 else nth j xl 0 <= p <= nth j xu 0.
Lemma max_step_box m i j s : max_step_size true xl xu X step = Ok m -> (i < n)%nat -> (j < d)%nat -> 0 <= s <= m ->
  (in_box_at false i j 0 -> in_box_at false i j s) /\ (in_box_at true i j 0 -> in_box_at true i j s).
Proof using Hxu HX Hs HN.
  intros E Hi Hj Hsm. apply max_step_value in E as (_ & H & _). unfold in_box_at. cbv zeta.
  set (a := nth j (nth i X []) 0) in *. set (t := nth j (nth i step []) 0) in *. set (l := nth j xl 0). set (u := nth j xu 0).
  assert (Hmul : forall D w, 0 < w -> s <= / 4 * (D / w) -> s * w <= / 4 * D).
  { intros D w Hw Hle. replace (/ 4 * D) with (/ 4 * (D / w) * w) by (field; lra). apply Rmult_le_compat_r; lra. }
  assert (Key : l <= a <= u -> (t < 0 -> s * - t <= / 4 * (a - l)) /\ (0 < t -> s * t <= / 4 * (u - a))).
  { intros Hb. split; intros Ht.
    - specialize (H _ (sel_lower i j Hi Hj Ht)). cbn [fst snd] in H. fold a l t in H.
      rewrite (Rabs_right (a - l)) in H by lra. rewrite (Rabs_left t) in H by lra. apply Hmul; lra.
    - specialize (H _ (sel_upper i j Hi Hj Ht)). cbn [fst snd] in H. fold a u t in H.
      rewrite (Rabs_right (u - a)) in H by lra. rewrite Rabs_Ropp, (Rabs_right t) in H by lra. apply Hmul; lra. }
  split; intros Hb.
  - assert (Hb' : l <= a <= u) by lra. destruct (Key Hb') as [K1 K2].
    destruct (Rtotal_order t 0) as [Ht|[Ht|Ht]]; [specialize (K1 Ht)|rewrite Ht in *|specialize (K2 Ht)]; try nra.
  - assert (Hb' : l < a < u) by lra. destruct (Key ltac:(lra)) as [K1 K2].
    destruct (Rtotal_order t 0) as [Ht|[Ht|Ht]]; [specialize (K1 Ht)|rewrite Ht in *|specialize (K2 Ht)]; try nra.
Qed.
Lemma max_step_pos m : (forall i j, (i < n)%nat -> (j < d)%nat -> in_box_at true i j 0) -> max_step_size true xl xu X step = Ok m -> 0 < m.
Proof using Hxu HX Hs HN.
  intros Hb E. apply max_step_value in E as (_ & _ & [->|((D & w) & Hin & ->)]); [lra|]. cbn [fst snd].
  assert (Hw : w < 0). { unfold sel in Hin. apply filter_In in Hin as [_ Hlt]. apply rltb_true in Hlt. auto. }
  assert (HD : 0 < D).
  { unfold sel in Hin. apply filter_In in Hin as [Hin _]. apply in_combine_l in Hin. unfold dist in Hin.
    assert (L1 : length (zip_with (fun a b => Rabs (a - b)) x (concat (repeat xl n))) = (n * d)%nat) by (rewrite zip_with_length; rewrite ?Lrep; auto; congruence).
    assert (L2 : length (zip_with (fun a b => Rabs (a - b)) (concat (repeat xu n)) x) = (n * d)%nat) by (rewrite zip_with_length; rewrite ?Lrep by auto; congruence).
    assert (Hk : forall k, (k < n * d)%nat -> exists i j, k = (i * d + j)%nat /\ (i < n)%nat /\ (j < d)%nat).
    { intros k Hk. exists (k / d)%nat, (k mod d)%nat. assert (d <> 0)%nat by lia. split. rewrite Nat.mul_comm. apply Nat.div_mod; auto.
      split. apply Nat.div_lt_upper_bound; auto. lia. apply Nat.mod_upper_bound; auto. }
    apply in_app_iff in Hin as [Hin|Hin]; apply (In_nth _ _ 0) in Hin as (k & Hlt & <-); [rewrite L1 in Hlt|rewrite L2 in Hlt];
      destruct (Hk k Hlt) as (i & j & -> & Hi & Hj); specialize (Hb i j Hi Hj); unfold in_box_at in Hb; cbv zeta in Hb;
      rewrite (zip_with_nth _ _ _ _ 0 0) by (rewrite ?Lx, ?Lrep; auto); rewrite Nrep by auto; unfold x; rewrite nth_concat_u by auto;
      apply Rabs_pos_lt; lra. }
  apply Rmult_lt_0_compat; [lra|]. apply Rmult_lt_0_compat; auto. apply Rinv_0_lt_compat, Rabs_pos_lt. lra.
Qed.
End MaxStep.
