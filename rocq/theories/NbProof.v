(** Proofs about NbModel. *)
From Coq Require Import List Arith Bool Reals Lra Lia Permutation Sorted.
From Verif Require Import Num Exn ListAux HVSpec NewtonModel NewtonProof RefModel MoeaModel NbModel.
Import ListNotations.
Open Scope R_scope.

Lemma put_len {A} (x : A) l i : length (put x l i) = length l.
Proof. unfold put. rewrite map_length, combine_length, seq_length. lia. Qed.
Lemma put_nth {A} (x d : A) l i j : (j < length l)%nat -> nth j (put x l i) d = if (j =? i)%nat then x else nth j l d.
Proof.
  intros Hj. unfold put. rewrite (nth_indep _ d ((fun q : nat * A => if (fst q =? i)%nat then x else snd q) (0%nat, d))) by (rewrite map_length, combine_length, seq_length; lia).
  rewrite (map_nth (fun q : nat * A => if (fst q =? i)%nat then x else snd q)). rewrite combine_nth by apply seq_length. cbn [fst snd]. rewrite seq_nth by auto. reflexivity.
Qed.
Lemma put_all_len {A} (x : A) I l : length (put_all x I l) = length l.
Proof. revert l. induction I as [|i I IH]; intros l; cbn; auto. unfold put_all in *. cbn. rewrite IH. apply put_len. Qed.
Lemma put_all_nth {A} (x d : A) I l j : (j < length l)%nat -> nth j (put_all x I l) d = if in_dec Nat.eq_dec j I then x else nth j l d.
Proof.
  revert l. induction I as [|i I IH]; intros l Hj. reflexivity.
  unfold put_all in *. cbn [fold_left]. rewrite IH by (rewrite put_len; auto). rewrite put_nth by auto.
  destruct (in_dec Nat.eq_dec j I) as [H|H]; destruct (in_dec Nat.eq_dec j (i :: I)) as [H'|H']; auto.
  - destruct H'. right; auto.
  - destruct H' as [->|H']; [rewrite Nat.eqb_refl; auto|contradiction].
  - destruct (Nat.eqb_spec j i) as [->|]; auto. destruct H'. left; auto.
Qed.
Lemma take_rows_ok {A} (l : list A) N d : (forall i, In i N -> (i < length l)%nat) -> take_rows l N = Ok (map (fun i => nth i l d) N).
Proof.
  induction N as [|i N IH]; intros H; cbn; auto. rewrite (nth_error_nth' l d) by (apply H; left; auto). rewrite IH by (intros; apply H; right; auto). reflexivity.
Qed.

Lemma nodup_l {A} (l l' : list A) : NoDup (l ++ l') -> NoDup l.
Proof. induction l as [|a l IH]; cbn; intros H. constructor. inversion H; subst. constructor; auto. intros X. apply H2. apply in_or_app; auto. Qed.

Section Nb.
Variable argsort : list R -> list nat.
Hypothesis HA : argsort_ok argsort.

Lemma ss_app {A} (P : A -> A -> Prop) l1 l2 : StronglySorted P (l1 ++ l2) -> forall a b, In a l1 -> In b l2 -> P a b.
Proof.
  induction l1 as [|x l1 IH]; cbn; intros H a b Ha Hb. contradiction. inversion H as [|? ? H1 H2]; subst. destruct Ha as [->|Ha].
  rewrite Forall_forall in H2. apply H2. apply in_or_app; auto. apply IH; auto.
Qed.
Lemma neighbors_len n W : length (neighbors argsort n W) = length W.
Proof. unfold neighbors, cdist. rewrite !map_length. auto. Qed.
Lemma neighbors_nth n W k : (k < length W)%nat -> nth k (neighbors argsort n W) [] = firstn n (argsort (map (dist2 (nth k W [])) W)).
Proof.
  intros Hk. unfold neighbors, cdist. rewrite map_map.
  rewrite (nth_indep _ [] (firstn n (argsort (map (dist2 []) W)))) by (rewrite map_length; auto). rewrite (map_nth (fun a => firstn n (argsort (map (dist2 a) W)))). reflexivity.
Qed.
Lemma row_perm W k : Permutation (argsort (map (dist2 (nth k W [])) W)) (seq 0 (length W)).
Proof. destruct (HA (map (dist2 (nth k W [])) W)) as [P _]. rewrite map_length in P. exact P. Qed.
Lemma nbhd n W k : (k < length W)%nat -> let N := nth k (neighbors argsort n W) [] in
  length N = Nat.min n (length W) /\ NoDup N /\ (forall i, In i N -> (i < length W)%nat) /\
  forall i j, In i N -> (j < length W)%nat -> ~ In j N -> dist2 (nth k W []) (nth i W []) <= dist2 (nth k W []) (nth j W []).
Proof.
  intros Hk N. unfold N. rewrite neighbors_nth by auto. pose proof (row_perm W k) as P. destruct (HA (map (dist2 (nth k W [])) W)) as [_ S].
  set (a := argsort (map (dist2 (nth k W [])) W)) in *. pose proof (Permutation_length P) as PL. rewrite seq_length in PL.
  assert (ND : NoDup a) by (eapply Permutation_NoDup; [symmetry; exact P|apply seq_NoDup]).
  assert (B : forall i, In i a -> (i < length W)%nat) by (intros i Hi; apply (Permutation_in _ P) in Hi; apply in_seq in Hi; lia).
  rewrite <- (firstn_skipn n a) in ND, S.
  assert (Sub : forall i, In i (firstn n a) -> In i a) by (intros i Hi; rewrite <- (firstn_skipn n a); apply in_or_app; auto).
  split. rewrite firstn_length. lia. split. apply (nodup_l _ _ ND).
  split. intros i Hi. auto.
  intros i j Hi Hj Hn. assert (Ha : In j a) by (apply (Permutation_in _ (Permutation_sym P)); apply in_seq; lia).
  rewrite <- (firstn_skipn n a) in Ha. apply in_app_or in Ha as [Ha|Ha]; [contradiction|].
  pose proof (ss_app _ _ _ S i j Hi Ha) as L. cbn beta in L.
  assert (E : forall x, (x < length W)%nat -> nth x (map (dist2 (nth k W [])) W) 0 = dist2 (nth k W []) (nth x W [])).
  { intros x Hx. rewrite (nth_indep _ 0 (dist2 (nth k W []) [])) by (rewrite map_length; auto). apply map_nth. }
  rewrite !E in L; auto.
Qed.
End Nb.

Lemma sum_nonneg (p q : list R) : 0 <= fold_right Rplus 0 (zip_with (fun a b => (a - b) * (a - b)) p q).
Proof. revert q. induction p as [|a p IH]; intros [|b q]; cbn; try lra. pose proof (IH q). pose proof (Rle_0_sqr (a - b)) as S; unfold Rsqr in S; lra. Qed.
Lemma dist_zero p q : length p = length q -> dist2 p q <= 0 -> p = q.
Proof.
  unfold dist2. intros L H. assert (E : fold_right Rplus 0 (zip_with (fun a b => (a - b) * (a - b)) p q) = 0).
  { apply sqrt_eq_0. apply sum_nonneg. pose proof (sqrt_pos (fold_right Rplus 0 (zip_with (fun a b => (a - b) * (a - b)) p q))). lra. }
  clear H. revert q L E. induction p as [|a p IH]; intros [|b q] L E; cbn in L; try discriminate; auto.
  cbn in E. pose proof (sum_nonneg p q). pose proof (Rle_0_sqr (a - b)) as S. assert (S0 : Rsqr (a - b) = 0) by (unfold Rsqr in *; lra). apply Rsqr_0_uniq in S0. assert (a = b) by lra. subst b. f_equal. apply IH. lia. unfold Rsqr in *; lra.
Qed.
Lemma dist_self p : dist2 p p = 0.
Proof.
  unfold dist2. replace (fold_right Rplus 0 (zip_with (fun a b => (a - b) * (a - b)) p p)) with 0. apply sqrt_0.
  induction p as [|a p IH]; cbn; auto. rewrite <- IH. ring.
Qed.
