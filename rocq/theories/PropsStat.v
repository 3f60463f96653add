(** Property theorems: the tables of compute_statistics_ICML.py and runs that raise an exception. *)
From Coq Require Import List Arith Lia Bool Reals Lra Sorted Permutation.
From Verif Require Import ExModel Ex2Model StatModel.
Import ListNotations.
Open Scope R_scope.

Lemma rleb_spec a b : reflect (a <= b) (rleb a b).
Proof. unfold rleb. destruct (Rle_dec a b); constructor; auto. Qed.

(** number of the elements of a list that satisfy a predicate *)
Inductive number {A} (P : A -> Prop) : list A -> nat -> Prop :=
| num_nil : number P [] 0
| num_yes a l n : P a -> number P l n -> number P (a :: l) (S n)
| num_no a l n : ~ P a -> number P l n -> number P (a :: l) n.

Lemma tally_step l : forall w t o, exists w' t' o',
  fold_left (fun c (p : bool * (R * R)) => let '(win, tie, loose) := c in let '(r, (x, y)) := p in
    if r : bool then (if rleb x y then (win, tie, S loose) else (S win, tie, loose)) else (win, S tie, loose)) l (w, t, o) = (w + w', t + t', o + o')%nat /\
  number (fun p => fst p = true /\ snd (snd p) < fst (snd p)) l w' /\ number (fun p => fst p = false) l t' /\
  number (fun p => fst p = true /\ fst (snd p) <= snd (snd p)) l o' /\ (w' + t' + o' = length l)%nat.
Proof.
  induction l as [|[r [x y]] l IH]; intros w t o.
  - exists 0%nat, 0%nat, 0%nat. rewrite !Nat.add_0_r. repeat split; constructor.
  - cbn [fold_left]. destruct r.
    + destruct (rleb_spec x y) as [H|H].
      * destruct (IH w t (S o)) as (w' & t' & o' & E & A & B & C & D). exists w', t', (S o'). rewrite E. split; [f_equal; lia|].
        split; [apply num_no; [intros [_ K]; cbn in K; lra|auto]|]. split; [apply num_no; [discriminate|auto]|]. split; [apply num_yes; [cbn; auto|auto]|]. cbn [length]. lia.
      * destruct (IH (S w) t o) as (w' & t' & o' & E & A & B & C & D). exists (S w'), t', o'. rewrite E. split; [do 2 f_equal; lia|].
        split; [apply num_yes; [cbn; split; [auto|lra]|auto]|]. split; [apply num_no; [discriminate|auto]|]. split; [apply num_no; [intros [_ K]; cbn in K; lra|auto]|]. cbn [length]. lia.
    + destruct (IH w (S t) o) as (w' & t' & o' & E & A & B & C & D). exists w', (S t'), o'. rewrite E. split; [do 2 f_equal; lia|].
      split; [apply num_no; [intros [K _]; discriminate|auto]|]. split; [apply num_yes; [reflexivity|auto]|]. split; [apply num_no; [intros [K _]; discriminate|auto]|]. cbn [length]. lia.
Qed.
Lemma number_fun {A} (P : A -> Prop) l n m : number P l n -> number P l m -> n = m.
Proof. intros H. revert m. induction H; intros m Hm; inversion Hm; subst; try contradiction; auto. Qed.
Lemma number_map {A B} (f : A -> B) (P : B -> Prop) l n : number P (map f l) n <-> number (fun a => P (f a)) l n.
Proof.
  revert n. induction l as [|a l IH]; intros n; cbn [map]; split; intros H; inversion H; subst; try constructor; auto; apply IH; auto.
Qed.

(** * C189 *)
(** a comparison counts every problem once; wins are the rejected problems in which the first median is larger *)
Theorem C189_counts : forall rej rows, length rej = length rows -> exists w t o, tally_gt rej rows = (w, t, o) /\ (w + t + o = length rows)%nat /\
  number (fun p => fst p = true /\ snd (snd p) < fst (snd p)) (combine rej rows) w /\ number (fun p => fst p = false) (combine rej rows) t /\
  number (fun p => fst p = true /\ fst (snd p) <= snd (snd p)) (combine rej rows) o.
Proof.
  intros rej rows L. destruct (tally_step (combine rej rows) 0 0 0) as (w & t & o & E & A & B & C & D). exists w, t, o. split; [exact E|].
  rewrite combine_length, L, Nat.min_id in D. auto.
Qed.
Print Assumptions C189_counts.

Lemma ties_only (rej : list bool) : forall rows rows' t t', length rej = length rows -> length rej = length rows' ->
  number (fun p : bool * (R * R) => fst p = false) (combine rej rows) t -> number (fun p : bool * (R * R) => fst p = false) (combine rej rows') t' -> t = t'.
Proof.
  induction rej as [|r rej IH]; intros [|a rows] [|b rows'] t t' L L' H H'; cbn in *; try discriminate; inversion H; inversion H'; subst; cbn in *; try congruence; auto; f_equal; eapply (IH rows rows'); eauto.
Qed.
(** the comparison with the MOEA alone does not use its tests: the table is the same whatever they say, and the
    ties of the second and of the third comparison are always the same number *)
Theorem C189_third_refuted : (forall mw mw' bh data, (forall e, In e data -> mw (e_x e) (e_y e) = mw' (e_x e) (e_y e) /\ mw (e_x e) (e_z e) = mw' (e_x e) (e_z e)) -> icml mw bh data = icml mw' bh data) /\
  (forall mw bh data, (forall l, length (bh l) = length l) -> snd (fst (snd (fst (icml mw bh data)))) = snd (fst (snd (icml mw bh data)))) /\
  (exists mw bh data, (forall l, length (bh l) = length l) /\ (forall l i p, nth_error l i = Some p -> nth_error (bh l) i = Some (rleb p 0.05)) /\
     number (fun e => mw (e_x e) (e_c e) <= 0.05) data 0 /\ snd (fst (snd (icml mw bh data))) = 0%nat /\ data <> []).
Proof.
  split; [|split].
  - intros mw mw' bh data H. unfold icml.
    rewrite (map_ext_in (fun e => mw (e_x e) (e_y e)) (fun e => mw' (e_x e) (e_y e))) by (intros e He; apply H; auto).
    rewrite (map_ext_in (fun e => mw (e_x e) (e_z e)) (fun e => mw' (e_x e) (e_z e))) by (intros e He; apply H; auto). reflexivity.
  - intros mw bh data Hb. unfold icml. cbn [fst snd]. set (p := map (fun e => mw (e_x e) (e_z e)) data). assert (L : length (bh p) = length data) by (rewrite Hb; unfold p; apply map_length).
    set (r2 := map (fun e => (median (e_x e), median (e_z e))) data). set (r3 := map (fun e => (median (e_x e), median (e_c e))) data).
    assert (L2 : length (bh p) = length r2) by (unfold r2; rewrite map_length; auto). assert (L3 : length (bh p) = length r3) by (unfold r3; rewrite map_length; auto).
    destruct (C189_counts (bh p) r2 L2) as (w & t & o & E & _ & _ & T & _). destruct (C189_counts (bh p) r3 L3) as (w' & t' & o' & E' & _ & _ & T' & _).
    rewrite E, E'. cbn. eapply ties_only; [exact L2|exact L3| |]; eauto.
  - exists (fun _ y => match y with [] => 1 | _ => 0 end), (map (fun p => rleb p 0.05)), [mkEntry [1] [1] [1] []].
    split; [intros l; apply map_length|]. split; [intros l i p E; rewrite nth_error_map, E; reflexivity|].
    split; [apply num_no; [cbn; lra|constructor]|]. split; [|discriminate].
    unfold icml, tally_gt. cbn [map e_x e_y e_z e_c fst snd combine fold_left]. destruct (rleb_spec 0 0.05) as [H|H]; [|exfalso; apply H; lra]. destruct (rleb _ _); reflexivity.
Qed.
Print Assumptions C189_third_refuted.

(** ** runs that raise an exception *)
Lemma insert_perm a l : Permutation (insert a l) (a :: l).
Proof. induction l as [|b l IH]; cbn [insert]; [auto|]. destruct (rleb a b); [auto|]. rewrite IH. apply perm_swap. Qed.
Lemma sort_perm l : Permutation (sort l) l.
Proof. induction l as [|a l IH]; [constructor|]. change (sort (a :: l)) with (insert a (sort l)). rewrite insert_perm, IH. reflexivity. Qed.
Lemma insert_mono : forall s s' a a', Forall2 Rle s s' -> StronglySorted Rle s -> StronglySorted Rle s' -> a <= a' -> Forall2 Rle (insert a s) (insert a' s').
Proof.
  induction s as [|b s IH]; intros s' a a' HF HS HS' Ha; inversion HF as [|? b' ? s1' Hb HF']; subst; cbn [insert]; [constructor; auto|].
  inversion HS; subst. inversion HS'; subst. destruct (rleb_spec a b) as [H|H], (rleb_spec a' b') as [K|K].
  - constructor; auto.
  - (* a <= b, a' > b' *) constructor; [lra|]. clear IH. assert (G : forall s s' c a', Forall2 Rle s s' -> StronglySorted Rle (c :: s) -> c <= a' -> Forall2 Rle (c :: s) (insert a' s')).
    { clear. induction s as [|d s IH]; intros s' c a' HF HS Hc; inversion HF as [|? d' ? t Hd HF']; subst; cbn [insert]; [constructor; auto|].
      inversion HS as [|? ? HS1 HC]; subst. inversion HC; subst. destruct (rleb_spec a' d') as [K|K]; [constructor; auto|]. constructor; [lra|]. apply IH; auto. lra. }
    apply G; auto. lra.
  - (* a > b, a' <= b' *) constructor; [lra|]. assert (G : forall s s' c a', Forall2 Rle s s' -> StronglySorted Rle (c :: s') -> a' <= c -> Forall2 Rle (insert a' s) (c :: s')).
    { clear. induction s as [|d s IH]; intros s' c a' HF HS Hc; inversion HF as [|? d' ? t Hd HF']; subst; cbn [insert]; [constructor; auto|].
      inversion HS as [|? ? HS1 HC]; subst. inversion HC; subst. destruct (rleb_spec a' d) as [K|K]; [constructor; [lra|constructor; auto]|]. constructor; [lra|]. apply IH; auto. lra. }
    apply G; auto. lra.
  - constructor; auto.
Qed.
Lemma insert_sorted a l : StronglySorted Rle l -> StronglySorted Rle (insert a l).
Proof.
  induction l as [|b l IH]; intros H; cbn [insert]; [repeat constructor|]. inversion H as [|? ? H1 H2]; subst. destruct (rleb_spec a b) as [K|K].
  - constructor; auto. constructor; auto. rewrite Forall_forall in *. intros x Hx. specialize (H2 x Hx). lra.
  - constructor; auto. rewrite Forall_forall in *. intros x Hx. apply (Permutation_in _ (insert_perm a l)) in Hx. destruct Hx as [<-|Hx]; [lra|auto].
Qed.
Lemma sort_sorted l : StronglySorted Rle (sort l).
Proof. induction l as [|a l IH]; [constructor|]. apply insert_sorted, IH. Qed.
Lemma sort_mono l l' : Forall2 Rle l l' -> Forall2 Rle (sort l) (sort l').
Proof. induction 1; [constructor|]. apply insert_mono; auto using sort_sorted. Qed.
Lemma Forall2_nth l l' : Forall2 Rle l l' -> forall k, nth k l 0 <= nth k l' 0.
Proof. induction 1; intros [|k]; cbn; auto; lra. Qed.
Lemma Forall2_len (l l' : list R) : Forall2 Rle l l' -> length l = length l'.
Proof. induction 1; cbn; auto. Qed.

(** a run that raises an exception is entered as a perfect one: whatever nonnegative values the failed runs would have
    had, no median and no other order statistic of the table is larger than with those values *)
Theorem C189_failed_refuted : forall runs fill, runs <> [] -> (forall r, 0 <= fst (fill r) /\ 0 <= snd (fill r)) ->
  let true_results := map (fun ir => deltap (match snd ir with Some v => v | None => fill (fst ir) end)) (combine (seq 0 (length runs)) runs) in
  median (results runs) <= median true_results /\ (forall k, nth k (sort (results runs)) 0 <= nth k (sort true_results) 0) /\
  length (results runs) = length true_results.
Proof.
  intros runs fill _ Hf tr.
  assert (F : Forall2 Rle (results runs) tr).
  { unfold tr, results. generalize 0%nat. induction runs as [|r runs IH]; intros s; cbn [length seq combine map]; constructor; auto. cbn [fst snd]. destruct r as [v|]; cbn [run_row]; [lra|].
    unfold deltap. destruct (Hf s) as [A B]. cbn [fst snd]. apply Rmax_lub; [eapply Rle_trans; [exact B|apply Rmax_l]|eapply Rle_trans; [exact A|apply Rmax_r]]. }
  pose proof (Forall2_len _ _ F) as L. pose proof (Forall2_nth _ _ (sort_mono _ _ F)) as N. split; [|split; auto]. unfold median. rewrite L. cbv zeta. destruct (Nat.even _); [|apply N].
  pose proof (N (length tr / 2 - 1)%nat). pose proof (N (length tr / 2)%nat). lra.
Qed.
Print Assumptions C189_failed_refuted.
(** a method all of whose runs fail has median 0, and is not worse than any other *)
Theorem C189_all_failed_refuted : forall n, (1 <= n)%nat -> median (results (repeat None n)) = 0 /\ forall l, l <> [] -> (forall v, In v l -> 0 <= v) -> median (results (repeat None n)) <= median l.
Proof.
  assert (Z : forall n, median (results (repeat None n)) = 0).
  { intros n. assert (S0 : forall v, In v (sort (results (repeat None n))) -> v = 0).
    { intros v Hv. apply (Permutation_in _ (sort_perm _)) in Hv. unfold results in Hv. apply in_map_iff in Hv. destruct Hv as (r & <- & Hr). apply repeat_spec in Hr. subst r. unfold deltap. cbn. apply Rmax_left. lra. }
    assert (N : forall k, nth k (sort (results (repeat None n))) 0 = 0) by (intros k; destruct (nth_in_or_default k (sort (results (repeat None n))) 0) as [H|H]; auto).
    unfold median. cbv zeta. rewrite !N. destruct (Nat.even _); lra. }
  intros n _. split; [apply Z|]. intros l _ Hl. rewrite Z.
  assert (N : forall k, 0 <= nth k (sort l) 0) by (intros k; destruct (nth_in_or_default k (sort l) 0) as [H|H]; [apply Hl, (Permutation_in _ (sort_perm l)), H|lra]).
  unfold median. cbv zeta. pose proof (N (length l / 2 - 1)%nat). pose proof (N (length l / 2)%nat). destruct (Nat.even _); lra.
Qed.
Print Assumptions C189_all_failed_refuted.
Example C189_example : length [true; false] = length [(1, 2); (3, 4)] /\ tally_gt [true; false] [(1, 2); (3, 4)] = (0, 1, 1)%nat /\ (forall r : nat, 0 <= fst ((fun _ => (1, 2)) r) /\ 0 <= snd ((fun _ => (1, 2)) r)) /\
  results [Some (3, 4); None] = [Rmax 4 3; Rmax 0 0].
Proof.
  split; [reflexivity|]. split; [unfold tally_gt; cbn [combine fold_left]; destruct (rleb_spec 1 2); [reflexivity|lra]|]. split; [intros r; cbn; lra|reflexivity].
Qed.
