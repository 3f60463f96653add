(** Proofs about the bootstrapping. *)
From Coq Require Import List Arith Bool ZArith Reals Lia Lra Sorting.Sorted.
From Verif Require Import Num Exn ListAux NewtonModel StateModel RefModel RefProof NDSSpec UtilsModel UtilsProof BootModel BootSpec.
Import ListNotations.
Open Scope R_scope.

(** * The times *)
Lemma due_time interval i : interval <> 0%Z -> due interval i = true <-> boot_time interval i.
Proof.
  intros H. unfold due, boot_time. rewrite andb_true_iff, Z.eqb_eq, Nat.ltb_lt, Z.mod_divide by auto. tauto.
Qed.
Lemma boot_time_nat interval i : boot_time interval i <-> (0 < i)%nat /\ exists q, i = (q * Z.abs_nat interval)%nat.
Proof.
  unfold boot_time. split; intros [H K]; split; auto.
  - apply Z.divide_abs_l in K. destruct K as [q K]. exists (Z.to_nat q).
    assert (0 <= q)%Z by (destruct (Z.le_gt_cases 0 q); auto; assert (q * Z.abs interval <= 0)%Z by (apply Z.mul_nonpos_nonneg; lia); lia).
    apply Nat2Z.inj. rewrite Nat2Z.inj_mul, Z2Nat.id, Zabs2Nat.id_abs by auto. auto.
  - destruct K as [q ->]. apply Z.divide_abs_l. exists (Z.of_nat q). rewrite Nat2Z.inj_mul, Zabs2Nat.id_abs. auto.
Qed.
Lemma count_due interval : interval <> 0%Z -> forall n, length (filter (due interval) (seq 0 (S n))) = (n / Z.abs_nat interval)%nat.
Proof.
  intros H. set (d := Z.abs_nat interval). assert (Hd : (0 < d)%nat) by (unfold d; lia). induction n as [|n IH].
  - cbn [seq filter]. replace (due interval 0) with false. rewrite Nat.div_small by lia. auto. unfold due. rewrite Nat.ltb_irrefl, andb_false_r. auto.
  - rewrite seq_S, filter_app, app_length, IH. cbn [filter Nat.add]. destruct (due interval (S n)) eqn:E.
    + apply (proj1 (due_time interval (S n) H)) in E. apply boot_time_nat in E. destruct E as [_ [q E]]. fold d in E. rewrite E, Nat.div_mul by lia. cbn [length].
      destruct q as [|q]; [cbn in E; lia|]. replace n with (q * d + (d - 1))%nat by (cbn in E; lia). rewrite Nat.div_add_l by lia. rewrite (Nat.div_small (d - 1)) by lia. lia.
    + cbn [length]. rewrite Nat.add_0_r. pose proof (Nat.div_mod n d ltac:(lia)) as D. pose proof (Nat.mod_upper_bound n d ltac:(lia)) as B.
      assert (n mod d <> d - 1)%nat. { intros K. assert (due interval (S n) = true); [|congruence]. apply (proj2 (due_time interval (S n) H)). apply boot_time_nat. split; [lia|]. exists (S (n / d)). fold d. nia. }
      apply (Nat.div_unique (S n) d (n / d) (S (n mod d))); lia.
Qed.

(** * Relaxing *)
Lemma Forall2_length {A B} (P : A -> B -> Prop) l m : Forall2 P l m -> length l = length m.
Proof. intros H. induction H; cbn; auto. Qed.
Lemma sum_le y z : Forall2 Rle y z -> fold_right Rplus 0 y <= fold_right Rplus 0 z.
Proof. intros H. induction H; cbn; lra. Qed.
Lemma sum_lt y z : Forall2 Rle y z -> y <> z -> fold_right Rplus 0 y < fold_right Rplus 0 z.
Proof.
  intros H. induction H as [|a b y z Hab H IH]; [congruence|]. intros Hn. cbn. destruct (Req_dec a b) as [->|Hne].
  - assert (y <> z) by congruence. specialize (IH H0). lra.
  - apply sum_le in H. lra.
Qed.
Lemma relax_length y : length (relax y) = length y.
Proof. unfold relax. apply map_length. Qed.
Lemma Forall2_map_both {A} (P : A -> A -> Prop) f g (y z : list A) (Q : A -> A -> Prop) : Forall2 Q y z -> (forall a b, Q a b -> P (f a) (g b)) -> Forall2 P (map f y) (map g z).
Proof. intros H K. induction H; cbn; constructor; auto. Qed.
Lemma mean_le y z : Forall2 Rle y z -> mean y <= mean z.
Proof.
  intros H. pose proof (Forall2_length _ _ _ H) as L. unfold mean. rewrite L. destruct z as [|b z].
  - inversion H; subst. lra.
  - apply Rmult_le_compat_r. apply Rlt_le, Rinv_0_lt_compat, lt_0_INR. cbn; lia. apply sum_le; auto.
Qed.
Lemma relax_mono y z : weakly_better y z -> weakly_better (relax y) (relax z).
Proof. intros H. pose proof (mean_le y z H). unfold relax. apply (Forall2_map_both Rle _ _ y z Rle); auto. intros. lra. Qed.
Lemma relax_strict y z : weakly_better y z -> y <> z -> better (relax y) (relax z).
Proof.
  intros H Hn. assert (mean y < mean z).
  { pose proof (Forall2_length _ _ _ H) as L. unfold mean. rewrite L. destruct z as [|b z].
    - inversion H; subst. congruence.
    - apply Rmult_lt_compat_r. apply Rinv_0_lt_compat, lt_0_INR. cbn; lia. apply sum_lt; auto. }
  unfold relax. apply (Forall2_map_both Rlt _ _ y z Rle); auto. intros. lra.
Qed.
Lemma sum_affine c d y : fold_right Rplus 0 (map (fun a => c * a + d) y) = c * fold_right Rplus 0 y + INR (length y) * d.
Proof. induction y as [|a y IH]; [cbn; lra|]. cbn [map fold_right length]. rewrite IH, S_INR. lra. Qed.
Lemma relax_mean y : y <> [] -> mean (relax y) = mean y.
Proof.
  intros H. unfold mean at 1. rewrite relax_length. unfold relax. rewrite sum_affine. unfold mean.
  assert (0 < INR (length y)) by (apply lt_0_INR; destruct y; cbn; [congruence|lia]). field. lra.
Qed.

(** * The loop *)
Section Loop.
Variable newton : opt -> res opt.
Variable rsg : list (list R) -> nat -> res (list (list R)).
Variable chim : list (list R) -> res (list R).
Variable compute : refset -> list (list R) -> res refset.
Variables (dim N : nat) (interval : Z) (with_rsg : bool).
Notation reboot := (reboot rsg chim compute N with_rsg).
Notation loop := (loop newton rsg chim compute dim N interval with_rsg).

(** [t i] is the optimizer before iteration [i], [r i] the set computed by it *)
Definition step_ok (t : nat -> opt) (r : nat -> list (list R)) (i : nat) : Prop :=
  if due interval i then exists o, reboot (t i) = Ok (r i, o) /\ newton o = Ok (t (S i)) else newton (t i) = Ok (t (S i)).
Lemma loop_inv : forall k i o l o' l', loop k i o l = Ok (o', l') -> exists t r, t i = o /\ t (i + k)%nat = o' /\
  (forall j, (i <= j < i + k)%nat -> step_ok t r j) /\
  l_X l' = l_X l ++ map (fun j => map (firstn dim) (o_X (t j))) (seq i k) /\
  l_Y l' = l_Y l ++ map (fun j => o_Y (t j)) (seq i k) /\
  l_ref l' = l_ref l ++ map r (filter (due interval) (seq i k)).
Proof.
  induction k as [|k IH]; intros i o l o' l' E.
  - injection E as <- <-. exists (fun _ => o), (fun _ => []). rewrite Nat.add_0_r. cbn. rewrite !app_nil_r. repeat split; auto. intros; lia.
  - cbn [BootModel.loop] in E. destruct (interval =? 0)%Z; [discriminate|].
    assert (G : forall t r x, (forall j, (S i <= j < S i + k)%nat -> step_ok t r j) ->
      (forall j, (S i <= j < S i + k)%nat -> step_ok (fun j => if (j =? i)%nat then o else t j) (fun j => if (j =? i)%nat then x else r j) j)).
    { intros t r x H j Hj. specialize (H j Hj). unfold step_ok in *. rewrite (proj2 (Nat.eqb_neq j i)), (proj2 (Nat.eqb_neq (S j) i)) by lia. auto. }
    assert (M : forall B (t : nat -> opt) (f : opt -> B), map (fun j => f (if (j =? i)%nat then o else t j)) (seq (S i) k) = map (fun j => f (t j)) (seq (S i) k)).
    { intros B t f. apply map_ext_in. intros j Hj. apply in_seq in Hj. rewrite (proj2 (Nat.eqb_neq j i)) by lia. auto. }
    destruct (due interval i) eqn:Ed.
    + destruct (reboot o) as [[ref ob]|] eqn:Er; [|discriminate]. cbn [bind fst snd] in E. destruct (newton ob) as [on|] eqn:En; [|discriminate]. cbn [bind] in E.
      apply IH in E. destruct E as (t & r & T0 & T1 & H & HX & HY & HR). cbn [l_X l_Y l_ref] in *.
      exists (fun j => if (j =? i)%nat then o else t j), (fun j => if (j =? i)%nat then ref else r j). rewrite Nat.eqb_refl.
      split; auto. split. { rewrite (proj2 (Nat.eqb_neq (i + S k) i)) by lia. rewrite <- T1. f_equal. lia. }
      split. { intros j Hj. destruct (Nat.eq_dec j i) as [->|Hne]; [|apply G; auto; lia]. unfold step_ok. rewrite Ed, Nat.eqb_refl, (proj2 (Nat.eqb_neq (S i) i)) by lia. exists ob. rewrite T0. auto. }
      cbn [seq map filter]. rewrite Ed, Nat.eqb_refl. cbn [map]. rewrite Nat.eqb_refl.
      split. { rewrite HX, <- app_assoc. cbn [app]. do 2 f_equal. symmetry. apply (M _ t (fun o => map (firstn dim) (o_X o))). }
      split. { rewrite HY, <- app_assoc. cbn [app]. do 2 f_equal. symmetry. apply (M _ t o_Y). }
      rewrite HR, <- app_assoc. cbn [app]. do 2 f_equal. apply map_ext_in. intros j Hj. apply filter_In in Hj. destruct Hj as [Hj _]. apply in_seq in Hj. rewrite (proj2 (Nat.eqb_neq j i)) by lia. auto.
    + destruct (newton o) as [on|] eqn:En; [|discriminate]. cbn [bind] in E.
      apply IH in E. destruct E as (t & r & T0 & T1 & H & HX & HY & HR). cbn [l_X l_Y l_ref] in *.
      exists (fun j => if (j =? i)%nat then o else t j), (fun j => if (j =? i)%nat then [] else r j). rewrite Nat.eqb_refl.
      split; auto. split. { rewrite (proj2 (Nat.eqb_neq (i + S k) i)) by lia. rewrite <- T1. f_equal. lia. }
      split. { intros j Hj. destruct (Nat.eq_dec j i) as [->|Hne]; [|apply G; auto; lia]. unfold step_ok. rewrite Ed, Nat.eqb_refl, (proj2 (Nat.eqb_neq (S i) i)) by lia. rewrite T0. auto. }
      cbn [seq map filter]. rewrite Ed, Nat.eqb_refl.
      split. { rewrite HX, <- app_assoc. cbn [app]. do 2 f_equal. symmetry. apply (M _ t (fun o => map (firstn dim) (o_X o))). }
      split. { rewrite HY, <- app_assoc. cbn [app]. do 2 f_equal. symmetry. apply (M _ t o_Y). }
      rewrite HR. f_equal. apply map_ext_in. intros j Hj. apply filter_In in Hj. destruct Hj as [Hj _]. apply in_seq in Hj. rewrite (proj2 (Nat.eqb_neq j i)) by lia. auto.
Qed.
Lemma reboot_inv o ref o' : reboot o = Ok (ref, o') -> (if with_rsg then rsg (map relax (o_Y o)) N = Ok ref else ref = map relax (o_Y o)) /\
  exists eta rs b, chim ref = Ok eta /\ new_refset [map (fun r => add_vec r (scale 0.05 eta)) ref] [eta] None = Ok rs /\ o_ind o = WithBeta b /\
  o_X o' = o_X o /\ o_Y o' = o_Y o /\ compute rs (o_Y o) = Ok (o_ref o') /\ o_ind o' = WithBeta (b * 0.8).
Proof.
  unfold BootModel.reboot. intros E. destruct (if with_rsg then rsg (map relax (o_Y o)) N else Ok (map relax (o_Y o))) as [rf|] eqn:Er; [|discriminate]. cbn [bind] in E.
  destruct (chim rf) as [eta|] eqn:Ec; [|discriminate]. cbn [bind] in E. destruct (new_refset _ _ _) as [rs|] eqn:En; [|discriminate]. cbn [bind] in E.
  destruct (o_ind o) as [| |b] eqn:Eo; [discriminate| |].
  - destruct (compute rs (o_Y o)); discriminate.
  - destruct (compute rs (o_Y o)) as [rs'|] eqn:Em; [|discriminate]. cbn [bind] in E. injection E as <- <-.
    split. { destruct with_rsg; congruence. } exists eta, rs, b. cbn. rewrite Ec. auto 10.
Qed.
(** discounts *)
Lemma discounts t r : (forall o o', newton o = Ok o' -> o_ind o' = o_ind o) -> forall k i b, o_ind (t i) = WithBeta b -> (forall j, (i <= j < i + k)%nat -> step_ok t r j) ->
  o_ind (t (i + k)%nat) = WithBeta (discounted b (length (filter (due interval) (seq i k)))).
Proof.
  intros Hn. induction k as [|k IH]; intros i b E H.
  - rewrite Nat.add_0_r, E. cbn. unfold discounted. cbn. f_equal. lra.
  - pose proof (H i ltac:(lia)) as Hs. unfold step_ok in Hs. cbn [seq filter]. replace (i + S k)%nat with (S i + k)%nat by lia.
    destruct (due interval i).
    + destruct Hs as (o & Er & Eo). apply reboot_inv in Er. destruct Er as (_ & eta & rs & b' & _ & _ & Eb & _ & _ & _ & Eb'). rewrite E in Eb. injection Eb as <-.
      apply Hn in Eo. rewrite Eb' in Eo. rewrite (IH (S i) (b * 0.8) Eo). 2:{ intros; apply H; lia. } f_equal. unfold discounted. cbn. ring.
    + apply Hn in Hs. rewrite E in Hs. rewrite (IH (S i) b Hs). auto. intros; apply H; lia.
Qed.
End Loop.

(** * The result *)
Lemma take_rows_inv {A} (l : list A) : forall ix r, take_rows l ix = Ok r -> length r = length ix /\ forall k, (k < length ix)%nat -> nth_error r k = nth_error l (nth k ix 0%nat) /\ (nth k ix 0 < length l)%nat.
Proof.
  unfold take_rows. induction ix as [|i ix IH]; intros r E.
  - injection E as <-. split; auto. intros k Hk. cbn in Hk. lia.
  - cbn [fold_right] in E. destruct (fold_right _ _ ix) as [r'|] eqn:Er; [|discriminate]. cbn [bind] in E. destruct (nth_error l i) as [x|] eqn:Ex; [|discriminate]. injection E as <-.
    destruct (IH r' eq_refl) as [L H]. split; [cbn; lia|]. intros [|k] Hk; cbn.
    + split; auto. apply nth_error_Some. congruence.
    + apply H. cbn in Hk. lia.
Qed.
Lemma pick_both {A B} : forall (m : list bool) (a : list A) (b : list B), length a = length b -> length (pick m a) = length (pick m b) /\
  forall k, (k < length (pick m a))%nat -> exists j, (j < length a)%nat /\ nth_error (pick m a) k = nth_error a j /\ nth_error (pick m b) k = nth_error b j.
Proof.
  induction m as [|[] m IH]; intros [|x a] [|y b] H; cbn [pick length] in *; try discriminate; try (split; [reflexivity|intros; lia]).
  - destruct (IH a b ltac:(lia)) as [L K]. split; [lia|]. intros [|k] Hk.
    + exists 0%nat. split; [lia|]. auto.
    + destruct (K k ltac:(lia)) as (j & Hj & E1 & E2). exists (S j). split; [lia|]. auto.
  - destruct (IH a b ltac:(lia)) as [L K]. split; [lia|]. intros k Hk. destruct (K k Hk) as (j & Hj & E1 & E2). exists (S j). split; [lia|]. auto.
Qed.
Lemma weakly_better_dom y z m : length y = m -> length z = m -> weakly_better y z <-> weakly_dominates y z.
Proof.
  intros Hy Hz. unfold weakly_better, weakly_dominates. subst m. split.
  - intros H. split; [apply (Forall2_length _ _ _ H)|]. clear Hz. induction H; intros k Hk; cbn in *; [lia|]. destruct k; auto. apply IHForall2. lia.
  - intros [_ H]. revert z Hz H. induction y as [|a y IH]; intros [|b z] Hz H; try discriminate; constructor.
    + apply (H 0%nat). cbn; lia.
    + apply IH; [cbn in Hz; lia|]. intros k Hk. apply (H (S k)). cbn; lia.
Qed.
Lemma filter_outliers_ok lof X Y X' Y' m : (forall y, In y Y -> length y = m) -> length X = length Y -> filter_outliers lof X Y = Ok (X', Y') ->
  length X' = length Y' /\ forall k, (k < length Y')%nat -> exists j, efficient Y j /\ nth_error X' k = nth_error X j /\ nth_error Y' k = nth_error Y j.
Proof.
  intros HY HL E. unfold filter_outliers in E. pose proof (get_non_dominated_correct (fun _ _ => false) Y m HY) as Hc.
  destruct (get_non_dominated_idx _ true Y) as [ix|]; [|discriminate]. cbn [bind] in E. destruct Hc as (_ & _ & Hc).
  destruct (take_rows X ix) as [X1|] eqn:E1; [|discriminate]. cbn [bind] in E. destruct (take_rows Y ix) as [Y1|] eqn:E2; [|discriminate]. cbn [bind] in E.
  destruct (lof Y1) as [mask|]; [|discriminate]. cbn [bind] in E. unfold select in E.
  destruct (length mask =? length X1)%nat; [|discriminate]. cbn [bind] in E. destruct (length mask =? length Y1)%nat; [|discriminate]. cbn [bind] in E. injection E as <- <-.
  apply take_rows_inv in E1, E2. destruct E1 as [L1 E1], E2 as [L2 E2]. destruct (pick_both mask X1 Y1 ltac:(lia)) as [LP P]. split; auto.
  intros k Hk. destruct (P k ltac:(lia)) as (j & Hj & N1 & N2). exists (nth j ix 0%nat).
  split. { assert (Hin : In (nth j ix 0%nat) ix) by (apply nth_In; lia). apply Hc in Hin. destruct Hin as [Hlt Hd]. split; auto. intros k' Hk' Hne HW. apply (Hd k' Hk' Hne).
    unfold row. apply (weakly_better_dom _ _ m); auto; apply HY, nth_In; auto. }
  split; [rewrite N1; apply E1; lia|rewrite N2; apply E2; lia].
Qed.
Lemma last_slice_incl {A} n (l : list A) : exists k, last_slice n l = skipn k l /\ k = if (n <=? 0)%Z then Z.to_nat (- n) else (length l - Z.to_nat n)%nat.
Proof. unfold last_slice. destruct (n <=? 0)%Z; eauto. Qed.
Lemma skipn_combine {A B} : forall k (a : list A) (b : list B), combine (skipn k a) (skipn k b) = skipn k (combine a b).
Proof.
  induction k as [|k IH]; intros [|x a] [|y b]; cbn; auto.
  destruct (skipn k a); auto.
Qed.
Lemma concat_pairs {A B} : forall (f : list (list A * list B)), (forall p, In p f -> length (fst p) = length (snd p)) -> length (concat (map fst f)) = length (concat (map snd f)) /\
  forall k, (k < length (concat (map snd f)))%nat -> exists p j, In p f /\ (j < length (snd p))%nat /\ nth_error (concat (map fst f)) k = nth_error (fst p) j /\ nth_error (concat (map snd f)) k = nth_error (snd p) j.
Proof.
  induction f as [|[a b] f IH]; intros H; [split; [reflexivity|cbn; intros; lia]|]. cbn [map concat]. rewrite !app_length.
  pose proof (H _ (or_introl eq_refl)) as L. cbn [fst snd] in *. destruct IH as [LI IH]. { intros p Hp. apply H. right. auto. }
  split; [lia|]. intros k Hk. destruct (Nat.lt_ge_cases k (length b)) as [Hb|Hb].
  - exists (a, b), k. split; [left; auto|]. cbn [fst snd]. rewrite !nth_error_app1 by lia. auto.
  - destruct (IH (k - length b)%nat ltac:(lia)) as (p & j & Hp & Hj & N1 & N2). exists p, j. split; [right; auto|]. split; auto. rewrite !nth_error_app2 by lia. rewrite L. auto.
Qed.
