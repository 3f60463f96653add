(** Distances, powers and their derivatives; values of GD and IGD. *)
From Coq Require Import List Arith Bool Reals Lia Lra.
From Coquelicot Require Import Coquelicot.
From Verif Require Import Num Exn ListAux HVDSpec HVDProof NewtonModel NewtonProof HVXModel HVXSpec HVXProof HVChain HVXTop
  RefModel RefProof RefTop IndSpec IndModel.
Import ListNotations.
Open Scope R_scope.

(** * sums and distances *)
Lemma sumn_first n f : sumn (S n) f = f 0%nat + sumn n (fun i => f (S i)).
Proof. change (S n) with (1 + n)%nat. rewrite sumn_add. simpl. ring. Qed.
Lemma sqd_sumn m p q : length p = m -> length q = m ->
  sqd p q = sumn m (fun a => (nth a p 0 - nth a q 0) * (nth a p 0 - nth a q 0)).
Proof.
  revert p q. induction m as [|m IH]; intros [|a p] [|b q] Hp Hq; simpl in Hp, Hq; try lia; auto.
  rewrite sumn_first. simpl sqd. rewrite (IH p q) by lia. simpl nth. ring.
Qed.
Lemma sqd_nonneg p q : 0 <= sqd p q.
Proof. revert q. induction p as [|a p IH]; intros [|b q]; simpl; try lra. specialize (IH q). pose proof (Rle_0_sqr (a - b)). unfold Rsqr in H. lra. Qed.
Lemma sqd_sym p q : sqd p q = sqd q p.
Proof. revert q. induction p as [|a p IH]; intros [|b q]; simpl; auto. rewrite IH. ring. Qed.
Lemma edist_sym p q : edist p q = edist q p.
Proof. unfold edist. rewrite sqd_sym. auto. Qed.
Lemma edist_nonneg p q : 0 <= edist p q.
Proof. apply sqrt_pos. Qed.
Lemma edist_lt p q r s : edist p q < edist r s <-> sqd p q < sqd r s.
Proof.
  unfold edist. split; intros H.
  - apply sqrt_lt_0_alt. auto.
  - apply sqrt_lt_1; auto using sqd_nonneg.
Qed.
Lemma edist_pos p q : 0 < edist p q <-> 0 < sqd p q.
Proof.
  unfold edist. split; intros H. 
  - pose proof (sqd_nonneg p q). destruct (Req_dec (sqd p q) 0) as [E|]; [rewrite E, sqrt_0 in H; lra|lra].
  - apply sqrt_lt_R0; auto.
Qed.
Lemma dist2_edist p q : dist2 p q = edist p q.
Proof.
  unfold dist2, edist. f_equal. revert q. induction p as [|a p IH]; intros [|b q]; simpl; auto. rewrite IH. ring.
Qed.

(** * the first minimum *)
Lemma argmin_from_spec l : forall best k i, 
  (argmin_from best k i l = k /\ (forall a, In a l -> best <= a)) \/
  (exists j, argmin_from best k i l = (i + j)%nat /\ (j < length l)%nat /\ nth j l 0 < best /\ forall a, In a l -> nth j l 0 <= a).
Proof.
  induction l as [|a l IH]; intros best k i; simpl; [left; split; auto; intros ? []|].
  unfold rltb. destruct (Rlt_dec a best) as [Hl|Hn].
  - right. destruct (IH a i (S i)) as [[E H]|(j & E & Hj & H1 & H2)].
    + exists 0%nat. rewrite E. split; [lia|]. split; [lia|]. split; auto. intros b [<-|Hb]; simpl; [lra|auto].
    + exists (S j). rewrite E. split; [lia|]. split; [lia|]. split; [simpl; lra|]. intros b [<-|Hb]; [simpl; lra|]. apply H2; auto.
  - destruct (IH best k (S i)) as [[E H]|(j & E & Hj & H1 & H2)].
    + left. rewrite E. split; auto. intros b [<-|Hb]; [lra|auto].
    + right. exists (S j). rewrite E. split; [lia|]. split; [lia|]. split; [auto|]. intros b [<-|Hb]; [simpl; lra|]. apply H2; auto.
Qed.
Lemma argminR_min l a : In a l -> nth (argminR l) l 0 <= a.
Proof.
  destruct l as [|b l]; [intros []|]. intros Ha. unfold argminR.
  destruct (argmin_from_spec l b 0 1) as [[E H]|(j & E & Hj & H1 & H2)]; rewrite E.
  - simpl. destruct Ha as [<-|Ha]; [lra|auto].
  - simpl. destruct Ha as [<-|Ha]; [lra|auto].
Qed.

(** the distance to a set *)
Definition dmin (y : list R) (S : list (list R)) : R := nth (argminR (map (edist y) S)) (map (edist y) S) 0.
Lemma dmin_spec y S : S <> [] -> set_dist y S (dmin y S).
Proof.
  intros HS. assert (Hl : (argminR (map (edist y) S) < length (map (edist y) S))%nat) by (apply argminR_lt; destruct S; simpl; congruence).
  split.
  - assert (Hin : In (dmin y S) (map (edist y) S)) by (apply nth_In; auto).
    apply in_map_iff in Hin as (r & E & Hr). exists r. auto.
  - intros r Hr. apply argminR_min. apply in_map. auto.
Qed.
Lemma set_dist_unique y S d e : set_dist y S d -> set_dist y S e -> d = e.
Proof. intros [(r & Hr & ->) H1] [(s & Hs & ->) H2]. apply Rle_antisym; auto. Qed.
Lemma set_dist_dmin y S d : S <> [] -> set_dist y S d -> d = dmin y S.
Proof. intros HS Hd. apply (set_dist_unique y S); auto using dmin_spec. Qed.
Lemma dmin_nonneg y S : 0 <= dmin y S.
Proof.
  unfold dmin. destruct (nth_in_or_default (argminR (map (edist y) S)) (map (edist y) S) 0) as [H| ->]; [|lra].
  apply in_map_iff in H as (r & <- & _). apply edist_nonneg.
Qed.
Lemma mean_dist_iff p A B v : B <> [] ->
  mean_dist p A B v <-> v = sumR (map (fun y => pw (dmin y B) p) A) / INR (length A).
Proof.
  intros HB. split.
  - intros (ds & HL & Hd & ->). f_equal. f_equal. clear -HL Hd HB. revert ds HL Hd. induction A as [|a A IH]; intros [|d ds] HL Hd; simpl in HL; try lia; auto.
    simpl. f_equal.
    + f_equal. apply set_dist_dmin; auto. apply (Hd 0%nat). simpl; lia.
    + apply IH; [lia|]. intros i Hi. apply (Hd (S i)). simpl; lia.
  - intros ->. exists (map (fun y => dmin y B) A). rewrite map_length, map_map. split; auto. split; auto.
    intros i Hi. rewrite (nth_map_default (fun y => dmin y B) A i []) by auto. apply dmin_spec; auto.
Qed.
Lemma sumR_app l l' : sumR (l ++ l') = sumR l + sumR l'.
Proof. induction l; simpl; [ring|]. rewrite IHl. ring. Qed.
Lemma sumR_nonneg l : (forall a, In a l -> 0 <= a) -> 0 <= sumR l.
Proof. induction l as [|a l IH]; simpl; intros H; [lra|]. specialize (H a (or_introl eq_refl)) as Ha. assert (0 <= sumR l) by (apply IH; auto). lra. Qed.
Lemma sumR_set_at {A} (g : A -> R) i y l d : (i < length l)%nat ->
  sumR (map g (set_at i y l)) = sumR (map g l) - g (nth i l d) + g y.
Proof.
  revert i. induction l as [|a l IH]; intros [|i] Hi; simpl in *; try lia; [ring|]. rewrite IH by lia. ring.
Qed.

(** * powers *)
Lemma pw_npow x p : 0 < p -> npow x p = Fin (pw x p).
Proof.
  intros Hp. unfold npow, pw, reqb, rltb. destruct (Req_EM_T x 0); auto. destruct (Req_EM_T p 0); [lra|]. destruct (Rlt_dec 0 p); [auto|lra].
Qed.
Lemma pw_nonneg x p : 0 <= pw x p.
Proof. unfold pw. destruct (Req_EM_T x 0); [lra|]. left. apply exp_pos. Qed.
Lemma pw_inv x p : 0 < p -> 0 <= x -> pw (pw x (1 / p)) p = x.
Proof.
  intros Hp Hx. unfold pw. destruct (Req_EM_T x 0) as [->|Hne].
  - destruct (Req_EM_T 0 0); [auto|lra].
  - destruct (Req_EM_T (Rpower x (1 / p)) 0) as [E|_].
    + pose proof (exp_pos (1 / p * ln x)). unfold Rpower in E. lra.
    + rewrite Rpower_mult. replace (1 / p * p) with 1 by (field; lra). apply Rpower_1. lra.
Qed.
Lemma pw_2 x : 0 <= x -> pw x 2 = x * x.
Proof.
  intros Hx. unfold pw. destruct (Req_EM_T x 0) as [->|]; [ring|]. replace 2 with (1 + 1) by ring. rewrite Rpower_plus, Rpower_1 by lra. auto.
Qed.
Lemma pw_sqrt s p : 0 < s -> pw (sqrt s) p = Rpower s (p / 2).
Proof.
  intros Hs. unfold pw. destruct (Req_EM_T (sqrt s) 0) as [E|_]; [pose proof (sqrt_lt_R0 s Hs); lra|].
  rewrite <- Rpower_sqrt by auto. rewrite Rpower_mult. f_equal. field.
Qed.

Lemma fmean_fin l : l <> [] -> fmean (map Fin l) = Fin (sumR l / INR (length l)).
Proof.
  intros Hl. unfold fmean. rewrite map_length.
  assert (E : forall l a, fold_left fadd (map Fin l) (Fin a) = Fin (a + sumR l)).
  { clear. induction l as [|b l IH]; intros a; simpl; [rewrite Rplus_0_r; auto|]. rewrite IH. f_equal. ring. }
  rewrite E, Rplus_0_l. simpl. unfold reqb. destruct (Req_EM_T (INR (length l)) 0) as [E0|]; auto.
  apply (INR_eq _ 0) in E0. destruct l; simpl in *; congruence.
Qed.
Lemma root_mean_spec p ds : 0 < p -> ds <> [] ->
  root_mean p ds = Ok (Fin (pw (sumR (map (fun d => pw d p) ds) / INR (length ds)) (1 / p))).
Proof.
  intros Hp Hd. unfold root_mean, reqb. destruct (Req_EM_T p 0); [lra|].
  rewrite (map_ext _ (fun d => Fin (pw d p))) by (intros; apply pw_npow; auto).
  rewrite <- (map_map (fun d => pw d p) Fin). rewrite fmean_fin by (destruct ds; simpl; congruence). rewrite map_length.
  simpl. rewrite pw_npow; auto. unfold Rdiv. rewrite Rmult_1_l. apply Rinv_0_lt_compat; auto.
Qed.

(** * nearest rows *)
Lemma same_cols_iff A B m : A <> [] -> (forall r, In r A -> length r = m) ->
  same_cols A B = true <-> forall r, In r B -> length r = m.
Proof.
  intros HA Hm. unfold same_cols. rewrite forallb_forall. assert (E : length (hd [] A) = m) by (destruct A; [congruence|apply Hm; simpl; auto]).
  rewrite E. split; intros H r Hr.
  - apply Nat.eqb_eq. apply H. apply in_or_app. auto.
  - apply Nat.eqb_eq. apply in_app_or in Hr as [Hr|Hr]; auto.
Qed.
Lemma nearest_rows_ok A B m : A <> [] -> B <> [] -> (forall r, In r A -> length r = m) -> (forall r, In r B -> length r = m) ->
  nearest_rows A B = Ok (map (fun a => map (edist a) B) A, map (fun a => argminR (map (edist a) B)) A).
Proof.
  intros HA HB H1 H2. unfold nearest_rows. destruct A as [|a A]; [congruence|]. destruct B as [|b B]; [congruence|].
  assert (E : same_cols (a :: A) (b :: B) = true) by (apply (same_cols_iff _ _ m); auto). rewrite E.
  cbv zeta. assert (E2 : cdist (a :: A) (b :: B) = map (fun a => map (edist a) (b :: B)) (a :: A)).
  { unfold cdist. apply map_ext. intros x. apply map_ext. intros y. apply dist2_edist. }
  rewrite E2. rewrite map_map. auto.
Qed.
Lemma pick_spec A B : pick (map (fun a => map (edist a) B) A) (map (fun a => argminR (map (edist a) B)) A) = map (fun a => dmin a B) A.
Proof. unfold pick. induction A as [|a A IH]; simpl; auto. f_equal. auto. Qed.

Definition rows (m : nat) (A : list (list R)) : Prop := forall r, In r A -> length r = m.

Lemma gd_value o Y m : 0 < i_p o -> Y <> [] -> i_ref o <> [] -> rows m Y -> rows m (i_ref o) ->
  exists v, gd_compute o None (Some Y) = Ok (Fin v) /\ 0 <= v /\ mean_dist (i_p o) Y (i_ref o) (pw v (i_p o)).
Proof.
  intros Hp HY HR H1 H2. unfold gd_compute. simpl get_Y. cbn [bind]. rewrite (nearest_rows_ok Y (i_ref o) m) by auto. cbn [bind fst snd].
  rewrite pick_spec. rewrite root_mean_spec by (auto; destruct Y; simpl; congruence). eexists. split; [reflexivity|]. split; [apply pw_nonneg|].
  rewrite map_map, map_length. apply mean_dist_iff; auto. rewrite pw_inv; auto.
  apply Rmult_le_pos.
  - apply sumR_nonneg. intros a Ha. apply in_map_iff in Ha as (y & <- & _). apply pw_nonneg.
  - left. apply Rinv_0_lt_compat. apply lt_0_INR. destruct Y; simpl; [congruence|lia].
Qed.

(** * derivative of the power of a distance along a path *)
Section Path.
Variables (m : nat) (phi : R -> list R) (phi' : nat -> R) (t0 : R) (r : list R).
Hypothesis Hlen : forall t, length (phi t) = m.
Hypothesis Hr : length r = m.
Hypothesis Hd : forall a, (a < m)%nat -> is_derive (fun t : R => nth a (phi t) 0) t0 (phi' a).
Definition inner : R := sumn m (fun a => phi' a * (nth a (phi t0) 0 - nth a r 0)).
Lemma sqd_derive : is_derive (fun t : R => sqd (phi t) r) t0 (2 * inner).
Proof using All.
  apply (is_derive_ext (fun t : R => sumn m (fun a => (nth a (phi t) 0 - nth a r 0) * (nth a (phi t) 0 - nth a r 0)))).
  { intros t. symmetry. apply sqd_sumn; auto. }
  unfold inner. rewrite <- sumn_scal. apply (sumn_derive m (fun a (t : R) => (nth a (phi t) 0 - nth a r 0) * (nth a (phi t) 0 - nth a r 0))).
  intros a Ha. specialize (Hd a Ha). 
  assert (H1 : is_derive (fun t : R => nth a (phi t) 0 - nth a r 0) t0 (phi' a)).
  { replace (phi' a) with (minus (phi' a) 0) by (unfold minus, plus, opp; simpl; ring). apply @is_derive_minus; [auto|apply @is_derive_const]. }
  pose proof (is_derive_mult _ _ t0 _ _ H1 H1 Rmult_comm) as H2.
  match type of H2 with is_derive _ _ ?v => replace (2 * _) with v end; [exact H2|]. unfold plus, mult; simpl. ring.
Qed.
Lemma Rpower_derive (u : R -> R) u' q : is_derive u t0 u' -> 0 < u t0 -> is_derive (fun t : R => Rpower (u t) q) t0 (q * Rpower (u t0) (q - 1) * u').
Proof using.
  intros Hu Hp. assert (H : is_derive (fun x => Rpower x q) (u t0) (q * Rpower (u t0) (q - 1))).
  { apply is_derive_Reals. apply derivable_pt_lim_power; auto. }
  pose proof (is_derive_comp (fun x => Rpower x q) u t0 _ _ H Hu) as Hc. 
  replace (q * Rpower (u t0) (q - 1) * u') with (scal u' (q * Rpower (u t0) (q - 1))); [exact Hc|]. unfold scal; simpl; unfold mult; simpl. ring.
Qed.
Lemma pw_derive_pos p : 0 < edist (phi t0) r ->
  is_derive (fun t : R => pw (edist (phi t) r) p) t0 (p * Rpower (edist (phi t0) r) (p - 2) * inner).
Proof using All.
  intros Hp. pose proof Hp as Hs. apply edist_pos in Hs. pose proof sqd_derive as HD.
  pose proof (Rpower_derive _ _ (p / 2) HD Hs) as HP.
  replace (p * Rpower (edist (phi t0) r) (p - 2) * inner) with (p / 2 * Rpower (sqd (phi t0) r) (p / 2 - 1) * (2 * inner)).
  - apply (is_derive_ext_loc (fun t : R => Rpower (sqd (phi t) r) (p / 2))); [|exact HP].
    generalize (locally_gt _ t0 0 (derive_continuous _ _ _ HD) Hs). apply filter_imp. intros t Ht. symmetry. apply pw_sqrt. auto.
  - unfold edist. rewrite <- Rpower_sqrt by auto. rewrite Rpower_mult. replace (/ 2 * (p - 2)) with (p / 2 - 1) by field. field.
Qed.
Lemma pw_derive_2 : is_derive (fun t : R => pw (edist (phi t) r) 2) t0 (2 * 1 * inner).
Proof using All.
  replace (2 * 1 * inner) with (2 * inner) by ring. apply (is_derive_ext (fun t : R => sqd (phi t) r)); [|apply sqd_derive].
  intros t. rewrite pw_2 by apply edist_nonneg. unfold edist. symmetry. apply sqrt_sqrt. apply sqd_nonneg.
Qed.
(** at distance zero with an exponent above 2 *)
Lemma sandwich (g S : R -> R) : S t0 = 0 -> g t0 = 0 -> is_derive S t0 0 -> locally t0 (fun t : R => 0 <= g t <= S t) -> is_derive g t0 0.
Proof using.
  intros HS Hg HD HL. apply is_derive_Reals. apply is_derive_Reals in HD. intros e He. destruct (HD e He) as (d1 & H1). destruct HL as (d2 & H2).
  assert (Hmin : 0 < Rmin d1 d2) by (apply Rmin_pos; [apply d1|apply d2]). exists (mkposreal _ Hmin). intros h Hh Hlt. simpl in Hlt.
  specialize (H1 h Hh (Rlt_le_trans _ _ _ Hlt (Rmin_l _ _))). assert (HB : ball t0 d2 (t0 + h)).
  { unfold ball; simpl. unfold AbsRing_ball, abs, minus, plus, opp; simpl. replace (t0 + h + - t0) with h by ring. apply (Rlt_le_trans _ _ _ Hlt (Rmin_r _ _)). }
  specialize (H2 _ HB). rewrite HS in H1. rewrite Hg. apply Rle_lt_trans with (2 := H1). unfold Rdiv. rewrite !Rminus_0_r, !Rabs_mult.
  apply Rmult_le_compat_r; [apply Rabs_pos|]. rewrite !Rabs_pos_eq by lra. lra.
Qed.
Lemma pw_derive_zero p : 2 < p -> edist (phi t0) r = 0 -> is_derive (fun t : R => pw (edist (phi t) r) p) t0 0.
Proof using All.
  intros Hp He. assert (Hs : sqd (phi t0) r = 0) by (unfold edist in He; apply sqrt_eq_0 in He; auto using sqd_nonneg).
  assert (Hi : inner = 0).
  { unfold inner. apply sumn_zero. intros a Ha. assert (Hz : nth a (phi t0) 0 - nth a r 0 = 0).
    { rewrite (sqd_sumn m) in Hs by auto. clear -Hs Ha. assert (G : forall n (g : nat -> R), sumn n (fun a => g a * g a) = 0 -> forall a, (a < n)%nat -> g a = 0).
      { induction n as [|n IH]; intros g H b Hb; [lia|]. simpl in H. assert (P : forall k, 0 <= sumn k (fun a => g a * g a)) by (induction k; simpl; [lra|]; pose proof (Rle_0_sqr (g k)); unfold Rsqr in *; lra).
        specialize (P n). pose proof (Rle_0_sqr (g n)) as Q. unfold Rsqr in Q. destruct (Nat.eq_dec b n) as [->|]; [|apply IH; [lra|lia]]. apply Rsqr_0_uniq. unfold Rsqr. lra. }
      apply (G m (fun a => nth a (phi t0) 0 - nth a r 0)); auto. }
    rewrite Hz. ring. }
  pose proof sqd_derive as HD. rewrite Hi, Rmult_0_r in HD.
  apply (sandwich _ (fun t : R => sqd (phi t) r)); auto.
  - rewrite He. unfold pw. destruct (Req_EM_T 0 0); [auto|lra].
  - generalize (locally_lt _ t0 1 (derive_continuous _ _ _ HD) ltac:(cbv beta; lra)). apply filter_imp. intros t Ht. split; [apply pw_nonneg|].
    pose proof (sqd_nonneg (phi t) r). destruct (Req_dec (sqd (phi t) r) 0) as [E|]. 
    + unfold edist. rewrite E, sqrt_0. unfold pw. destruct (Req_EM_T 0 0); lra.
    + unfold edist. rewrite pw_sqrt by lra. rewrite <- (Rpower_1 (sqd (phi t) r)) at 2 by lra.
      unfold Rpower. assert (Hln : ln (sqd (phi t) r) < 0) by (rewrite <- ln_1; apply ln_increasing; lra).
      left. apply exp_increasing. apply Ropp_lt_cancel. rewrite <- !Ropp_mult_distr_r_reverse. apply Rmult_lt_compat_r; lra.
Qed.
Lemma pw_derive p : 0 < p -> 0 < edist (phi t0) r \/ 2 <= p ->
  exists q, npow (edist (phi t0) r) (p - 2) = Fin q /\ is_derive (fun t : R => pw (edist (phi t) r) p) t0 (p * q * inner).
Proof using All.
  intros Hp Hc. unfold npow, reqb, rltb. destruct (Req_EM_T (edist (phi t0) r) 0) as [E|E].
  - destruct Hc as [Hc|Hc]; [lra|]. destruct (Req_EM_T (p - 2) 0) as [E2|E2].
    + exists 1. split; auto. replace p with 2 by lra. apply pw_derive_2.
    + destruct (Rlt_dec 0 (p - 2)); [|lra]. exists 0. split; auto. replace (p * 0 * inner) with 0 by ring. apply pw_derive_zero; auto. lra.
  - exists (Rpower (edist (phi t0) r) (p - 2)). split; auto. apply pw_derive_pos. pose proof (edist_nonneg (phi t0) r). lra.
Qed.
Lemma inner_continuous : continuous (fun t : R => sqd (phi t) r) t0.
Proof using All. eapply derive_continuous. apply sqd_derive. Qed.
End Path.
