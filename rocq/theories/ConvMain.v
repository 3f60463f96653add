From Coq Require Import List Arith Bool Lia Reals Lra Psatz.
From Verif Require Import ListAux ProbModel NewtonModel BenchModel BenchSpec BenchBase ConvModel ConvSpec ConvProof.
Import ListNotations.
Open Scope R_scope.

(** ** DENT *)
Lemma exp_quad x : 0 <= x -> 1 + x + x ^ 2 / 2 <= exp x.
Proof.
  intros Hx. destruct Hx as [Hx|<-]; [|rewrite exp_0; lra].
  destruct (MVT_cor2 (fun t => exp t - t - t ^ 2 / 2) (fun t => exp t - 1 - t) 0 x Hx) as (c & E & Hc).
  - intros c _. replace (exp c - 1 - c) with (exp c - 1 - (/ 2 * (INR 2 * c ^ 1))) by (cbn; field).
    apply derivable_pt_lim_minus; [apply derivable_pt_lim_minus; [apply derivable_pt_lim_exp|apply derivable_pt_lim_id]|].
    apply (derivable_pt_lim_ext (fun t => / 2 * t ^ 2)); [intros; field|]. apply (derivable_pt_lim_scal (fun t => t ^ 2)). apply derivable_pt_lim_pow.
  - rewrite exp_0 in E. pose proof (exp_ineq1 c ltac:(lra)). assert (0 <= (exp c - 1 - c) * (x - 0)) by (apply Rmult_le_pos; lra). lra.
Qed.
Definition dent_slope (d : R) : R := (1 + d / sqrt (1 + d ^ 2)) / 2 - 85 / 100 * (2 * d * exp (- d ^ 2)).
Lemma sq1_pos d : 0 < 1 + d ^ 2.
Proof. pose proof (pow2_ge_0 d). lra. Qed.
Lemma dent_derive d : derivable_pt_lim dent_entry d (dent_slope d).
Proof.
  assert (P : derivable_pt_lim (fun t => t ^ 2) d (2 * d)) by (replace (2 * d) with (INR 2 * d ^ 1) by (cbn; ring); apply derivable_pt_lim_pow).
  assert (S : derivable_pt_lim (fun t => sqrt (1 + t ^ 2)) d (d / sqrt (1 + d ^ 2))).
  { replace (d / sqrt (1 + d ^ 2)) with (/ (2 * sqrt (1 + d ^ 2)) * (0 + 2 * d)).
    - apply (derivable_pt_lim_comp (fun t => 1 + t ^ 2) sqrt); [|apply derivable_pt_lim_sqrt, sq1_pos].
      apply derivable_pt_lim_plus; auto. apply derivable_pt_lim_const.
    - field. pose proof (sqrt_lt_R0 _ (sq1_pos d)). lra. }
  assert (X : derivable_pt_lim (fun t => exp (- t ^ 2)) d (exp (- d ^ 2) * - (2 * d))).
  { apply (derivable_pt_lim_comp (fun t => - t ^ 2) exp); [|apply derivable_pt_lim_exp]. apply derivable_pt_lim_opp; auto. }
  replace (dent_slope d) with (/ 2 * (0 + d / sqrt (1 + d ^ 2) + 1) + 85 / 100 * (exp (- d ^ 2) * - (2 * d))) by (unfold dent_slope; field; pose proof (sqrt_lt_R0 _ (sq1_pos d)); lra).
  apply (derivable_pt_lim_ext (fun t => / 2 * (1 + sqrt (1 + t ^ 2) + t) + 85 / 100 * exp (- t ^ 2))); [intros; unfold dent_entry; field|].
  apply derivable_pt_lim_plus; [|apply (derivable_pt_lim_scal (fun t => exp (- t ^ 2))); auto].
  apply (derivable_pt_lim_scal (fun t => 1 + sqrt (1 + t ^ 2) + t)). apply derivable_pt_lim_plus; [|apply derivable_pt_lim_id].
  apply derivable_pt_lim_plus; auto. apply derivable_pt_lim_const.
Qed.
Lemma dent_slope_pos d : 0 < dent_slope d.
Proof.
  unfold dent_slope. set (q := sqrt (1 + d ^ 2)). assert (Hq : 0 < q) by (apply sqrt_lt_R0, sq1_pos).
  assert (Eq : q * q = 1 + d ^ 2) by (apply sqrt_sqrt; pose proof (sq1_pos d); lra).
  pose proof (exp_pos (- d ^ 2)) as He.
  assert (Hd : -1 < d / q) by (apply Rmult_lt_reg_r with q; auto; unfold Rdiv; rewrite Rmult_assoc, Rinv_l by lra; nra).
  destruct (Rle_dec d 0) as [Hn|Hp]; [nra|]. assert (H0 : 0 < d) by lra.
  assert (Hq2 : q <= 1 + d ^ 2 / 2) by nra.
  assert (L : d / (1 + d ^ 2 / 2) <= d / q) by (apply Rmult_le_compat_l; [lra|]; apply Rinv_le_contravar; auto).
  set (E := 1 + d ^ 2 + (d ^ 2) ^ 2 / 2).
  assert (HE : 0 < E) by (unfold E; nra).
  assert (Hx : exp (- d ^ 2) <= / E).
  { rewrite exp_Ropp. apply Rinv_le_contravar; auto. apply exp_quad. apply pow2_ge_0. }
  assert (G : 34 / 10 * d * / E < 1 + d / (1 + d ^ 2 / 2)); [|nra].
  set (D := 1 + d ^ 2 / 2). assert (HD : 0 < D) by (unfold D; nra).
  apply Rmult_lt_reg_r with (E * D); [apply Rmult_lt_0_compat; auto|].
  replace (34 / 10 * d * / E * (E * D)) with (34 / 10 * d * D) by (field; lra).
  replace ((1 + d / D) * (E * D)) with ((D + d) * E) by (field; lra).
  unfold D, E.
  assert (0 < 1 - 24 / 10 * d + 15 / 10 * d ^ 2 - 7 / 10 * d ^ 3 + d ^ 4 + / 2 * d ^ 5 + / 4 * d ^ 6); [|nra].
  assert (0 < d ^ 5) by (apply pow_lt; auto). assert (0 < d ^ 6) by (apply pow_lt; auto).
  enough (0 < 1 - 24 / 10 * d + 15 / 10 * d ^ 2 - 7 / 10 * d ^ 3 + d ^ 4) by lra.
  pose proof (pow2_ge_0 (d ^ 2 - 35 / 100 * d)). pose proof (pow2_ge_0 (1 - 125 / 100 * d)).
  pose proof (pow2_ge_0 (d ^ 2 - 35 / 100 * d - 2/10)). pose proof (pow2_ge_0 (d - 7/10)). pose proof (pow2_ge_0 (d ^ 2 - 4/10)). nra.
Qed.
Lemma dent_mono c d : c < d -> dent_entry c < dent_entry d.
Proof.
  intros H. destruct (MVT_cor2 dent_entry dent_slope c d H) as (t & E & _); [intros; apply dent_derive|].
  pose proof (dent_slope_pos t). nra.
Qed.
Lemma in_box2 lo hi p q : in_box 2 2 lo hi 0 0 [p; q] <-> lo <= p <= hi /\ lo <= q <= hi.
Proof.
  split.
  - intros (_ & H). pose proof (H 0%nat ltac:(lia)). pose proof (H 1%nat ltac:(lia)). auto.
  - intros (H1 & H2). split; auto. intros [|[|i]] Hi; auto. lia.
Qed.
Lemma dent_sym x : dent [x; - x] = Some [dent_entry (2 * x); dent_entry (- (2 * x))].
Proof.
  unfold dent, dent_entry, sq. replace (1 + (x + - x) * (x + - x)) with 1 by ring. rewrite sqrt_1.
  replace (1 + (x - - x) * (x - - x)) with (1 + (2 * x) ^ 2) by ring. replace (1 + (- (2 * x)) ^ 2) with (1 + (2 * x) ^ 2) by ring.
  replace (- ((x - - x) * (x - - x))) with (- (2 * x) ^ 2) by ring. replace (- (- (2 * x)) ^ 2) with (- (2 * x) ^ 2) by ring.
  f_equal. repeat (apply (f_equal2 (@cons R)); [lra|]). reflexivity.
Qed.
Lemma dent_front_lemma h : 0 <= h -> front (in_box 2 2 (- h) h 0 0) dent (dent_curve h).
Proof.
  intros Hh. apply front_intro.
  - intros x Hx. destruct x as [|p [|q [|]]]; try (destruct Hx; discriminate). apply in_box2 in Hx.
    eexists. split; [reflexivity|]. exists [dent_entry (p - q); dent_entry (- (p - q))]. split; [exists (p - q); split; auto; lra|].
    unfold dent_entry, sq. replace (1 + (- (p - q)) ^ 2) with (1 + (p - q) ^ 2) by ring. replace (- (- (p - q)) ^ 2) with (- (p - q) ^ 2) by ring.
    replace (1 + (p - q) * (p - q)) with (1 + (p - q) ^ 2) by ring. replace (- ((p - q) * (p - q))) with (- (p - q) ^ 2) by ring.
    assert (1 <= sqrt (1 + (p + q) * (p + q))).
    { apply Rle_trans with (sqrt 1); [rewrite sqrt_1; lra|]. apply sqrt_le_1_alt. pose proof (Rle_0_sqr (p + q)) as Hsq. unfold Rsqr in Hsq. lra. }
    apply wdom2. lra.
  - intros u (d & Hd & ->). exists [d / 2; - (d / 2)]. split; [apply in_box2; lra|]. rewrite dent_sym. replace (2 * (d / 2)) with d by field. reflexivity.
  - intros u w (d & _ & ->) (e & _ & ->) H. apply wdom2 in H. destruct H as (H1 & H2).
    assert (d = e); [|subst; reflexivity]. destruct (Rtotal_order d e) as [L|[L|L]]; auto; exfalso.
    + apply dent_mono in L. lra.
    + assert (L' : - d < - e) by lra. apply dent_mono in L'. lra.
Qed.
Lemma all_some_map {A B} (f : A -> option B) l : (forall a, In a l -> exists b, f a = Some b) ->
  exists r, all_some (map f l) = Some r /\ length r = length l /\ forall b, In b r <-> exists a, In a l /\ f a = Some b.
Proof.
  induction l as [|a l IH]; intros H.
  - exists []. split; auto. split; auto. intros b. split; [intros []|intros (a & [] & _)].
  - destruct (H a) as (b & E); [left; auto|]. destruct IH as (r & Er & Lr & Hr); [intros; apply H; right; auto|].
    exists (b :: r). split; [cbn; rewrite E, Er; reflexivity|]. split; [cbn; auto|]. intros c. split.
    + intros [<-|Hc]; [exists a; split; auto; left; auto|]. apply Hr in Hc. destruct Hc as (a' & Ha & Ea). exists a'. split; auto. right; auto.
    + intros (a' & [<-|Ha] & Ea); [left; congruence|]. right. apply Hr. eauto.
Qed.
Lemma linspace_range a b N x : a <= b -> In x (linspace a b N) -> a <= x <= b.
Proof.
  intros Hab H. unfold linspace in H. apply in_map_iff in H. destruct H as (i & <- & Hi). apply in_seq in Hi.
  destruct (N =? 1)%nat eqn:E; [lra|]. apply Nat.eqb_neq in E.
  assert (0 < INR (N - 1)) by (apply lt_0_INR; lia). assert (INR i <= INR (N - 1)) by (apply le_INR; lia). pose proof (pos_INR i).
  replace (INR i * ((b - a) / INR (N - 1))) with ((b - a) * (INR i / INR (N - 1))) by (field; lra).
  assert (0 <= INR i / INR (N - 1) <= 1).
  { split; [apply Rmult_le_pos; auto; apply Rlt_le, Rinv_0_lt_compat; auto|]. apply Rmult_le_reg_r with (INR (N - 1)); auto. unfold Rdiv. rewrite Rmult_assoc, Rinv_l by lra. lra. }
  nra.
Qed.
Lemma dent_reported N h : 2 <= h -> exists fr, dent_front N = Some fr /\ length fr = N /\ forall u, In u fr -> optimal (in_box 2 2 (- h) h 0 0) dent u.
Proof.
  intros Hh. unfold dent_front. destruct (all_some_map dent (dent_set N)) as (fr & E & L & H).
  { intros x Hx. unfold dent_set in Hx. apply in_map_iff in Hx. destruct Hx as (t & <- & _). rewrite dent_sym. eauto. }
  exists fr. split; auto. split; [rewrite L; unfold dent_set, linspace; rewrite !map_length, seq_length; reflexivity|].
  intros u Hu. apply H in Hu. destruct Hu as (x & Hx & Ex). unfold dent_set in Hx. apply in_map_iff in Hx. destruct Hx as (t & <- & Ht). apply linspace_range in Ht; [|lra].
  rewrite dent_sym in Ex. injection Ex as <-. apply (proj1 (dent_front_lemma h ltac:(lra))). exists (2 * t). split; auto. lra.
Qed.

(** ** reported fronts of the CONV problems *)
Lemma vsum_div w k : vsum (map (fun a => a / k) w) = vsum w / k.
Proof. unfold vsum. induction w as [|a w IH]; cbn; [unfold Rdiv; ring|]. rewrite IH. unfold Rdiv; ring. Qed.
Lemma normalised_weights w : Forall (fun a => 0 <= a) w -> vsum w <> 0 -> exists c, normalised w = Some c /\ length c = length w /\ weights c.
Proof.
  intros Hw Hs. unfold normalised. destruct (reqb (vsum w) 0) eqn:E; [apply reqb_true in E; contradiction|]. eexists. split; [reflexivity|]. split; [apply map_length|].
  pose proof (vsum_nonneg w Hw). assert (0 < vsum w) by lra. split.
  - apply Forall_map. eapply Forall_impl; [|apply Hw]. cbv beta. intros a Ha. apply Rmult_le_pos; auto. apply Rlt_le, Rinv_0_lt_compat; auto.
  - change (vsum (map (fun a => a / vsum w) w) = 1). rewrite vsum_div. field. lra.
Qed.
Lemma draws_in n w r : draws n w -> In r w -> exists c, normalised r = Some c /\ length c = n /\ weights c.
Proof. intros H Hr. pose proof (proj1 (Forall_forall _ _) H _ Hr) as (L & Hp & Hs). destruct (normalised_weights r Hp Hs) as (c & E & Lc & Hc). exists c. rewrite Lc. auto. Qed.
Lemma conv3_point a b c : row_mul 3 [a; b; c] conv3_centers = [- a + b - c; - a + b - c; - a + b + c].
Proof. unfold row_mul, conv3_centers. cbn [seq map zip_with nth]. unfold vsum. cbn [fold_right]. repeat (apply (f_equal2 (@cons R)); [ring|]). reflexivity. Qed.
Lemma conv4_point a b c d : row_mul 4 [a; b; c; d] (eye 4) = [a; b; c; d].
Proof. rewrite eye4. unfold row_mul, corners4. cbn [seq map zip_with nth]. unfold vsum. cbn [fold_right]. repeat (apply (f_equal2 (@cons R)); [ring|]). reflexivity. Qed.
Lemma conv4_point_neg a b c d : a + b + c + d = 1 -> row_mul 4 [a; b; c; d] eye_minus_one = [a - 1; b - 1; c - 1; d - 1].
Proof.
  intros H. unfold eye_minus_one. rewrite eye4. unfold row_mul, corners4. cbn [seq map zip_with nth]. unfold vsum. cbn [fold_right]. repeat (apply (f_equal2 (@cons R)); [lra|]). reflexivity.
Qed.
Lemma conv3_reported w lo hi : lo <= -1 -> 1 <= hi -> draws 3 w ->
  exists fr, conv3_front w = Some fr /\ length fr = length w /\ forall u, In u fr -> optimal (in_box 3 3 lo hi 0 0) conv3 u.
Proof.
  intros Hl Hh Hw. unfold conv3_front.
  assert (K : forall r, In r w -> exists u, (let? c := normalised r in conv3 (row_mul 3 c conv3_centers)) = Some u /\ distances triangle corners3 u).
  { intros r Hr. destruct (draws_in 3 w r Hw Hr) as (c & -> & Lc & Hc). destruct (length3 c Lc) as (a & b & d & ->). rewrite conv3_point, conv3_some.
    eexists. split; [reflexivity|]. eexists. split; [|reflexivity]. exists a, b, d. auto. }
  destruct (all_some_map (fun r => let? c := normalised r in conv3 (row_mul 3 c conv3_centers)) w) as (fr & E & L & H).
  { intros r Hr. destruct (K r Hr) as (u & Eu & _). eauto. }
  exists fr. split; auto. split; auto. intros u Hu. apply H in Hu. destruct Hu as (r & Hr & Er). destruct (K r Hr) as (v & Ev & Hv). rewrite Er in Ev. injection Ev as <-.
  apply (proj1 (conv3_front_lemma lo hi Hl Hh)). auto.
Qed.
Lemma conv4_reported w lo hi : lo <= 0 -> 1 <= hi -> draws 4 w ->
  exists fr, conv4_front w = Some fr /\ length fr = length w /\ forall u, In u fr -> optimal (in_box 4 4 lo hi 0 0) conv4 u.
Proof.
  intros Hl Hh Hw. unfold conv4_front.
  assert (K : forall r, In r w -> exists u, (let? c := normalised r in conv4 (row_mul 4 c (eye 4))) = Some u /\ distances tetrahedron corners4 u).
  { intros r Hr. destruct (draws_in 4 w r Hw Hr) as (c & -> & Lc & Hc). destruct (length4 c Lc) as (a & b & d & e & ->). rewrite conv4_point, conv4_some.
    eexists. split; [reflexivity|]. eexists. split; [|reflexivity]. split; auto. }
  destruct (all_some_map (fun r => let? c := normalised r in conv4 (row_mul 4 c (eye 4))) w) as (fr & E & L & H).
  { intros r Hr. destruct (K r Hr) as (u & Eu & _). eauto. }
  exists fr. split; auto. split; auto. intros u Hu. apply H in Hu. destruct Hu as (r & Hr & Er). destruct (K r Hr) as (v & Ev & Hv). rewrite Er in Ev. injection Ev as <-.
  apply (proj1 (conv4_front_lemma lo hi Hl Hh)). auto.
Qed.
Lemma normalised_mixed r c : normalised r = Some c -> weights c -> Forall (fun a => a <> vsum r) r -> length c = 4%nat -> not_corner c.
Proof.
  unfold normalised. destruct (reqb (vsum r) 0) eqn:E; [discriminate|]. apply reqb_false in E. intros H. injection H as <-. intros (Hp & Hs) Hm L.
  assert (K : forall a, In a (map (fun a => a / vsum r) r) -> a <> 1).
  { intros a Ha Ea. apply in_map_iff in Ha. destruct Ha as (b & Eb & Hb). pose proof (proj1 (Forall_forall _ _) Hm _ Hb) as Hn. apply Hn. rewrite <- Eb in Ea. apply (f_equal (fun t => t * vsum r)) in Ea. unfold Rdiv in Ea. rewrite Rmult_assoc, Rinv_l in Ea by auto. lra. }
  destruct (length4 _ L) as (a & b & d & e & Ec). rewrite Ec in *. pose proof (proj1 (weights4 a b d e) (conj Hp Hs)).
  apply not_corner4. assert (a <> 1 /\ b <> 1 /\ d <> 1 /\ e <> 1) by (repeat split; apply K; cbn; tauto). lra.
Qed.
Lemma conv4_2f_reported w1 w2 lo hi : lo <= -1 -> 1 <= hi -> draws 4 w1 -> draws 4 w2 -> mixed w2 ->
  exists fr, conv4_2f_front w1 w2 = Some fr /\ length fr = (length w1 + length w2)%nat /\ forall u, In u fr -> optimal (in_box 4 4 lo hi 0 0) conv4_2f u.
Proof.
  intros Hl Hh H1 H2 Hm. unfold conv4_2f_front.
  destruct (all_some_map normalised w1) as (p & -> & Lp & Hp). { intros r Hr. destruct (draws_in 4 w1 r H1 Hr) as (c & E & _). eauto. }
  destruct (all_some_map normalised w2) as (q & -> & Lq & Hq). { intros r Hr. destruct (draws_in 4 w2 r H2 Hr) as (c & E & _). eauto. }
  set (X := map (fun c => row_mul 4 c (eye 4)) p ++ map (fun c => row_mul 4 c eye_minus_one) q).
  assert (K : forall x, In x X -> exists u, conv4_2f x = Some u /\ front2f u).
  { intros x Hx. unfold X in Hx. apply in_app_iff in Hx. destruct Hx as [Hx|Hx]; apply in_map_iff in Hx; destruct Hx as (c & <- & Hc).
    - apply Hp in Hc. destruct Hc as (r & Hr & Er). destruct (draws_in 4 w1 r H1 Hr) as (c' & E' & L & Hw). rewrite Er in E'. injection E' as <-.
      destruct (length4 c L) as (a & b & d & e & ->). rewrite conv4_point. pose proof (proj1 (weights4 _ _ _ _) Hw). rewrite conv4_2f_pos by lra.
      eexists. split; [reflexivity|]. left. eexists. split; [|reflexivity]. split; auto.
    - apply Hq in Hc. destruct Hc as (r & Hr & Er). destruct (draws_in 4 w2 r H2 Hr) as (c' & E' & L & Hw). rewrite Er in E'. injection E' as <-.
      pose proof (normalised_mixed r c Er Hw (proj1 (Forall_forall _ _) Hm _ Hr) L) as Hn.
      destruct (length4 c L) as (a & b & d & e & ->). pose proof (proj1 (weights4 _ _ _ _) Hw). pose proof (proj1 (not_corner4 _ _ _ _) Hn).
      rewrite conv4_point_neg by lra. rewrite conv4_2f_neg by lra. eexists. split; [reflexivity|]. right. apply moved_moved4. exists [a; b; d; e].
      split; [split; auto; split; auto|]. f_equal. repeat (apply (f_equal2 (@cons R)); [ring|]). reflexivity. }
  destruct (all_some_map conv4_2f X) as (fr & -> & L & H). { intros x Hx. destruct (K x Hx) as (u & E & _). eauto. }
  exists fr. split; auto. split; [rewrite L; unfold X; rewrite app_length, !map_length; lia|].
  intros u Hu. apply H in Hu. destruct Hu as (x & Hx & Ex). destruct (K x Hx) as (v & Ev & Hv). rewrite Ex in Ev. injection Ev as <-.
  apply (proj1 (conv4_2f_front_lemma lo hi Hl Hh)). auto.
Qed.

(** ** DisConnected *)
Lemma disconnected_feasible_iff x : disconnected_feasible x <->
  exists t s, x = [t; s] /\ 0 <= t <= 1 /\ -8 <= s <= 1 /\ (exists g1 g2, disconnected_ieq x = Some [g1; g2] /\ g1 <= 0 /\ g2 <= 0) /\ disconnected_eq x = Some 0.
Proof.
  split.
  - intros (t & s & -> & Ht & Hs & H). exists t, s. split; auto. split; auto. split; auto. cbn [disconnected_ieq disconnected_eq].
    destruct (rleb t 0.5) eqn:E5; destruct (rleb t 0.6) eqn:E6; unfold rleb in *; destruct (Rle_dec t 0.5); destruct (Rle_dec t 0.6); try discriminate; try lra; unfold sq;
      (split; [eexists; eexists; split; [reflexivity|]; lra|f_equal; lra]).
  - intros (t & s & -> & Ht & Hs & (g1 & g2 & Eg & G1 & G2) & Ee). exists t, s. split; auto. split; auto. split; auto. cbn [disconnected_ieq disconnected_eq] in *.
    injection Eg as <- <-. injection Ee as Ee. unfold rleb, sq in *. destruct (Rle_dec t 0.5); destruct (Rle_dec t 0.6); try lra.
Qed.
Lemma disconnected_front_lemma : front disconnected_feasible disconnected arcs.
Proof.
  apply front_intro.
  - intros x (t & s & -> & Ht & Hs & H). exists [t; s]. split; [reflexivity|]. destruct H as [([H| ->] & ->)|(H & ->)].
    + eexists. split; [exists t; left; split; [exact H|reflexivity]|]. apply wdom_refl.
    + exists [4/10; (5 * (4/10) / 2) ^ 2 - 5 * (4/10) + 1]. split; [exists (4/10); left; split; [lra|reflexivity]|]. apply wdom2. lra.
    + eexists. split; [exists t; right; split; [exact H|reflexivity]|]. apply wdom_refl.
  - intros u (t & [(Ht & ->)|(Ht & ->)]).
    + exists [t; (5 * t / 2) ^ 2 - 5 * t + 1]. split; [|reflexivity]. exists t, ((5 * t / 2) ^ 2 - 5 * t + 1). split; auto. split; [lra|]. split; [nra|]. left. auto.
    + exists [t; - 4 - (5 * t / 2) ^ 2]. split; [|reflexivity]. exists t, (- 4 - (5 * t / 2) ^ 2). split; auto. split; [lra|]. split; [nra|]. right. auto.
  - intros u w (t & Hu) (s & Hw) Hd. destruct Hu as [(Ht & ->)|(Ht & ->)]; destruct Hw as [(Hs & ->)|(Hs & ->)]; apply wdom2 in Hd; destruct Hd as (D1 & D2).
    + assert (s = t); [|subst; reflexivity]. nra.
    + exfalso. lra.
    + exfalso. nra.
    + assert (s = t); [|subst; reflexivity]. nra.
Qed.

(** ** ModifiedObjective *)
Lemma vsum_wdom u v : wdom u v -> vsum u <= vsum v.
Proof. unfold wdom, vsum. induction 1; cbn; [lra|]. fold (vsum l) in *. lra. Qed.
Lemma modified_wdom n u v : (0 < n)%nat -> wdom u v -> wdom (modified_row n u) (modified_row n v).
Proof.
  intros Hn H. pose proof (vsum_wdom u v H) as Hs. unfold modified_row, alpha. assert (0 < INR n) by (apply lt_0_INR; auto).
  assert (Hk : 0.02 * vsum u / INR n <= 0.02 * vsum v / INR n) by (apply Rmult_le_compat_r; [apply Rlt_le, Rinv_0_lt_compat; auto|lra]).
  unfold wdom in *. revert Hk. generalize (0.02 * vsum u / INR n) (0.02 * vsum v / INR n). clear Hs. intros p q Hk. induction H; cbn; constructor; auto. lra.
Qed.
Lemma vsum_affine a b l : vsum (map (fun x => a * x + b) l) = a * vsum l + INR (length l) * b.
Proof. unfold vsum. induction l as [|x l IH]; [cbn; lra|]. cbn [map fold_right]. rewrite IH. cbn [length]. rewrite S_INR. lra. Qed.
Lemma modified_sum n u : (0 < n)%nat -> length u = n -> vsum (modified_row n u) = vsum u.
Proof. intros Hn L. unfold modified_row. rewrite vsum_affine, L. field. apply not_0_INR. lia. Qed.
Lemma modified_inj n u v : (0 < n)%nat -> length u = n -> length v = n -> modified_row n u = modified_row n v -> u = v.
Proof.
  intros Hn Lu Lv E. pose proof (f_equal vsum E) as Es. rewrite !modified_sum in Es by auto. unfold modified_row in E. rewrite Es in E.
  revert E. generalize (alpha * vsum v / INR n). intros k. clear Es. revert v Lv. rewrite <- Lu. clear Lu Hn n. induction u as [|a u IH]; intros [|b v] Lv E; try discriminate; auto.
  cbn in E. injection E as E1 E2. f_equal; [unfold alpha in E1; lra|]. apply IH; auto.
Qed.
Lemma modified_optimal n (F : list R -> Prop) f u : (0 < n)%nat -> (forall x v, F x -> f x = Some v -> length v = n) -> attained F f u ->
  optimal F (modified n f) (modified_row n u) -> optimal F f u.
Proof.
  intros Hn Hl Ha (_ & Hu). split; auto. intros x v Fx Ex (Hd & Hne). destruct Ha as (y & Fy & Ey).
  apply (Hu x (modified_row n v) Fx); [unfold modified; rewrite Ex; reflexivity|]. split; [apply modified_wdom; auto|].
  intros E. apply Hne. apply (modified_inj n); auto; [exact (Hl x v Fx Ex)|exact (Hl y u Fy Ey)].
Qed.
