(** Pareto fronts of the DTLZ problems. *)
From Coq Require Import List Arith Bool Reals ZArith Lia Lra Psatz.
From Verif Require Import Num Exn ListAux NewtonModel ProbModel ProbSpec ProbProof.
Import ListNotations.
Open Scope R_scope.

(** * the front generators *)
Lemma ref_dirs_default fuel m (np : option nat) target : (2 <= m)%nat -> (target < fuel)%nat ->
  target = match np with Some (S n) => S n | _ => if (m =? 2)%nat then 100%nat else 496%nat end ->
  exists p dirs, get_ref_dirs fuel m np None = Ok dirs /\ (1 <= p)%nat /\ NoDup dirs /\ (forall y, In y dirs <-> lattice m p y) /\
    length dirs = comb (p + (m - 1)) (m - 1) /\ (target <= length dirs)%nat /\ forall r, (1 <= r < p)%nat -> (comb (r + (m - 1)) (m - 1) < target)%nat.
Proof.
  intros Hm Hf Ht. destruct m as [|[|d]]; [lia|lia|]. unfold get_ref_dirs. cbv zeta. rewrite <- Ht.
  destruct (partitions_ok (S d) target fuel 1 ltac:(lia) ltac:(lia) ltac:(lia)) as (p & E & H1 & H2 & H3). rewrite E. cbn [bind].
  destruct (Nat.eqb_spec p 0); [lia|]. destruct (lattice_dirs (S d) p H1) as (D1 & D2 & D3).
  exists p. eexists. split; [reflexivity|]. split; auto. split; auto. split; auto. replace (S (S d) - 1)%nat with (S d) by lia. split; auto. split; auto. rewrite D2. auto.
Qed.
Lemma simplex_front_points fuel m F y : (2 <= m)%nat -> simplex_front fuel m = Ok F -> In y F -> length y = m /\ Forall (fun a => 0 <= a) y /\ total y = / 2.
Proof.
  intros Hm E Hy. unfold simplex_front in E. destruct (get_ref_dirs fuel m None None) as [D|] eqn:ED; [|discriminate]. cbn [bind] in E. injection E as <-.
  apply in_map_iff in Hy. destruct Hy as (r & <- & Hr).
  assert (Hl : exists p, (1 <= p)%nat /\ lattice m p r).
  { unfold get_ref_dirs in ED. cbv zeta in ED. destruct (partitions fuel m _ 1) as [p|]; [|discriminate]. cbn [bind] in ED. destruct m as [|d]; [lia|]. destruct (Nat.eqb_spec p 0); [discriminate|]. injection ED as <-.
    exists p. split; [lia|]. apply (lattice_dirs d p ltac:(lia)). auto. }
  destruct Hl as (p & Hp & Hl). destruct (lattice_facts m p r Hp Hl) as (L & P & T). split; [rewrite map_length; auto|]. split.
  - apply Forall_forall. intros a Ha. apply in_map_iff in Ha. destruct Ha as (b & <- & Hb). rewrite Forall_forall in P. specialize (P b Hb). lra.
  - rewrite total_scale, T. lra.
Qed.
Lemma sphere_front_points fuel m F y : (2 <= m)%nat -> sphere_front fuel m = Ok F -> In y F -> length y = m /\ Forall (fun a => 0 <= a) y /\ sqnorm y = 1.
Proof.
  intros Hm E Hy. unfold sphere_front in E. destruct (get_ref_dirs fuel m None None) as [D|] eqn:ED; [|discriminate]. cbn [bind] in E. injection E as <-.
  unfold generic_sphere in Hy. apply in_map_iff in Hy. destruct Hy as (r & <- & Hr).
  assert (Hl : exists p, (1 <= p)%nat /\ lattice m p r).
  { unfold get_ref_dirs in ED. cbv zeta in ED. destruct (partitions fuel m _ 1) as [p|]; [|discriminate]. cbn [bind] in ED. destruct m as [|d]; [lia|]. destruct (Nat.eqb_spec p 0); [discriminate|]. injection ED as <-.
    exists p. split; [lia|]. apply (lattice_dirs d p ltac:(lia)). auto. }
  destruct Hl as (p & Hp & Hl). destruct (lattice_facts m p r Hp Hl) as (L & P & T). split; [rewrite map_length; auto|]. split.
  - apply Forall_forall. intros a Ha. apply in_map_iff in Ha. destruct Ha as (b & <- & Hb). rewrite Forall_forall in P. specialize (P b Hb).
    unfold norm2. destruct (Req_dec (sqrt (fold_right (fun a s => a * a + s) 0 r)) 0) as [E0|Hn]; [unfold Rdiv; rewrite E0, Rinv_0; lra|].
    apply Rmult_le_pos; auto. left. apply Rinv_0_lt_compat. pose proof (sqrt_pos (fold_right (fun a s => a * a + s) 0 r)). lra.
  - apply sphere_row. clear - T. induction r as [|a r IH]; [unfold total in T; simpl in T; lra|]. destruct (Req_dec a 0) as [->|Hn]; [|exists a; simpl; auto].
    assert (T' : total r = 1) by (unfold total in *; simpl in T; lra). destruct (IH T') as (b & Hb & Hn). exists b. simpl. auto.
Qed.

(** * decision vectors with optimal distance variables *)
Lemma firstn_row u k opt : firstn (length u) (pareto_row k opt u) = u.
Proof. unfold pareto_row. rewrite firstn_app, Nat.sub_diag, firstn_all. simpl. apply app_nil_r. Qed.
Lemma skipn_row u k opt : skipn (length u) (pareto_row k opt u) = repeat opt k.
Proof. unfold pareto_row. rewrite skipn_app, Nat.sub_diag, skipn_all. auto. Qed.
Lemma row_cube n u : Forall (fun a => 0 <= a <= 1) u -> (length u <= n)%nat -> cube n (pareto_row (n - length u) (/ 2) u).
Proof.
  intros H Hn. unfold cube, pareto_row. split; [rewrite app_length, repeat_length; lia|]. apply Forall_app. split; auto. apply Forall_forall. intros a Ha. apply repeat_spec in Ha. subst. lra.
Qed.
Lemma g_opt n m (u : list R) : length u = (m - 1)%nat -> (1 <= m)%nat -> (m <= n + 1)%nat -> g_sphere (repeat (/ 2) (n - length u)) = 0 /\ g_rastrigin (k_of n m) (repeat (/ 2) (n - length u)) = 0.
Proof.
  intros Hu Hm Hn. assert (Hr : forall a, In a (repeat (/ 2) (n - length u)) -> a = / 2) by (intros a Ha; apply repeat_spec in Ha; auto). split; [apply g_sphere_zero; auto|].
  replace (k_of n m) with (Z.of_nat (length (repeat (/ 2) (n - length u)))) by (rewrite repeat_length; unfold k_of; lia). apply g_rast_zero. auto.
Qed.
Lemma dtlz_at_row sc m g tr n u : length u = (m - 1)%nat -> g (repeat (/ 2) (n - length u)) = 0 ->
  dtlz_obj sc m g tr (pareto_row (n - length u) (/ 2) u) = map (fun p => sc * p) (position (fst (tr u 0)) (snd (tr u 0))).
Proof. intros Hu Hg. unfold dtlz_obj. rewrite <- Hu, firstn_row, skipn_row, Hg. apply map_ext. intros; ring. Qed.
Lemma idtlz_at_row sc m g tr n u : length u = (m - 1)%nat -> g (repeat (/ 2) (n - length u)) = 0 ->
  idtlz_obj sc m g tr (pareto_row (n - length u) (/ 2) u) = map (fun p => / 2 - sc * p) (position (fst (tr u 0)) (snd (tr u 0))).
Proof. intros Hu Hg. unfold idtlz_obj. rewrite <- Hu, firstn_row, skipn_row, Hg. apply map_ext. intros; unfold Rdiv; ring. Qed.

Lemma simplex_positions m y : (1 <= m)%nat -> length y = m -> Forall (fun a => 0 <= a) y -> total y = / 2 ->
  exists u, Forall (fun a => 0 <= a <= 1) u /\ length u = (m - 1)%nat /\ map (fun p => / 2 * p) (position (fst (tr_simplex u 0)) (snd (tr_simplex u 0))) = y.
Proof.
  intros Hm HL HP HT. destruct (Q_simplex (rev (map (fun a => 2 * a) y)) 1) as (u & H1 & H2 & H3).
  - destruct y; simpl in *; [lia|]. intros E. apply (f_equal (@length R)) in E. rewrite app_length in E. simpl in E. lia.
  - apply Forall_rev. apply Forall_forall. intros a Ha. apply in_map_iff in Ha. destruct Ha as (b & <- & Hb). rewrite Forall_forall in HP. specialize (HP b Hb). lra.
  - rewrite total_rev, total_scale, HT. lra.
  - rewrite rev_length, map_length in H2. exists u. split; auto. split; [lia|]. unfold tr_simplex. cbn [fst snd]. rewrite position_Q by (rewrite map_length; auto). rewrite H3, rev_involutive, map_map.
    rewrite (map_ext _ (fun a => a)) by (intros; field). apply map_id.
Qed.
Lemma sphere_positions al m y : (1 <= al)%nat -> (1 <= m)%nat -> length y = m -> Forall (fun a => 0 <= a) y -> sqnorm y = 1 ->
  exists u, Forall (fun a => 0 <= a <= 1) u /\ length u = (m - 1)%nat /\ position (fst (tr_angle al u 0)) (snd (tr_angle al u 0)) = y.
Proof.
  intros Hal Hm HL HP HT. destruct (Q_sphere al Hal (rev y) 1) as (u & H1 & H2 & H3).
  - destruct y; simpl in *; [lia|]. intros E. apply (f_equal (@length R)) in E. rewrite app_length in E. simpl in E. lia.
  - apply Forall_rev. auto.
  - lra.
  - rewrite sqnorm_rev, HT. lra.
  - rewrite rev_length in H2. exists u. split; auto. split; [lia|]. unfold tr_angle. cbn [fst snd]. rewrite position_Q by (rewrite !map_length; auto). rewrite H3. apply rev_involutive.
Qed.
Lemma angle_nonneg al u g : Forall (fun a => 0 <= a <= 1) u -> Forall2 (fun a b => 0 <= a /\ 0 <= b) (fst (tr_angle al u g)) (snd (tr_angle al u g)).
Proof.
  intros H. unfold tr_angle. cbn [fst snd]. apply Forall2_map_same. intros a Ha. rewrite Forall_forall in H. specialize (H a Ha).
  assert (Hp : 0 <= a ^ al <= 1). { split; [apply pow_le; lra|]. replace 1 with (1 ^ al) by apply pow1. apply pow_incr. auto. }
  pose proof PI_RGT_0 as HP. assert (0 <= a ^ al * PI / 2 <= PI / 2). { split; [apply Rmult_le_pos; [apply Rmult_le_pos; lra|lra]|]. assert (a ^ al * PI <= 1 * PI) by (apply Rmult_le_compat_r; lra). lra. }
  split; [apply cos_ge_0; lra|apply sin_ge_0; lra].
Qed.
Lemma cube_firstn n k x : cube n x -> Forall (fun a => 0 <= a <= 1) (firstn k x).
Proof. intros [_ H]. apply Forall_forall. intros a Ha. rewrite Forall_forall in H. apply H. rewrite <- (firstn_skipn k x). apply in_or_app. auto. Qed.
Lemma dtlz_nonneg sc m g al n x : 0 <= sc -> 0 <= g (skipn (m - 1) x) -> cube n x -> Forall (fun a => 0 <= a) (dtlz_obj sc m g (tr_angle al) x).
Proof.
  intros Hs Hg Hx. unfold dtlz_obj. apply Forall_forall. intros a Ha. apply in_map_iff in Ha. destruct Ha as (b & <- & Hb). apply Rmult_le_pos; [apply Rmult_le_pos; lra|].
  rewrite position_Q in Hb by (unfold tr_angle; cbn [fst snd]; rewrite !map_length; auto). apply in_rev in Hb.
  pose proof (Q_nonneg _ _ 1 ltac:(lra) (angle_nonneg al (firstn (m - 1) x) (g (skipn (m - 1) x)) (cube_firstn n _ x Hx))) as HQ. rewrite Forall_forall in HQ. apply HQ. auto.
Qed.

Theorem simplex_front_ok fuel n m F : (2 <= m)%nat -> (m <= n + 1)%nat -> simplex_front fuel m = Ok F -> front_ok (cube n) (dtlz1 n m) F.
Proof.
  intros Hm Hn E y Hy. destruct (simplex_front_points fuel m F y Hm E Hy) as (HL & HP & HT). split.
  - destruct (simplex_positions m y ltac:(lia) HL HP HT) as (u & Hu & Lu & Eu). exists (pareto_row (n - length u) (/ 2) u). split; [apply row_cube; auto; lia|].
    unfold dtlz1. rewrite dtlz_at_row; auto. apply (g_opt n m u); auto; lia.
  - intros x [Hx _] HD. apply dominates_total in HD. unfold dtlz1 in HD. rewrite dtlz_total in HD by apply simplex_pairs. rewrite HT in HD.
    rewrite (k_len n m x) in HD by (auto; lia). pose proof (g_rast_nonneg (skipn (m - 1) x)). lra.
Qed.
Lemma sphere_front_gen fuel n m F al g : (2 <= m)%nat -> (m <= n + 1)%nat -> (1 <= al)%nat -> (forall x : list R, length x = n -> 0 <= g (skipn (m - 1) x)) ->
  (forall u : list R, length u = (m - 1)%nat -> g (repeat (/ 2) (n - length u)) = 0) -> sphere_front fuel m = Ok F -> front_ok (cube n) (dtlz_obj 1 m g (tr_angle al)) F.
Proof.
  intros Hm Hn Hal Hg Hg0 E y Hy. destruct (sphere_front_points fuel m F y Hm E Hy) as (HL & HP & HT). split.
  - destruct (sphere_positions al m y Hal ltac:(lia) HL HP HT) as (u & Hu & Lu & Eu). exists (pareto_row (n - length u) (/ 2) u). split; [apply row_cube; auto; lia|].
    rewrite dtlz_at_row; auto. rewrite Eu. rewrite (map_ext _ (fun a => a)) by (intros; ring). apply map_id.
  - intros x Hx HD. pose proof (Hg x (proj1 Hx)) as Hgx. apply dominates_sqnorm in HD; [|apply (dtlz_nonneg 1 m g al n); auto; lra]. rewrite dtlz_sqnorm in HD by apply angle_pairs. rewrite HT in HD.
    set (v := g (skipn (m - 1) x)) in *. assert (0 <= v * v) by (apply Rmult_le_pos; auto). lra.
Qed.
Theorem sphere_front_ok fuel n m F : (2 <= m)%nat -> (m <= n + 1)%nat -> sphere_front fuel m = Ok F ->
  front_ok (cube n) (dtlz2 n m) F /\ front_ok (cube n) (dtlz3 n m) F /\ front_ok (cube n) (dtlz4 n m) F.
Proof.
  intros Hm Hn E. split; [|split]; eapply (sphere_front_gen fuel n m F); eauto; try lia.
  - intros. apply g_sphere_nonneg.
  - intros u Hu. apply (g_opt n m u); auto; lia.
  - intros x Hx. rewrite (k_len n m x) by (auto; lia). apply g_rast_nonneg.
  - intros u Hu. apply (g_opt n m u); auto; lia.
  - intros. apply g_sphere_nonneg.
  - intros u Hu. apply (g_opt n m u); auto; lia.
Qed.

(** * inverted problems *)
Lemma idtlz_dtlz sc m g tr x : idtlz_obj sc m g tr x = map (fun v => (1 + g (skipn (m - 1) x)) / 2 - v) (dtlz_obj sc m g tr x).
Proof. unfold idtlz_obj, dtlz_obj. rewrite map_map. auto. Qed.
Lemma total_minus c l : total (map (fun v => c - v) l) = INR (length l) * c - total l.
Proof. unfold total. induction l as [|a l IH]; [simpl; ring|]. cbn [map fold_right length]. rewrite S_INR, IH. ring. Qed.
Theorem inverted_front_ok fuel n m F : (2 <= m)%nat -> (m <= n + 1)%nat -> inverted_front (simplex_front fuel m) = Ok F -> front_ok (cube n) (idtlz1 n m) F.
Proof.
  intros Hm Hn E y Hy. unfold inverted_front in E. destruct (simplex_front fuel m) as [F0|] eqn:E0; [|discriminate]. cbn [bind] in E. injection E as <-. apply in_map_iff in Hy. destruct Hy as (z & <- & Hz).
  destruct (simplex_front_points fuel m F0 z Hm E0 Hz) as (HL & HP & HT). split.
  - destruct (simplex_positions m z ltac:(lia) HL HP HT) as (u & Hu & Lu & Eu). exists (pareto_row (n - length u) (/ 2) u). split; [apply row_cube; auto; lia|].
    unfold idtlz1. rewrite idtlz_at_row by (auto; apply (g_opt n m u); auto; lia). rewrite <- Eu, map_map. auto.
  - intros x [Hx _] HD. apply dominates_total in HD. unfold idtlz1 in HD. rewrite idtlz_dtlz, !total_minus, dtlz_total in HD by apply simplex_pairs. rewrite HT, HL in HD.
    rewrite dtlz_length in HD by (intros; apply simplex_len). rewrite Hx in HD. replace (S (Nat.min (m - 1) n)) with m in HD by lia.
    rewrite (k_len n m x) in HD by (auto; lia). pose proof (g_rast_nonneg (skipn (m - 1) x)) as Hg. set (v := g_rastrigin _ _) in *.
    assert (2 <= INR m) by (apply (le_INR 2); auto). assert (0 <= (INR m - 1) * v) by (apply Rmult_le_pos; lra). lra.
Qed.
(** points of the inverted sphere with negative coordinates are not optimal *)
Lemma inverted_dominated n m s : (2 <= m)%nat -> (m <= n)%nat -> length s = m -> sqnorm s = 1 -> Forall (fun a => / 2 < a) s ->
  ~ optimal (cube n) (idtlz2 n m) (map (fun a => / 2 - a) s).
Proof.
  intros Hm Hn HL HT HP Hopt.
  destruct (sphere_positions 1 m s ltac:(lia) ltac:(lia) HL ltac:(eapply Forall_impl; [|exact HP]; simpl; intros; lra) HT) as (u & Hu & Lu & Eu).
  set (x := u ++ repeat 0 (n - length u)).
  assert (Hx : cube n x). { unfold cube, x. split; [rewrite app_length, repeat_length; lia|]. apply Forall_app. split; auto. apply Forall_forall. intros a Ha. apply repeat_spec in Ha. subst. lra. }
  set (g := g_sphere (repeat 0 (n - length u))). assert (Hg : 0 < g).
  { unfold g. destruct (n - length u)%nat as [|k] eqn:Ek; [lia|]. simpl. unfold g_sphere, sumf. cbn [fold_right]. pose proof (g_sphere_nonneg (repeat 0 k)) as H. unfold g_sphere, sumf in H. lra. }
  assert (E : idtlz2 n m x = map (fun a => (1 + g) * (/ 2 - a)) s).
  { unfold idtlz2, idtlz_obj, x. rewrite <- Lu. change (u ++ repeat 0 (n - length u)) with (pareto_row (n - length u) 0 u). rewrite firstn_row, skipn_row. fold g. change (tr_angle 1 u g) with (tr_angle 1 u 0). rewrite Eu. apply map_ext. intros; unfold Rdiv; ring. }
  apply (Hopt x Hx). rewrite E. split.
  - clear - HP Hg. induction HP as [|a s Ha HP IH]; simpl; constructor; auto. assert (0 < g * (a - / 2)) by (apply Rmult_lt_0_compat; lra). lra.
  - destruct s as [|a s]; [simpl in HL; lia|]. simpl. intros E'. injection E' as E1 _. inversion HP; subst. assert (0 < g * (a - / 2)) by (apply Rmult_lt_0_compat; lra). lra.
Qed.
