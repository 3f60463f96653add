(** Optimality for the inverted and the constrained DTLZ problems. *)
From Coq Require Import List Arith Bool Reals ZArith Lia Lra Psatz.
From Verif Require Import Num Exn ListAux NewtonModel ProbModel ProbSpec ProbProof ProbTop.
Import ListNotations.
Open Scope R_scope.

Lemma sqnorm_shift c s : sqnorm (map (fun a => a + c) s) = sqnorm s + 2 * c * total s + INR (length s) * c ^ 2.
Proof. induction s as [|a s IH]; [unfold sqnorm, total; simpl; ring|]. cbn [map length]. rewrite S_INR. unfold sqnorm, total in *. cbn [fold_right]. rewrite IH. ring. Qed.
Lemma sqnorm_nonneg s : 0 <= sqnorm s.
Proof. induction s as [|a s IH]; unfold sqnorm in *; simpl; [lra|]. pose proof (Rle_0_sqr a) as H. unfold Rsqr in H. lra. Qed.
(** Cauchy-Schwarz with the vector of ones *)
Lemma total_sqnorm s : (total s) ^ 2 <= INR (length s) * sqnorm s.
Proof.
  destruct s as [|a0 s0] eqn:E; [unfold total, sqnorm; simpl; lra|]. rewrite <- E.
  assert (Hl : 0 < INR (length s)) by (subst; apply lt_0_INR; simpl; lia).
  pose proof (sqnorm_nonneg (map (fun a => a + - (total s / INR (length s))) s)) as H. rewrite sqnorm_shift in H.
  apply (Rmult_le_compat_l (INR (length s)) _ _ (Rlt_le _ _ Hl)) in H.
  replace (INR (length s) * (sqnorm s + 2 * - (total s / INR (length s)) * total s + INR (length s) * (- (total s / INR (length s))) ^ 2)) with (INR (length s) * sqnorm s - total s ^ 2) in H by (field; lra). lra.
Qed.
Lemma sqnorm_le a b : Forall (fun v => 0 <= v) a -> Forall2 Rle a b -> sqnorm a <= sqnorm b /\ (sqnorm a = sqnorm b -> a = b).
Proof.
  intros P H. induction H as [|x y a b Hxy H IH]; [split; auto; lra|]. inversion P; subst. destruct (IH H3) as [I1 I2]. unfold sqnorm in *. cbn [fold_right].
  assert (x * x <= y * y) by (apply Rmult_le_compat; lra). split; [lra|]. intros E. assert (Exy : (y - x) * (y + x) = 0) by lra.
  assert (x = y). { apply Rmult_integral in Exy. destruct Exy; lra. } subst. f_equal. apply I2. lra.
Qed.

(** the points of the unit sphere *)
Definition on_sphere (m : nat) (s : list R) : Prop := length s = m /\ Forall (fun a => 0 <= a) s /\ sqnorm s = 1.
Lemma position_sphere n m al g x : (1 <= m)%nat -> (m <= n + 1)%nat -> cube n x -> let t := tr_angle al (firstn (m - 1) x) (g : R) in on_sphere m (position (fst t) (snd t)).
Proof.
  intros Hm Hn Hx t.
  assert (E : dtlz_obj 1 m (fun _ => 0) (tr_angle al) x = position (fst t) (snd t)). { unfold dtlz_obj. rewrite (map_ext _ (fun a => a)) by (intros; ring). apply map_id. }
  rewrite <- E. split; [|split].
  - rewrite dtlz_length; [destruct Hx; lia|intros; unfold tr_angle; cbn [fst snd]; rewrite !map_length; auto].
  - apply (dtlz_nonneg 1 m (fun _ => 0) al n); auto; lra.
  - rewrite dtlz_sqnorm by apply angle_pairs. ring.
Qed.

Section Inverted.
Variables (n m al : nat) (g : list R -> R).
Hypothesis Hm : (2 <= m)%nat.
Hypothesis Hn : (m <= n)%nat.
Hypothesis Hal : (1 <= al)%nat.
Hypothesis g0 : forall x, cube n x -> 0 <= g (skipn (m - 1) x).
Hypothesis gmin : g (repeat (/ 2) (n - (m - 1))) = 0.
(** the distance function takes small positive values *)
Hypothesis gsmall : forall e, 0 < e -> exists w, length w = (n - (m - 1))%nat /\ Forall (fun a => 0 <= a <= 1) w /\ 0 < g w < e.
Let F := idtlz_obj 1 m g (tr_angle al).

Lemma inverted_at u w : length u = (m - 1)%nat -> F (u ++ w) = map (fun p => (1 + g w) / 2 - (1 + g w) * p) (position (fst (tr_angle al u 0)) (snd (tr_angle al u 0))).
Proof using. intros Hu. unfold F, idtlz_obj. rewrite <- Hu, firstn_app, Nat.sub_diag, firstn_all, skipn_app, Nat.sub_diag, skipn_all. cbn [firstn skipn app]. rewrite app_nil_r. unfold tr_angle. cbn [fst snd]. apply map_ext. intros; ring. Qed.
Lemma cube_app u w : length u = (m - 1)%nat -> length w = (n - (m - 1))%nat -> Forall (fun a => 0 <= a <= 1) u -> Forall (fun a => 0 <= a <= 1) w -> cube n (u ++ w).
Proof using Hm Hn Hal g0 gmin gsmall. intros L1 L2 H1 H2. split; [rewrite app_length; lia|]. apply Forall_app. auto. Qed.
Lemma inverted_attained s : on_sphere m s -> attained (cube n) F (map (fun a => / 2 - a) s).
Proof using Hm Hn Hal g0 gmin gsmall.
  intros (L & P & S). destruct (sphere_positions al m s Hal ltac:(lia) L P S) as (u & Hu & Lu & Eu). exists (u ++ repeat (/ 2) (n - (m - 1))). split.
  - apply cube_app; auto; [apply repeat_length|]. apply Forall_forall. intros a Ha. apply repeat_spec in Ha. lra.
  - rewrite inverted_at by auto. rewrite Eu, gmin. apply map_ext. intros; unfold Rdiv; ring.
Qed.
Lemma inverted_bad s : on_sphere m s -> total s < 2 -> ~ optimal (cube n) F (map (fun a => / 2 - a) s).
Proof using Hm Hn Hal g0 gmin gsmall.
  intros (L & P & S) HT Hopt. assert (HM : 2 <= INR m) by (apply (le_INR 2); auto).
  destruct (gsmall (4 * (2 - total s) / INR m)) as (w & Lw & Hw & Hg). { apply Rdiv_lt_0_compat; lra. }
  set (c := g w) in *. set (u := map (fun a => a + c / 2) s). assert (Hq : sqnorm u < (1 + c) ^ 2).
  { unfold u. rewrite sqnorm_shift, S, L. assert (INR m * c < 4 * (2 - total s)). { destruct Hg as [_ Hg]. apply (Rmult_lt_compat_l (INR m)) in Hg; [|lra]. replace (INR m * (4 * (2 - total s) / INR m)) with (4 * (2 - total s)) in Hg by (field; lra). auto. }
    assert (INR m * (c / 2) ^ 2 = INR m * c * c / 4) by field. assert (0 < c * c) by (apply Rmult_lt_0_compat; lra).
    assert (INR m * c * c < 4 * (2 - total s) * c) by (apply Rmult_lt_compat_r; lra). nra. }
  assert (Hu : Forall (fun a => 0 < a) u). { unfold u. apply Forall_forall. intros a Ha. apply in_map_iff in Ha. destruct Ha as (b & <- & Hb). rewrite Forall_forall in P. specialize (P b Hb). lra. }
  assert (Hlu : length u = m) by (unfold u; rewrite map_length; auto).
  assert (Hpos : 0 < sqnorm u). { destruct u as [|a u']; [simpl in Hlu; lia|]. inversion Hu; subst. unfold sqnorm. cbn [fold_right]. pose proof (sqnorm_nonneg u') as H. unfold sqnorm in H. assert (0 < a * a) by (apply Rmult_lt_0_compat; lra). lra. }
  set (r := sqrt (sqnorm u)). assert (Hr : 0 < r) by (apply sqrt_lt_R0; auto). assert (Hrr : r * r = sqnorm u) by (apply sqrt_sqrt; lra).
  assert (Hr1 : r < 1 + c). { apply Rnot_le_lt. intros H. assert ((1 + c) * (1 + c) <= r * r) by (apply Rmult_le_compat; lra). lra. }
  set (s' := map (fun a => / r * a) u).
  assert (S' : on_sphere m s').
  { split; [unfold s'; rewrite map_length; auto|]. split.
    - unfold s'. apply Forall_forall. intros a Ha. apply in_map_iff in Ha. destruct Ha as (b & <- & Hb). rewrite Forall_forall in Hu. specialize (Hu b Hb). apply Rmult_le_pos; [left; apply Rinv_0_lt_compat; auto|lra].
    - unfold s'. assert (Esc : forall k l, sqnorm (map (fun a => k * a) l) = k * k * sqnorm l). { intros k l. induction l as [|a l IH]; unfold sqnorm in *; simpl; [ring|]. rewrite IH. ring. } rewrite Esc, <- Hrr. field. lra. }
  destruct S' as (L' & P' & T'). destruct (sphere_positions al m s' Hal ltac:(lia) L' P' T') as (v & Hv & Lv & Ev).
  apply (Hopt (v ++ w)); [apply cube_app; auto|]. rewrite inverted_at by auto. rewrite Ev. fold c. unfold s', u. rewrite !map_map.
  assert (Hlt : forall a, 0 <= a -> (1 + c) / 2 - (1 + c) * (/ r * (a + c / 2)) < / 2 - a).
  { intros a Ha. assert (a + c / 2 < (1 + c) * (/ r * (a + c / 2))); [|lra]. rewrite <- Rmult_assoc. rewrite <- (Rmult_1_l (a + c / 2)) at 1. apply Rmult_lt_compat_r; [lra|]. apply (Rmult_lt_reg_r r); auto. rewrite Rmult_assoc, Rinv_l; lra. }
  split.
  - clearbody r c. clear - P Hlt. unfold leqv. induction P as [|a s Ha P IH]; cbn [map]; [apply Forall2_nil|apply Forall2_cons; [left; exact (Hlt a Ha)|exact IH]].
  - destruct s as [|a s]; [simpl in L; lia|]. simpl. intros E'. injection E' as E1 _. inversion P; subst. specialize (Hlt a H1). lra.
Qed.
Lemma inverted_good s : on_sphere m s -> 2 <= total s -> optimal (cube n) F (map (fun a => / 2 - a) s).
Proof using Hm Hn Hal g0 gmin gsmall.
  intros (L & P & S) HT x Hx [HD HN]. pose proof (g0 x Hx) as Hg. destruct (position_sphere n m al (g (skipn (m - 1) x)) x ltac:(lia) ltac:(lia) Hx) as (L' & P' & S').
  unfold F, idtlz_obj in HD, HN. set (c := g (skipn (m - 1) x)) in *. set (t := position _ _) in *.
  assert (Hle : Forall2 Rle (map (fun a => a + c / 2) s) (map (fun a => (1 + c) * a) t)).
  { clearbody t. clear - HD. unfold leqv in HD. remember (map (fun p => (1 + c) / 2 - 1 * (1 + c) * p) t) as A eqn:EA. remember (map (fun a => / 2 - a) s) as B eqn:EB. revert t s EA EB.
    induction HD as [|a b A B Hab HD IH]; intros [|t0 t] [|s0 s] EA EB; try discriminate; [constructor|]. cbn [map] in *. injection EA as E1 E2. injection EB as E3 E4. constructor; [rewrite E1, E3 in Hab; lra|apply IH; auto]. }
  assert (P1 : Forall (fun v => 0 <= v) (map (fun a => a + c / 2) s)). { apply Forall_forall. intros a Ha. apply in_map_iff in Ha. destruct Ha as (b & <- & Hb). rewrite Forall_forall in P. specialize (P b Hb). lra. }
  destruct (sqnorm_le _ _ P1 Hle) as [Q1 Q2]. rewrite sqnorm_shift, S, L in Q1, Q2.
  assert (Esc : forall k l, sqnorm (map (fun a => k * a) l) = k * k * sqnorm l). { intros k l. induction l as [|a l IH]; unfold sqnorm in *; simpl; [ring|]. rewrite IH. ring. } rewrite Esc, S' in Q1, Q2.
  assert (HM : 4 <= INR m). { pose proof (total_sqnorm s) as H. rewrite S, L in H. assert (2 * 2 <= total s * total s) by (apply Rmult_le_compat; lra). lra. }
  assert (0 <= c * (total s - 2)) by (apply Rmult_le_pos; lra). assert (0 <= c * c * (INR m - 4)) by (apply Rmult_le_pos; [apply Rmult_le_pos; lra|lra]).
  assert (E : map (fun a => a + c / 2) s = map (fun a => (1 + c) * a) t) by (apply Q2; nra).
  apply HN. clearbody t. clear - E. revert t E. induction s as [|a s IH]; intros [|b t] E; try discriminate; auto. simpl in *. injection E as E1 E2. f_equal; [lra|apply IH; auto].
Qed.
Theorem inverted_iff s : on_sphere m s -> (optimal (cube n) F (map (fun a => / 2 - a) s) <-> 2 <= total s).
Proof using Hm Hn Hal g0 gmin gsmall.
  intros Hs. split; [|apply inverted_good; auto]. intros Hopt. apply Rnot_lt_le. intros HT. apply (inverted_bad s Hs HT Hopt).
Qed.
End Inverted.

(** * the two distance functions *)
Lemma sphere_small k e : (1 <= k)%nat -> 0 < e -> exists w, length w = k /\ Forall (fun a => 0 <= a <= 1) w /\ 0 < g_sphere w < e.
Proof.
  intros Hk He. set (h := Rmin (/ 2) (e / 2)). assert (Hh : 0 < h <= / 2 /\ h < e). { unfold h, Rmin. destruct (Rle_dec (/ 2) (e / 2)); lra. }
  exists ((/ 2 + h) :: repeat (/ 2) (k - 1)). split; [simpl; rewrite repeat_length; lia|]. split.
  - constructor; [lra|]. apply Forall_forall. intros a Ha. apply repeat_spec in Ha. lra.
  - unfold g_sphere, sumf. cbn [fold_right]. assert (Hz : fold_right (fun a s => (a - / 2) ^ 2 + s) 0 (repeat (/ 2) (k - 1)) = 0) by (apply (g_sphere_zero (repeat (/ 2) (k - 1))); intros a Ha; apply repeat_spec in Ha; auto).
    rewrite Hz. replace (/ 2 + h - / 2) with h by ring. assert (0 < h * h) by (apply Rmult_lt_0_compat; lra). assert (h * h <= h * / 2) by (apply Rmult_le_compat_l; lra). split; simpl; lra.
Qed.
Lemma rast_small k e : (1 <= k)%nat -> 0 < e -> exists w, length w = k /\ Forall (fun a => 0 <= a <= 1) w /\ 0 < g_rastrigin (Z.of_nat k) w < e.
Proof.
  intros Hk He. set (f := fun h => 100 * (1 + (h ^ 2 - cos (20 * PI * h)))).
  assert (Hc : continuity_pt f 0). { unfold f. reg. }
  destruct (Hc e He) as (d & Hd & H). set (h := Rmin (/ 2) (d / 2)). assert (Hh : 0 < h <= / 2 /\ h < d). { unfold h, Rmin. destruct (Rle_dec (/ 2) (d / 2)); lra. }
  assert (H0 : f 0 = 0). { unfold f. rewrite Rmult_0_r, cos_0. ring. }
  specialize (H h). simpl in H. unfold D_x, no_cond, R_dist in H. rewrite H0, !Rminus_0_r in H. rewrite (Rabs_right h) in H by lra. specialize (H ltac:(split; [split; [auto|lra]|lra])).
  exists ((/ 2 + h) :: repeat (/ 2) (k - 1)). split; [simpl; rewrite repeat_length; lia|]. split.
  - constructor; [lra|]. apply Forall_forall. intros a Ha. apply repeat_spec in Ha. lra.
  - assert (E : g_rastrigin (Z.of_nat k) ((/ 2 + h) :: repeat (/ 2) (k - 1)) = f h).
    { assert (Hz : g_rastrigin (Z.of_nat (length (repeat (/ 2) (k - 1)))) (repeat (/ 2) (k - 1)) = 0) by (apply g_rast_zero; intros a Ha; apply repeat_spec in Ha; auto).
      rewrite repeat_length in Hz. unfold g_rastrigin, sumf in *. cbn [fold_right]. replace (/ 2 + h - / 2) with h by ring. unfold f.
      replace (IZR (Z.of_nat k)) with (IZR (Z.of_nat (k - 1)) + 1) by (rewrite <- plus_IZR; f_equal; lia). lra. }
    rewrite E. pose proof (COS_bound (20 * PI * h)) as [_ Hcos]. assert (0 < h * h) by (apply Rmult_lt_0_compat; lra). assert (0 < f h) by (unfold f; simpl; lra). rewrite Rabs_right in H by lra. lra.
Qed.

Theorem inverted_all n m s : (2 <= m)%nat -> (m <= n)%nat -> on_sphere m s ->
  (forall f, f = idtlz2 n m \/ f = idtlz3 n m \/ f = idtlz4 n m -> attained (cube n) f (map (fun a => / 2 - a) s) /\ (optimal (cube n) f (map (fun a => / 2 - a) s) <-> 2 <= total s)).
Proof.
  intros Hm Hn Hs f Hf.
  assert (Gs : forall x, cube n x -> 0 <= g_sphere (skipn (m - 1) x)) by (intros; apply g_sphere_nonneg).
  assert (Gr : forall x, cube n x -> 0 <= g_rastrigin (k_of n m) (skipn (m - 1) x)) by (intros x [Hx _]; rewrite (k_len n m x) by (auto; lia); apply g_rast_nonneg).
  destruct (g_opt n m (repeat 0 (m - 1)) ltac:(apply repeat_length) ltac:(lia) ltac:(lia)) as [Z1 Z2]. rewrite repeat_length in Z1, Z2.
  assert (Ek : k_of n m = Z.of_nat (n - (m - 1))) by (unfold k_of; lia).
  assert (Gen : forall al g, (1 <= al)%nat -> (forall x, cube n x -> 0 <= g (skipn (m - 1) x)) -> g (repeat (/ 2) (n - (m - 1))) = 0 ->
    (forall e, 0 < e -> exists w, length w = (n - (m - 1))%nat /\ Forall (fun a => 0 <= a <= 1) w /\ 0 < g w < e) ->
    attained (cube n) (idtlz_obj 1 m g (tr_angle al)) (map (fun a => / 2 - a) s) /\ (optimal (cube n) (idtlz_obj 1 m g (tr_angle al)) (map (fun a => / 2 - a) s) <-> 2 <= total s)).
  { intros al g A1 A2 A3 A4. split; [apply inverted_attained; auto|apply inverted_iff; auto]. }
  destruct Hf as [-> | [-> | ->]]; apply Gen; auto; try lia; intros e He.
  - apply sphere_small; auto; lia.
  - rewrite Ek. apply rast_small; auto; lia.
  - apply sphere_small; auto; lia.
Qed.
(** with two or three objectives no reported vector is optimal *)
Lemma total_small m s : on_sphere m s -> (m <= 3)%nat -> total s < 2.
Proof.
  intros (L & P & S) Hm. pose proof (total_sqnorm s) as H. rewrite S, L in H. assert (INR m <= 3) by (apply (le_INR m 3) in Hm; simpl in Hm; lra).
  apply Rnot_le_lt. intros HT. assert (2 * 2 <= total s * total s) by (apply Rmult_le_compat; lra). lra.
Qed.

(** * the first corner of the reported fronts and the equality constraint *)
Definition corner (m : nat) : list R := 1 :: repeat 0 (m - 1).
Lemma corner_lattice m p : (1 <= m)%nat -> (1 <= p)%nat -> lattice m p (corner m).
Proof.
  intros Hm Hp. exists (p :: repeat 0%nat (m - 1)). split; [simpl; rewrite repeat_length; lia|]. split.
  - cbn [fold_right]. assert (E : forall k, fold_right Nat.add 0%nat (repeat 0%nat k) = 0%nat) by (induction k; simpl; auto). rewrite E. lia.
  - unfold corner. cbn [map]. assert (0 < INR p) by (apply lt_0_INR; lia). f_equal; [field; lra|]. assert (E : forall k, repeat 0 k = map (fun v => INR v / INR p) (repeat 0%nat k)) by (induction k as [|k IH]; [auto|cbn [repeat map]; rewrite IH; f_equal; simpl; unfold Rdiv; ring]). auto.
Qed.
Lemma Q_corner : forall x1 x2, Forall2 (fun a b => b = 0 -> a = 1) x1 x2 -> Q 1 x1 x2 = repeat 0 (length x2) ++ [1] -> Forall (fun b => b = 0) x2.
Proof.
  intros x1 x2 H. induction H as [|a b x1 x2 Hab H IH]; [constructor|]. cbn [Q length repeat app]. rewrite !Rmult_1_l. intros E. injection E as E1 E2. rewrite (Hab E1) in E2. constructor; auto.
Qed.
Lemma position_corner m x1 x2 : length x1 = (m - 1)%nat -> length x2 = (m - 1)%nat -> Forall2 (fun a b => b = 0 -> a = 1) x1 x2 -> position x1 x2 = corner m -> Forall (fun b => b = 0) x2.
Proof.
  intros L1 L2 H E. apply (Q_corner x1); auto. rewrite position_Q in E by lia. rewrite <- (rev_involutive (Q 1 x1 x2)), E. unfold corner. cbn [rev]. rewrite L2. f_equal.
  clear. assert (E : forall k, rev (repeat 0 k) = repeat 0 k) by (intros k; induction k as [|k IH]; [auto|cbn [repeat rev]; rewrite IH; clear; induction k; simpl; auto; f_equal; auto]). apply E.
Qed.
Lemma corner_infeasible m n x : (2 <= m)%nat -> (m <= n + 1)%nat -> length x = n -> Forall (fun a => a = 0 \/ a = 1) (firstn (m - 1) x) -> eq1 m x <> 0.
Proof.
  intros Hm Hn Hx H. unfold eq1. assert (Hs : sumf (fun a => (a - / 2) ^ 2) (firstn (m - 1) x) = INR (m - 1) * / 4).
  { replace (m - 1)%nat with (length (firstn (m - 1) x)) at 2 by (rewrite firstn_length; lia). revert H. generalize (firstn (m - 1) x) as l. induction l as [|a l IH]; intros H; [unfold sumf; simpl; ring|]. inversion H; subst. cbn [length]. rewrite S_INR. unfold sumf in *. cbn [fold_right]. rewrite (IH H3). destruct H2; subst; field. }
  rewrite Hs. assert (1 <= INR (m - 1)) by (apply (le_INR 1); lia). rewrite Rabs_right; lra.
Qed.
Lemma angle_corner n m al (gv : R) x : (2 <= m)%nat -> (m <= n + 1)%nat -> (1 <= al)%nat -> cube n x ->
  position (fst (tr_angle al (firstn (m - 1) x) gv)) (snd (tr_angle al (firstn (m - 1) x) gv)) = corner m -> eq1 m x <> 0.
Proof.
  intros Hm Hn Hal Hx E. pose proof (cube_firstn n (m - 1) x Hx) as Hc. destruct Hx as [Lx _].
  assert (Ll : length (firstn (m - 1) x) = (m - 1)%nat) by (rewrite firstn_length; lia).
  apply (corner_infeasible m n); auto. apply position_corner in E; [|unfold tr_angle; cbn [fst snd]; rewrite map_length; auto|unfold tr_angle; cbn [fst snd]; rewrite map_length; auto|].
  - unfold tr_angle in E. cbn [snd] in E. rewrite Forall_forall in E, Hc |- *. intros a Ha. specialize (Hc a Ha). specialize (E _ (in_map _ _ _ Ha)). cbn beta in E. left.
    assert (Hp : 0 <= a ^ al <= 1). { split; [apply pow_le; lra|]. replace 1 with (1 ^ al) by apply pow1. apply pow_incr. auto. }
    pose proof PI_RGT_0 as HP. destruct (Req_dec a 0) as [|Hna]; auto. exfalso. assert (0 < a ^ al) by (apply pow_lt; lra).
    assert (0 < a ^ al * PI) by (apply Rmult_lt_0_compat; lra). assert (a ^ al * PI <= 1 * PI) by (apply Rmult_le_compat_r; lra). assert (0 < sin (a ^ al * PI / 2)) by (apply sin_gt_0; lra). lra.
  - pose proof (angle_pairs al (firstn (m - 1) x) gv) as H1. pose proof (angle_nonneg al (firstn (m - 1) x) gv Hc) as H2. revert H1 H2. generalize (fst (tr_angle al (firstn (m - 1) x) gv)) (snd (tr_angle al (firstn (m - 1) x) gv)).
    intros A B H1. induction H1 as [|a b A B Hab H1 IH]; intros H2; constructor; inversion H2; subst; auto. intros ->. assert (Hz : (a - 1) * (a + 1) = 0) by lra. apply Rmult_integral in Hz. destruct Hz; lra.
Qed.
Lemma simplex_corner n m (gv : R) x : (2 <= m)%nat -> (m <= n + 1)%nat -> cube n x ->
  position (fst (tr_simplex (firstn (m - 1) x) gv)) (snd (tr_simplex (firstn (m - 1) x) gv)) = corner m -> eq1 m x <> 0.
Proof.
  intros Hm Hn [Lx _] E. assert (Ll : length (firstn (m - 1) x) = (m - 1)%nat) by (rewrite firstn_length; lia).
  apply (corner_infeasible m n); auto. unfold tr_simplex in E. cbn [fst snd] in E. apply position_corner in E; [|auto|rewrite map_length; auto|].
  - rewrite Forall_forall in E |- *. intros a Ha. specialize (E _ (in_map _ _ _ Ha)). cbn beta in E. right. lra.
  - generalize (firstn (m - 1) x). induction l; simpl; constructor; auto. intros; lra.
Qed.
Lemma map_inj (f : R -> R) a b : (forall u v, f u = f v -> u = v) -> map f a = map f b -> a = b.
Proof. intros Hf. revert b. induction a as [|x a IH]; intros [|y b] E; try discriminate; auto. simpl in E. injection E as E1 E2. f_equal; auto. Qed.
Lemma corner_facts m : total (corner m) = 1 /\ sqnorm (corner m) = 1 /\ length (corner m) = S (m - 1) /\ Forall (fun a => 0 <= a) (corner m).
Proof.
  unfold corner, total, sqnorm. cbn [fold_right length]. rewrite repeat_length.
  assert (E1 : forall k, fold_right Rplus 0 (repeat 0 k) = 0) by (induction k as [|k IH]; simpl; [auto|rewrite IH; ring]).
  assert (E2 : forall k, fold_right (fun a s => a * a + s) 0 (repeat 0 k) = 0) by (induction k as [|k IH]; simpl; [auto|rewrite IH; ring]). rewrite E1, E2. repeat split; try ring.
  constructor; [lra|]. apply Forall_forall. intros a Ha. apply repeat_spec in Ha. lra.
Qed.
Lemma sphere_corner_g n m al g x : (2 <= m)%nat -> (m <= n + 1)%nat -> (1 <= al)%nat -> cube n x -> 0 <= g (skipn (m - 1) x) -> dtlz_obj 1 m g (tr_angle al) x = corner m -> eq1 m x <> 0.
Proof.
  intros Hm Hn Hal Hx Hg E. pose proof (dtlz_sqnorm 1 m g (tr_angle al) x (angle_pairs al _ _)) as Q. rewrite E in Q. destruct (corner_facts m) as (_ & Q2 & _). rewrite Q2 in Q.
  set (gv := g (skipn (m - 1) x)) in *. assert (gv = 0). { assert (Hz : gv * (gv + 2) = 0) by lra. apply Rmult_integral in Hz. destruct Hz; lra. }
  apply (angle_corner n m al gv); auto. unfold dtlz_obj in E. fold gv in E. rewrite (map_ext _ (fun a => a)) in E by (intros; rewrite H; ring). rewrite map_id in E. auto.
Qed.
Lemma isphere_corner_g n m al g x : (2 <= m <= 4)%nat -> (m <= n + 1)%nat -> (1 <= al)%nat -> cube n x -> 0 <= g (skipn (m - 1) x) -> idtlz_obj 1 m g (tr_angle al) x = map (fun a => / 2 - a) (corner m) -> eq1 m x <> 0.
Proof.
  intros Hm Hn Hal Hx Hg E. set (gv := g (skipn (m - 1) x)) in *.
  destruct (position_sphere n m al gv x ltac:(lia) ltac:(lia) Hx) as (L' & P' & S'). unfold idtlz_obj in E. fold gv in E. pose proof (angle_corner n m al gv x ltac:(lia) Hn Hal Hx) as HA. set (t := position _ _) in *.
  assert (E' : map (fun a => (1 + gv) * a) t = map (fun a => a + gv / 2) (corner m)).
  { clearbody t. clear - E. revert E. generalize (corner m) as s. revert t. induction t as [|a t IH]; intros [|b s] E; try discriminate; auto. cbn [map] in *. injection E as E1 E2. f_equal; [lra|apply IH; auto]. }
  assert (Esc : forall k l, sqnorm (map (fun a => k * a) l) = k * k * sqnorm l). { intros k l. induction l as [|a l IH]; unfold sqnorm in *; simpl; [ring|]. rewrite IH. ring. }
  destruct (corner_facts m) as (T2 & Q2 & L2 & _). pose proof (f_equal sqnorm E') as Q. rewrite Esc, S', sqnorm_shift, Q2, T2, L2 in Q. replace (S (m - 1)) with m in Q by lia.
  assert (INR m <= 4) by (destruct Hm as [_ Hm]; apply (le_INR m 4) in Hm; simpl in Hm; lra).
  assert (gv = 0). { assert (0 <= gv * gv * (4 - INR m)) by (apply Rmult_le_pos; [apply Rmult_le_pos; auto|lra]). nra. }
  apply HA. rewrite H0 in E'. rewrite (map_ext _ (fun a => a)), map_id in E' by (intros; ring). rewrite E'. rewrite (map_ext _ (fun a => a)) by (intros; lra). apply map_id.
Qed.
Lemma simplex_corner_g n m g x : (2 <= m)%nat -> (m <= n + 1)%nat -> cube n x -> dtlz_obj (/ 2) m g tr_simplex x = map (fun a => / 2 * a) (corner m) -> eq1 m x <> 0.
Proof.
  intros Hm Hn Hx E. pose proof (dtlz_total (/ 2) m g tr_simplex x (simplex_pairs _ _)) as Q. rewrite E, total_scale in Q. destruct (corner_facts m) as (T2 & _). rewrite T2 in Q.
  set (gv := g (skipn (m - 1) x)) in *. assert (gv = 0) by lra. apply (simplex_corner n m gv); auto. unfold dtlz_obj in E. fold gv in E. apply (map_inj (fun a => / 2 * a)); [intros; lra|]. rewrite <- E. apply map_ext. intros; rewrite H; ring.
Qed.
Lemma isimplex_corner_g n m g x : (2 <= m)%nat -> (m <= n + 1)%nat -> cube n x -> idtlz_obj (/ 2) m g tr_simplex x = map (fun a => / 2 - a) (map (fun a => / 2 * a) (corner m)) -> eq1 m x <> 0.
Proof.
  intros Hm Hn Hx E. pose proof (f_equal total E) as Q. rewrite idtlz_dtlz, !total_minus, total_scale, dtlz_total in Q by apply simplex_pairs. rewrite dtlz_length in Q by (intros; apply simplex_len). destruct (corner_facts m) as (T2 & _ & L2 & _). rewrite map_length, T2, L2 in Q.
  destruct Hx as [Lx Hx]. rewrite Lx in Q. replace (S (Nat.min (m - 1) n)) with m in Q by lia. replace (S (m - 1)) with m in Q by lia.
  set (gv := g (skipn (m - 1) x)) in *. assert (2 <= INR m) by (apply (le_INR 2); auto). assert (gv = 0). { assert (Hz : gv * (INR m - 1) = 0) by lra. apply Rmult_integral in Hz. destruct Hz; lra. }
  apply (simplex_corner n m gv); auto; [split; auto|]. unfold idtlz_obj in E. fold gv in E. rewrite map_map in E. apply (map_inj (fun a => / 2 - / 2 * a)); [intros; lra|]. rewrite <- E. apply map_ext. intros; rewrite H0; unfold Rdiv; ring.
Qed.

(** the corner is reported *)
Lemma reported_corner fuel m D : (2 <= m)%nat -> get_ref_dirs fuel m None None = Ok D -> In (corner m) D.
Proof.
  intros Hm E. unfold get_ref_dirs in E. cbv zeta in E. destruct (partitions fuel m _ 1) as [p|]; [|discriminate]. cbn [bind] in E. destruct m as [|d]; [lia|]. destruct (Nat.eqb_spec p 0); [discriminate|]. injection E as <-.
  apply (lattice_dirs d p ltac:(lia)). apply corner_lattice; lia.
Qed.
Lemma corner_norm m : map (fun a => a / norm2 (corner m)) (corner m) = corner m.
Proof.
  destruct (corner_facts m) as (_ & S & _). unfold norm2. unfold sqnorm in S. rewrite S, sqrt_1. rewrite (map_ext _ (fun a => a)) by (intros; field). apply map_id.
Qed.
Lemma simplex_reports fuel m F : (2 <= m)%nat -> simplex_front fuel m = Ok F -> In (map (fun a => / 2 * a) (corner m)) F.
Proof. intros Hm E. unfold simplex_front in E. destruct (get_ref_dirs fuel m None None) as [D|] eqn:ED; [|discriminate]. cbn [bind] in E. injection E as <-. apply in_map. apply (reported_corner fuel); auto. Qed.
Lemma sphere_reports fuel m F : (2 <= m)%nat -> sphere_front fuel m = Ok F -> In (corner m) F.
Proof. intros Hm E. unfold sphere_front in E. destruct (get_ref_dirs fuel m None None) as [D|] eqn:ED; [|discriminate]. cbn [bind] in E. injection E as <-. rewrite <- corner_norm. unfold generic_sphere. apply (in_map (fun r => map (fun a => a / norm2 r) r)). apply (reported_corner fuel); auto. Qed.

(** [y] is reported for the problem [f] with the equality constraint but attained by no feasible vector *)
Definition infeasible_row (n m : nat) (f : list R -> list R) (F : list (list R)) : Prop := exists y, In y F /\ forall x, cube n x -> f x = y -> eq1 m x <> 0.
Theorem constrained_rows fuel n m FS FA : (2 <= m)%nat -> (m <= n + 1)%nat -> simplex_front fuel m = Ok FS -> sphere_front fuel m = Ok FA ->
  infeasible_row n m (dtlz1 n m) FS /\ infeasible_row n m (dtlz2 n m) FA /\ infeasible_row n m (dtlz3 n m) FA /\ infeasible_row n m (dtlz4 n m) FA /\
  (forall I, inverted_front (Ok FS) = Ok I -> infeasible_row n m (idtlz1 n m) I) /\
  (forall I, (m <= 4)%nat -> inverted_front (Ok FA) = Ok I -> infeasible_row n m (idtlz2 n m) I /\ infeasible_row n m (idtlz3 n m) I /\ infeasible_row n m (idtlz4 n m) I).
Proof.
  intros Hm Hn ES EA. pose proof (simplex_reports fuel m FS Hm ES) as IS. pose proof (sphere_reports fuel m FA Hm EA) as IA.
  assert (Gr : forall x, cube n x -> 0 <= g_rastrigin (k_of n m) (skipn (m - 1) x)) by (intros x [Hx _]; rewrite (k_len n m x) by (auto; lia); apply g_rast_nonneg).
  split; [|split; [|split; [|split; [|split]]]].
  - eexists. split; [exact IS|]. intros x Hx E. eapply simplex_corner_g; eauto.
  - eexists. split; [exact IA|]. intros x Hx E. eapply (sphere_corner_g n m 1 g_sphere); eauto. apply g_sphere_nonneg.
  - eexists. split; [exact IA|]. intros x Hx E. eapply (sphere_corner_g n m 1); eauto.
  - eexists. split; [exact IA|]. intros x Hx E. eapply (sphere_corner_g n m 100 g_sphere); eauto; [lia|]. apply g_sphere_nonneg.
  - intros I EI. unfold inverted_front in EI. cbn [bind] in EI. injection EI as <-. eexists. split; [apply in_map; exact IS|]. intros x Hx E. eapply isimplex_corner_g; eauto.
  - intros I H4 EI. unfold inverted_front in EI. cbn [bind] in EI. injection EI as <-. split; [|split]; (eexists; split; [apply in_map; exact IA|]; intros x Hx E).
    + eapply (isphere_corner_g n m 1 g_sphere); eauto. apply g_sphere_nonneg.
    + eapply (isphere_corner_g n m 1); eauto.
    + eapply (isphere_corner_g n m 100 g_sphere); eauto; [lia|]. apply g_sphere_nonneg.
Qed.
