(** The modelled WFG problems are the published ones. *)
From Coq Require Import List Arith Bool Reals ZArith Lia Lra Psatz Permutation.
From Verif Require Import ListAux ProbModel NewtonModel BenchModel BenchSpec BenchBase BenchTrig WfgSpec WfgModel WfgBase WfgShape WfgStage WfgFront WfgMain FormSpec FormProof FormWfgSpec.
Import ListNotations.
Open Scope R_scope.

(** * transformations of numbers *)
Definition gives {A} (f : A -> option R) (g : A -> R) (a : A) : Prop := f a = Some (g a) /\ unit (g a).
Lemma linear_gives v : unit v -> gives (shift_linear 0.35) (SLinear 0.35) v.
Proof.
  intros H. assert (E : SLinear 0.35 v = if Rle_dec v 0.35 then (0.35 - v) / 0.35 else (v - 0.35) / 0.65).
  { destruct H. unfold SLinear. change (Floor (0.35 - v)) with (flr (0.35 - v)). destruct (Rle_dec v 0.35).
    - rewrite flr_0 by lra. rewrite Rabs_left1, (Rabs_right (0 + 0.35)) by lra. lra.
    - rewrite flr_m1 by lra. rewrite Rabs_right, (Rabs_left (-1 + 0.35)) by lra. f_equal. lra. }
  split; rewrite E; [apply shift_linear_spec; auto|]. destruct H. destruct (Rle_dec v 0.35); split; lra.
Qed.
Lemma decept_gives v : unit v -> gives (shift_deceptive 0.35 0.001 0.05) (SDecept 0.35 0.001 0.05) v.
Proof.
  intros H. assert (E : SDecept 0.35 0.001 0.05 v = dec_val v).
  { destruct H as (H0 & H1). unfold SDecept. change Floor with flr. unfold dec_val. destruct (Rlt_dec v 0.349); [|destruct (Rle_dec v 0.351)].
    - rewrite flr_m1, flr_0 by lra. rewrite Rabs_left by lra. lra.
    - rewrite !flr_0 by lra. lra.
    - rewrite flr_0, flr_m1 by lra. rewrite Rabs_right by lra. lra. }
  split; rewrite E; [apply shift_deceptive_spec; auto|apply dec_val_unit; auto].
Qed.
Lemma multi_gives B v : 0 <= B -> unit v -> gives (shift_multi_modal 30 B 0.35) (SMulti 30 B 0.35) v.
Proof.
  intros HB H. assert (E : SMulti 30 B 0.35 v = mm_val B (if Rle_dec v 0.35 then (0.35 - v) / 0.7 else - ((v - 0.35) / 1.3))).
  { destruct H as (H0 & H1). unfold SMulti. change Floor with flr. cbv zeta. assert (Es : Rabs (v - 0.35) / (2 * (flr (0.35 - v) + 0.35)) = if Rle_dec v 0.35 then (0.35 - v) / 0.7 else - ((v - 0.35) / 1.3)).
    { destruct (Rle_dec v 0.35). - rewrite flr_0, Rabs_left1 by lra. lra. - rewrite flr_m1, Rabs_right by lra. replace (2 * (-1 + 0.35)) with (- (1.3)) by lra. unfold Rdiv. rewrite <- Ropp_inv_permute by lra. lra. }
    rewrite Es. unfold mm_val. replace ((4 * 30 + 2) * PI) with (122 * PI) by lra. replace 0.5 with (/ 2) by lra. f_equal. f_equal. ring. }
  split; rewrite E; [apply shift_multi_spec; auto|]. apply mm_val_unit; auto. destruct H. destruct (Rle_dec v 0.35); split; lra.
Qed.
Lemma flat_gives v : unit v -> gives (bias_flat 0.8 0.75 0.85) (BFlat 0.8 0.75 0.85) v.
Proof.
  intros (H0 & H1). assert (U : unit (BFlat 0.8 0.75 0.85 v)).
  { unfold BFlat. change Floor with flr. destruct (Rlt_dec v 0.75); [|destruct (Rle_dec v 0.85)].
    - rewrite flr_m1, flr_0 by lra. rewrite Rmin_right, Rmin_left by lra. split; lra.
    - rewrite !flr_0 by lra. rewrite Rmin_left by lra. split; lra.
    - rewrite flr_0, flr_m1 by lra. rewrite Rmin_left, Rmin_right by lra. split; lra. }
  split; auto. unfold bias_flat. rewrite !div_some by lra. f_equal. rewrite <- (correct01_id (BFlat 0.8 0.75 0.85 v)) by auto. reflexivity.
Qed.
Lemma power_gives v e : unit v -> 0 < e -> pow_pos v e = Some (power v e) /\ unit (power v e).
Proof.
  intros (H0 & H1) He. unfold power. destruct (Req_EM_T v 0) as [->|Hv]; [split; [apply pow_zero; auto|split; lra]|]. assert (0 < v) by lra. split; [apply pow_some; auto|]. pose proof (Rpower_unit v e ltac:(lra) He). split; lra.
Qed.
Lemma poly_gives v : unit v -> gives (bias_poly 0.02) (BPoly 0.02) v.
Proof. intros H. destruct (power_gives v 0.02 H ltac:(lra)) as [E U]. split; auto. unfold bias_poly. rewrite E, correct01_id; auto. Qed.
Definition Par : R -> R -> R := BParam (0.98 / 49.98) 0.02 50.
Lemma param_gives v u : unit v -> unit u -> param_dependent v u = Some (Par v u) /\ unit (Par v u).
Proof.
  intros H Hu. pose proof (pd_exponent_pos u Hu) as Hp. assert (E : Par v u = power v (pd_exponent u)).
  { unfold Par, BParam, pd_exponent. cbv zeta. change Floor with flr. replace 0.5 with (/ 2) by lra. reflexivity. }
  destruct (power_gives v (pd_exponent u) H ltac:(lra)) as [E1 U]. rewrite E. split; auto. unfold param_dependent. rewrite E1, correct01_id; auto.
Qed.

(** * reductions *)
Definition units (Y : nat -> R) (J : list nat) : Prop := forall j, In j J -> unit (Y j).
Lemma units_forall Y J : units Y J -> Forall unit (map Y J).
Proof. intros H. apply Forall_map, Forall_forall. auto. Qed.
Definition one (_ : nat) : R := 1.
Definition twice (j : nat) : R := 2 * INR j.
Lemma sum_one J : Sum J one = INR (length J).
Proof. unfold Sum, one. induction J; [reflexivity|]. cbn [map fold_right length]. rewrite IHJ, S_INR. ring. Qed.
Lemma uniform_gives Y J : J <> [] -> units Y J -> uniform_sum (map Y J) = Some (RSum one Y J) /\ unit (RSum one Y J).
Proof.
  intros HJ H. assert (Hn : map Y J <> []) by (destruct J; [congruence|discriminate]). destruct (uniform_unit (map Y J) Hn (units_forall _ _ H)) as (m & E & E1 & U).
  assert (Em : m = RSum one Y J). { unfold mean in E. destruct (map Y J) eqn:Ej; [congruence|]. rewrite <- Ej in E. injection E as <-. rewrite map_length. unfold RSum. rewrite sum_one. f_equal. unfold Sum, vsum. f_equal. apply map_ext. intros. unfold one. ring. }
  rewrite <- Em. auto.
Qed.
Lemma weighted_gives Y J : J <> [] -> (forall j, In j J -> (1 <= j)%nat) -> units Y J -> weighted_sum (map Y J) (map twice J) = Some (RSum twice Y J) /\ unit (RSum twice Y J).
Proof.
  intros HJ Hj H. assert (W : Forall (fun b => 0 < b) (map twice J)). { apply Forall_map, Forall_forall. intros j Hin. unfold twice. specialize (Hj j Hin). apply lt_0_INR in Hj. lra. }
  destruct (weighted_unit (map Y J) (map twice J)) as (r & E & U); auto; [destruct J; [congruence|discriminate]|rewrite !map_length; auto|apply units_forall; auto|].
  assert (Hp : 0 < vsum (map twice J)) by (apply vsum_pos; auto; destruct J; [congruence|discriminate]).
  assert (Ez : vsum (zip_with Rmult (map Y J) (map twice J)) = Sum J (fun j => twice j * Y j)). { unfold vsum, Sum. clear. induction J; cbn [map zip_with fold_right]; auto. rewrite IHJ. ring. }
  assert (B := wsum_bounds (map Y J) (map twice J) ltac:(rewrite !map_length; auto) (units_forall _ _ H) W).
  assert (Ur : unit (RSum twice Y J)). { unfold RSum. rewrite <- Ez. change (Sum J twice) with (vsum (map twice J)). split; [apply Rmult_le_pos; [lra|left; apply Rinv_0_lt_compat; lra]|]. apply Rmult_le_reg_r with (vsum (map twice J)); auto. unfold Rdiv. rewrite Rmult_assoc, Rinv_l by lra. lra. }
  split; auto. unfold weighted_sum. rewrite div_some by lra. rewrite Ez. change (vsum (map twice J)) with (Sum J twice). fold (RSum twice Y J). rewrite correct01_id; auto.
Qed.
Lemma inner_sum (y : list R) c : (c < length y)%nat ->
  vsum (map (fun o => Rabs (nth c y 0 - nth ((c + o + 1) mod length y) y 0)) (seq 0 (length y - 1))) = vsum (map (fun b => Rabs (nth c y 0 - b)) y).
Proof.
  intros Hc. set (n := length y) in *. transitivity (vsum (map (fun o => Rabs (nth c y 0 - nth ((c + o + 1) mod n) y 0)) (seq 0 n))).
  - assert (Es : seq 0 n = seq 0 (n - 1) ++ [(n - 1)%nat]) by (rewrite <- seq_S; f_equal; lia). rewrite Es, map_app, vsum_app. cbn [map]. replace ((c + (n - 1) + 1) mod n)%nat with c by (apply Nat.mod_unique with 1%nat; lia).
    replace (nth c y 0 - nth c y 0) with 0 by ring. rewrite Rabs_R0. unfold vsum at 3. cbn. ring.
  - rewrite <- (map_as_seq (fun b => Rabs (nth c y 0 - b)) y). fold n.
    rewrite <- (map_map (fun o => ((c + o + 1) mod n)%nat) (fun i => Rabs (nth c y 0 - nth i y 0))). apply vsum_perm. apply Permutation_map. apply rotation. lia.
Qed.
Lemma nth_map_in (Y : nat -> R) J p : (p < length J)%nat -> Y (nth p J 0%nat) = nth p (map Y J) 0.
Proof. intros H. rewrite (nth_indep _ 0 (Y 0%nat)) by (rewrite map_length; auto). rewrite map_nth. auto. Qed.
Lemma nonsep_gives Y J : J <> [] -> units Y J -> non_separable (length J) (map Y J) = Some (RNonSep (length J) Y J) /\ unit (RNonSep (length J) Y J).
Proof.
  intros HJ H. set (y := map Y J). assert (Hy : y <> []) by (unfold y; destruct J; [congruence|discriminate]). assert (Ly : length y = length J) by apply map_length.
  pose proof (units_forall _ _ H) as Uy. fold y in Uy. destruct (non_separable_eq y Hy) as [Hd E]. pose proof (spread_nonneg y Uy) as S0. pose proof (spread_bound y Uy) as S1. cbv zeta in Hd, E, S1.
  assert (Hn : (1 <= length J)%nat) by (destruct J; [congruence|simpl; lia]).
  assert (Er : RNonSep (length J) Y J = spread y / (INR ((length y + 1) / 2) * (1 + 2 * INR (length y) - 2 * INR ((length y + 1) / 2)))).
  { unfold RNonSep, Ceil2. cbv zeta. rewrite Ly. assert (HR : INR (length J) <> 0) by (apply not_0_INR; lia). f_equal; [|f_equal; unfold Rdiv; rewrite Rinv_r by auto; ring].
    transitivity (Sum (seq 0 (length J)) (fun p => nth p y 0 + vsum (map (fun b => Rabs (nth p y 0 - b)) y))).
    - apply sum_ext. intros p Hp. apply in_seq in Hp. rewrite nth_map_in by lia. fold y. f_equal. rewrite <- inner_sum by lia. rewrite Ly. unfold vsum, Sum. f_equal. apply map_ext_in. intros q Hq. rewrite nth_map_in; auto. apply Nat.mod_upper_bound. lia.
    - change (Sum (seq 0 (length J)) (fun p => nth p y 0 + vsum (map (fun b => Rabs (nth p y 0 - b)) y))) with (vsum (map (fun p => nth p y 0 + vsum (map (fun b => Rabs (nth p y 0 - b)) y)) (seq 0 (length J)))).
      rewrite <- Ly. rewrite vsum_map_plus. unfold spread. rewrite map_nth_seq. f_equal. f_equal. apply (map_as_seq (fun a => vsum (map (fun b => Rabs (a - b)) y))). }
  assert (U : unit (RNonSep (length J) Y J)). { rewrite Er. split; [apply Rmult_le_pos; auto; left; apply Rinv_0_lt_compat; auto|]. apply Rmult_le_reg_r with (INR ((length y + 1) / 2) * (1 + 2 * INR (length y) - 2 * INR ((length y + 1) / 2))); auto. unfold Rdiv. rewrite Rmult_assoc, Rinv_l by lra. lra. }
  split; auto. rewrite <- Ly at 1. rewrite E, <- Er, correct01_id; auto.
Qed.

(** * vectors *)
Lemma vec_skip (Y : nat -> R) a m j : (j <= m)%nat -> skipn j (map Y (seq a m)) = map Y (seq (a + j) (m - j)).
Proof. intros H. rewrite (seq_split a j m) by auto. rewrite map_app, skipn_exact by (rewrite map_length, seq_length; auto). auto. Qed.
Lemma vec_first (Y : nat -> R) a m j : (j <= m)%nat -> firstn j (map Y (seq a m)) = map Y (seq a j).
Proof. intros H. rewrite (seq_split a j m) by auto. rewrite map_app, firstn_exact by (rewrite map_length, seq_length; auto). auto. Qed.
Lemma vec_slice (Y : nat -> R) m i j : (i <= j <= m)%nat -> slice i j (map Y (seq 1 m)) = map Y (seq (i + 1) (j - i)).
Proof. intros H. unfold slice. rewrite vec_skip by lia. rewrite vec_first by lia. f_equal. f_equal. lia. Qed.
Lemma vec_nth (Y : nat -> R) m i : (i < m)%nat -> nth_error (map Y (seq 1 m)) i = Some (Y (i + 1)%nat).
Proof. intros H. rewrite (map_nth_error Y i (seq 1 m) (d := (i + 1)%nat)); auto. rewrite (List.nth_error_nth' _ 0%nat) by (rewrite seq_length; auto). f_equal. rewrite seq_nth by auto. lia. Qed.
Lemma mapo_map {A B C} (f : B -> option C) (g : A -> B) (h : A -> C) l : (forall a, In a l -> f (g a) = Some (h a)) -> mapo f (map g l) = Some (map h l).
Proof. induction l as [|a l IH]; intros H; cbn [map mapo]; auto. rewrite H by (left; auto). rewrite IH; auto. intros; apply H; right; auto. Qed.
Definition vec (Y : nat -> R) (n : nat) : list R := map Y (seq 1 n).
Lemma vec_glue (Y F G : nat -> R) k n : (k <= n)%nat -> (forall i, (1 <= i <= k)%nat -> Y i = F i) -> (forall i, (k < i <= n)%nat -> Y i = G i) ->
  map F (seq 1 k) ++ map G (seq (1 + k) (n - k)) = vec Y n.
Proof.
  intros Hk HF HG. unfold vec. rewrite (seq_split 1 k n) by auto. rewrite map_app. f_equal; apply map_ext_in; intros i Hi; apply in_seq in Hi; symmetry; [apply HF|apply HG]; lia.
Qed.
Lemma vec_ext (Y Z : nat -> R) n : (forall i, (1 <= i <= n)%nat -> Y i = Z i) -> vec Y n = vec Z n.
Proof. intros H. apply map_ext_in. intros i Hi. apply in_seq in Hi. apply H. lia. Qed.
Lemma seq_up {A} (f : nat -> A) a m : map (fun i => f (S i)) (seq a m) = map f (seq (S a) m).
Proof. rewrite <- seq_shift, map_map. auto. Qed.
Definition all_unit (Y : nat -> R) (n : nat) : Prop := forall i, (1 <= i <= n)%nat -> unit (Y i).
Lemma all_units Y n a m : all_unit Y n -> (1 <= a)%nat -> (a + m <= n + 1)%nat -> units Y (seq a m).
Proof. intros H Ha Hm i Hi. apply in_seq in Hi. apply H. lia. Qed.
Lemma seq_nonnil a m : (1 <= m)%nat -> seq a m <> [].
Proof. destruct m; [lia|discriminate]. Qed.

Lemma mapo_vec f g Y n : all_unit Y n -> (forall a, unit a -> gives f g a) -> mapo f (vec Y n) = Some (vec (fun i => g (Y i)) n) /\ all_unit (fun i => g (Y i)) n.
Proof.
  intros HY Hf. split; [|intros i Hi; apply Hf; auto]. apply mapo_map. intros i Hi. apply in_seq in Hi. apply Hf, HY. lia.
Qed.
Lemma from_k_vec k n f g Y : (k <= n)%nat -> all_unit Y n -> (forall a, unit a -> gives f g a) ->
  from_k k f (vec Y n) = Some (vec (Late k (fun i => g (Y i)) Y) n) /\ all_unit (Late k (fun i => g (Y i)) Y) n.
Proof.
  intros Hk HY Hf. split.
  - unfold from_k. unfold vec at 1 2. rewrite vec_skip, vec_first by lia. rewrite (mapo_map f Y (fun i => g (Y i))).
    + cbv beta. f_equal. apply vec_glue; auto; intros i Hi; unfold Late; destruct (Nat.leb_spec i k); auto; lia.
    + intros i Hi. apply in_seq in Hi. apply Hf, HY. lia.
  - intros i Hi. unfold Late. destruct (Nat.leb_spec i k); [apply HY; lia|apply Hf, HY; lia].
Qed.
Lemma par_gives Y n i a m : all_unit Y n -> (1 <= i <= n)%nat -> (1 <= a)%nat -> (1 <= m)%nat -> (a + m <= n + 1)%nat ->
  uniform_sum (map Y (seq a m)) = Some (RSum one Y (seq a m)) /\ param_dependent (Y i) (RSum one Y (seq a m)) = Some (Par (Y i) (RSum one Y (seq a m))) /\ unit (Par (Y i) (RSum one Y (seq a m))).
Proof.
  intros HY Hi Ha Hm Hn. destruct (uniform_gives Y (seq a m)) as [E U]; [apply seq_nonnil; auto|eapply all_units; eauto|]. split; auto. apply param_gives; auto.
Qed.

Section Stages.
  Variables (n M k : nat).
  Hypothesis HM : (2 <= M)%nat.
  Hypothesis Hg : k = (k / (M - 1) * (M - 1))%nat.
  Hypothesis Hg1 : (1 <= k / (M - 1))%nat.
  Hypothesis Hn : (k < n)%nat.

  Lemma group_in i j : (1 <= i < M)%nat -> In j (Group M k i) -> (1 <= j <= k)%nat.
  Proof. intros Hi Hj. unfold Group in Hj. apply in_seq in Hj. nia. Qed.
  Lemma groups_vec Y m : (k <= m)%nat -> groups M k (vec Y m) = map (fun i => map Y (Group M k i)) (seq 1 (M - 1)).
  Proof.
    intros Hm. unfold groups. cbv zeta. apply map_ext_in. intros i Hi. apply in_seq in Hi. unfold vec. rewrite vec_slice by nia. unfold Group. f_equal. f_equal. nia.
  Qed.
  Lemma mapo_groups (r : list R -> option R) (g : (nat -> R) -> list nat -> R) Y m : (k <= m)%nat -> all_unit Y m -> (forall J, length J = (k / (M - 1))%nat -> units Y J -> r (map Y J) = Some (g Y J)) ->
    mapo r (groups M k (vec Y m)) = Some (map (fun i => g Y (Group M k i)) (seq 1 (M - 1))).
  Proof.
    intros Hm HY Hr. rewrite groups_vec by auto. apply mapo_map. intros i Hi. apply in_seq in Hi. apply Hr; [apply seq_length|]. intros j Hj. apply group_in in Hj; [|lia]. apply HY. lia.
  Qed.
  Lemma join (r r' : (nat -> R) -> list nat -> R) rest Y :
    map (fun i => r Y (Group M k i)) (seq 1 (M - 1)) ++ [r' Y rest] = vec (Reduce M k r r' rest Y) M.
  Proof.
    unfold vec. replace (seq 1 M) with (seq 1 (M - 1) ++ [M]). 2:{ pose proof (seq_S (M - 1) 1) as E. replace (S (M - 1)) with M in E by lia. replace (1 + (M - 1))%nat with M in E by lia. auto. }
    rewrite map_app. cbn [map]. apply (f_equal2 (@app R)); [apply map_ext_in; intros i Hi; apply in_seq in Hi|apply (f_equal (fun a => [a]))]; unfold Reduce; [destruct (Nat.ltb_spec i M)|destruct (Nat.ltb_spec M M)]; auto; lia.
  Qed.
  Lemma reduce_unit (r r' : (nat -> R) -> list nat -> R) rest Y m : (k <= m)%nat -> all_unit Y m -> (forall J, length J = (k / (M - 1))%nat -> units Y J -> (forall j, In j J -> (1 <= j)%nat) -> unit (r Y J)) -> unit (r' Y rest) ->
    all_unit (Reduce M k r r' rest Y) M.
  Proof.
    intros Hm HY Hr Hr' i Hi. unfold Reduce. destruct (Nat.ltb_spec i M); auto. apply Hr; [apply seq_length| |]; intros j Hj; apply group_in in Hj; try lia. apply HY. lia.
  Qed.
  Lemma len_nonnil (J : list nat) : length J = (k / (M - 1))%nat -> J <> [].
  Proof. intros H e. subst. cbn in H. lia. Qed.

  Lemma uniform_stage Y m len : all_unit Y m -> (1 <= len)%nat -> (k + len <= m)%nat ->
    (let? p := mapo uniform_sum (groups M k (vec Y m)) in let? d := uniform_sum (slice k (k + len) (vec Y m)) in Some (p ++ [d])) = Some (vec (Reduce M k (RSum one) (RSum one) (seq (k + 1) len) Y) M)
    /\ all_unit (Reduce M k (RSum one) (RSum one) (seq (k + 1) len) Y) M.
  Proof.
    intros HY Hl Hm. destruct (uniform_gives Y (seq (k + 1) len)) as [E U]; [apply seq_nonnil; auto|apply all_units with m; auto; lia|]. split.
    - rewrite (mapo_groups uniform_sum (RSum one)); [|lia|auto|intros J HJ UJ; apply uniform_gives; auto; apply len_nonnil; auto].
      unfold vec at 1. rewrite vec_slice by lia. replace (k + len - k)%nat with len by lia. rewrite E. f_equal. apply join.
    - apply reduce_unit with m; auto; [lia|]. intros J HJ UJ _. apply uniform_gives; auto. apply len_nonnil; auto.
  Qed.
  Lemma slice_all {A} (l : list A) : slice k (length l) l = skipn k l.
  Proof. unfold slice. apply firstn_all2. rewrite skipn_length. lia. Qed.
  Lemma t4_stage Y : all_unit Y n -> wfg4_t2 M k (vec Y n) = Some (vec (Reduce M k (RSum one) (RSum one) (seq (k + 1) (n - k)) Y) M)
    /\ all_unit (Reduce M k (RSum one) (RSum one) (seq (k + 1) (n - k)) Y) M.
  Proof.
    intros HY. destruct (uniform_stage Y n (n - k)) as [E U]; auto; [lia|lia|]. split; auto. rewrite <- E. unfold wfg4_t2. replace (k + (n - k))%nat with (length (vec Y n)) by (unfold vec; rewrite map_length, seq_length; lia). rewrite slice_all. reflexivity.
  Qed.
  Lemma t6_stage Y : all_unit Y n -> wfg6_t2 n M k (vec Y n) = Some (vec (Reduce M k (RNonSep (k / (M - 1))) (RNonSep (n - k)) (seq (k + 1) (n - k)) Y) M)
    /\ all_unit (Reduce M k (RNonSep (k / (M - 1))) (RNonSep (n - k)) (seq (k + 1) (n - k)) Y) M.
  Proof.
    intros HY. destruct (nonsep_gives Y (seq (k + 1) (n - k))) as [E U]; [apply seq_nonnil; lia|apply all_units with n; auto; lia|]. rewrite seq_length in E, U. split.
    - unfold wfg6_t2. rewrite (mapo_groups (non_separable (k / (M - 1))) (RNonSep (k / (M - 1)))); auto; [|lia|].
      + unfold vec at 1. rewrite vec_skip by lia. rewrite (Nat.add_comm 1 k). rewrite E. f_equal. apply join.
      + intros J HJ UJ. rewrite <- HJ. apply nonsep_gives; auto. apply len_nonnil; auto.
    - apply reduce_unit with n; auto; [lia|]. intros J HJ UJ _. rewrite <- HJ. apply nonsep_gives; auto. apply len_nonnil; auto.
  Qed.
  Lemma weights_vec : weights n = vec twice n.
  Proof. reflexivity. Qed.
  Lemma combine_maps {A B C} (f : A -> B) (g : A -> C) l : combine (map f l) (map g l) = map (fun a => (f a, g a)) l.
  Proof. induction l; cbn; f_equal; auto. Qed.
  Lemma t1_stage Y : all_unit Y n -> wfg1_t4 n M k (vec Y n) = Some (vec (Reduce M k (RSum twice) (RSum twice) (seq (k + 1) (n - k)) Y) M)
    /\ all_unit (Reduce M k (RSum twice) (RSum twice) (seq (k + 1) (n - k)) Y) M.
  Proof.
    intros HY. destruct (weighted_gives Y (seq (k + 1) (n - k))) as [E U]; [apply seq_nonnil; lia|intros j Hj; apply in_seq in Hj; lia|apply all_units with n; auto; lia|]. split.
    - unfold wfg1_t4. rewrite weights_vec, !groups_vec, combine_maps by lia. rewrite (mapo_map _ _ (fun i => RSum twice Y (Group M k i))).
      + unfold vec at 1 2. rewrite !vec_slice by lia. rewrite E. f_equal. apply join.
      + intros i Hi. apply in_seq in Hi. cbn [fst snd]. apply weighted_gives; [apply len_nonnil, seq_length| |]; intros j Hj; apply group_in in Hj; try lia. apply HY. lia.
    - apply reduce_unit with n; auto; [lia|]. intros J HJ UJ J1. apply weighted_gives; auto. apply len_nonnil; auto.
  Qed.
  Lemma t2_stage Y : all_unit Y n -> let Z := Late k (fun i => RNonSep 2 Y [(k + 2 * (i - k) - 1)%nat; (k + 2 * (i - k))%nat]) Y in
    wfg2_t2 n k (vec Y n) = Some (vec Z (k + (n - k) / 2)) /\ all_unit Z (k + (n - k) / 2).
  Proof.
    intros HY Z. assert (Hd : (2 * ((n - k) / 2) <= n - k)%nat) by (apply Nat.mul_div_le; lia).
    assert (HG : forall i, (k < i <= k + (n - k) / 2)%nat -> non_separable 2 (map Y [(k + 2 * (i - k) - 1)%nat; (k + 2 * (i - k))%nat]) = Some (Z i) /\ unit (Z i)).
    { intros i Hi. unfold Z, Late. destruct (Nat.leb_spec i k); [lia|]. apply (nonsep_gives Y [(k + 2 * (i - k) - 1)%nat; (k + 2 * (i - k))%nat]); [discriminate|]. intros j Hj. apply HY. cbn [In] in Hj. destruct Hj as [<-|[<-|[]]]; lia. }
    split.
    - unfold wfg2_t2. rewrite (mapo_ok _ (fun i => Z (S i))).
      + rewrite seq_up. f_equal. unfold vec at 1. rewrite vec_first by lia. replace ((n - k) / 2)%nat with (k + (n - k) / 2 - k)%nat at 1 by lia. change (S k) with (1 + k)%nat. apply vec_glue; auto; [lia|]. intros i Hi. unfold Z, Late. destruct (Nat.leb_spec i k); auto; lia.
      + intros i Hi. apply in_seq in Hi. cbv zeta. unfold vec. rewrite vec_slice by lia. replace (k + 2 * (i - k) + 2 - (k + 2 * (i - k)))%nat with 2%nat by lia. cbn [seq]. destruct (HG (S i) ltac:(lia)) as [E _]. rewrite <- E. do 3 f_equal; [lia|f_equal; lia].
    - intros i Hi. destruct (Nat.le_gt_cases i k); [unfold Z, Late; destruct (Nat.leb_spec i k); [apply HY; lia|lia]|apply HG; lia].
  Qed.
  Lemma chain_vec m : forall Y a len, (m < len)%nat -> (1 <= a)%nat -> all_unit Y (a + len - 1) ->
    chain m (map Y (seq a len)) = Some (map (fun i => if (i <? a + m)%nat then Par (Y i) (RSum one Y (seq (i + 1) (a + len - 1 - i))) else Y i) (seq a len)).
  Proof using.
    clear. induction m as [|m IH]; intros Y a len Hm Ha HY.
    - cbn [chain]. f_equal. apply map_ext_in. intros i Hi. apply in_seq in Hi. destruct (Nat.ltb_spec i (a + 0)); auto; lia.
    - destruct len as [|len]; [lia|]. cbn [seq map chain]. destruct (par_gives Y (a + S len - 1) a (S a) len) as (E1 & E2 & _); auto; try lia. rewrite E1, E2. rewrite IH by (try lia; replace (S a + len - 1)%nat with (a + S len - 1)%nat by lia; auto). f_equal.
      destruct (Nat.ltb_spec a (a + S m)); [|lia]. replace (a + 1)%nat with (S a) by lia. replace (a + S len - 1 - a)%nat with len by lia. f_equal. apply map_ext_in. intros i Hi. apply in_seq in Hi. replace (S a + m)%nat with (a + S m)%nat by lia. replace (S a + len - 1 - i)%nat with (a + S len - 1 - i)%nat by lia. reflexivity.
  Qed.
  Lemma t7_stage Y : all_unit Y n -> let Z := Early k (fun i => Par (Y i) (RSum one Y (seq (i + 1) (n - i)))) Y in
    wfg7_loop (seq 0 k) (vec Y n) = Some (vec Z n) /\ all_unit Z n.
  Proof.
    intros HY Z. split.
    - pose proof (loop_chain k [] (vec Y n)) as E. cbn [length app] in E. rewrite E by (unfold vec; rewrite map_length, seq_length; lia). unfold vec at 1. rewrite chain_vec; auto; try lia; [|replace (1 + n - 1)%nat with n by lia; auto].
      f_equal. apply map_ext_in. intros i Hi. apply in_seq in Hi. unfold Z, Early. replace (1 + n - 1 - i)%nat with (n - i)%nat by lia. destruct (Nat.ltb_spec i (1 + k)), (Nat.leb_spec i k); auto; lia.
    - intros i Hi. unfold Z, Early. destruct (Nat.leb_spec i k); [|apply HY; lia]. eapply par_gives; eauto; lia.
  Qed.
  Lemma t8_stage Y : (1 <= k)%nat -> all_unit Y n -> let Z := Late k (fun i => Par (Y i) (RSum one Y (seq 1 (i - 1)))) Y in
    wfg8_t1 n k (vec Y n) = Some (vec Z n) /\ all_unit Z n.
  Proof.
    intros Hk HY Z. split.
    - unfold wfg8_t1. rewrite (mapo_ok _ (fun i => Z (S i))).
      + rewrite seq_up. f_equal. unfold vec at 1. rewrite vec_first by lia. change (S k) with (1 + k)%nat. apply vec_glue; auto; [lia|]. intros i Hi. unfold Z, Late. destruct (Nat.leb_spec i k); auto; lia.
      + intros i Hi. apply in_seq in Hi. unfold vec. rewrite vec_nth, vec_first by lia. destruct (par_gives Y n (i + 1) 1 i) as (E1 & E2 & _); auto; try lia. rewrite E1, E2. unfold Z, Late. destruct (Nat.leb_spec (S i) k); [lia|]. replace (S i - 1)%nat with i by lia. replace (i + 1)%nat with (S i) by lia. reflexivity.
    - intros i Hi. unfold Z, Late. destruct (Nat.leb_spec i k); [apply HY; lia|]. apply (par_gives Y n i 1 (i - 1)); auto; lia.
  Qed.
  Lemma t9_stage Y : all_unit Y n -> let Z := fun i => if (i <? n)%nat then Par (Y i) (RSum one Y (seq (i + 1) (n - i))) else Y i in
    wfg9_t1 n (vec Y n) = Some (vec Z n) /\ all_unit Z n.
  Proof.
    intros HY Z. split.
    - unfold wfg9_t1. rewrite (mapo_ok _ (fun i => Z (S i))).
      + rewrite seq_up. f_equal. unfold vec at 1. rewrite vec_skip by lia. apply vec_glue; auto; [lia|]. intros i Hi. unfold Z. destruct (Nat.ltb_spec i n); auto; lia.
      + intros i Hi. apply in_seq in Hi. unfold vec. rewrite vec_nth, vec_skip by lia. destruct (par_gives Y n (i + 1) (1 + S i) (n - S i)) as (E1 & E2 & _); auto; try lia. rewrite E1, E2. unfold Z. destruct (Nat.ltb_spec (S i) n); [|lia]. replace (S i + 1)%nat with (1 + S i)%nat by lia. replace (i + 1)%nat with (S i) by lia. reflexivity.
    - intros i Hi. unfold Z. destruct (Nat.ltb_spec i n); [|apply HY; lia]. apply (par_gives Y n i (i + 1) (n - i)); auto; lia.
  Qed.
  Lemma t92_stage Y : all_unit Y n -> let Z := fun i => if (i <=? k)%nat then SDecept 0.35 0.001 0.05 (Y i) else SMulti 30 95 0.35 (Y i) in
    wfg9_t2 n k (vec Y n) = Some (vec Z n) /\ all_unit Z n.
  Proof.
    intros HY Z. assert (HD : forall i, (1 <= i <= n)%nat -> gives (shift_deceptive 0.35 0.001 0.05) (SDecept 0.35 0.001 0.05) (Y i)) by (intros; apply decept_gives, HY; auto).
    assert (HS : forall i, (1 <= i <= n)%nat -> gives (shift_multi_modal 30 95 0.35) (SMulti 30 95 0.35) (Y i)) by (intros; apply multi_gives; [lra|apply HY; auto]). split.
    - unfold wfg9_t2. rewrite (mapo_ok _ (fun i => Z (S i))). 1: rewrite (mapo_ok _ (fun i => Z (S i))).
      + rewrite !seq_up. f_equal. change (S k) with (1 + k)%nat. apply vec_glue; auto; lia.
      + intros i Hi. apply in_seq in Hi. unfold vec. rewrite vec_nth by lia. destruct (HS (i + 1)%nat ltac:(lia)) as [E _]. rewrite E. unfold Z. destruct (Nat.leb_spec (S i) k); [lia|]. replace (i + 1)%nat with (S i) by lia. reflexivity.
      + intros i Hi. apply in_seq in Hi. unfold vec. rewrite vec_nth by lia. destruct (HD (i + 1)%nat ltac:(lia)) as [E _]. rewrite E. unfold Z. destruct (Nat.leb_spec (S i) k); [|lia]. replace (i + 1)%nat with (S i) by lia. reflexivity.
    - intros i Hi. unfold Z. destruct (Nat.leb_spec i k); [apply HD|apply HS]; auto.
  Qed.
End Stages.

(** * reduced vectors *)
Section Reduced.
  Variables (number n M k l : nat).
  Hypothesis Hnum : (1 <= number <= 9)%nat.
  Hypothesis HV : wfg_valid number n M k l.
  Lemma wfg_t_published Y : all_unit Y n -> wfg_t number n M k (vec Y n) = Some (vec (WfgT n M k number Y) M) /\ all_unit (WfgT n M k number Y) M.
  Proof.
    intros HY. destruct HV as (HM & Hk & Hdiv & Hnl & Hl & Hev).
    assert (Hg : k = (k / (M - 1) * (M - 1))%nat). { destruct Hdiv as [q Hq]. rewrite Hq at 2. rewrite Nat.div_mul by lia. auto. }
    assert (Hg1 : (1 <= k / (M - 1))%nat). { destruct (k / (M - 1))%nat; [lia|lia]. }
    assert (Hn : (k < n)%nat) by lia.
    destruct (from_k_vec k n (shift_linear 0.35) (SLinear 0.35) Y ltac:(lia) HY linear_gives) as [L1 L2]. set (L := Late k (fun i => SLinear 0.35 (Y i)) Y) in *.
    destruct number as [|[|[|[|[|[|[|[|[|[|?]]]]]]]]]]; try lia; cbn [wfg_t WfgT].
    - rewrite L1. destruct (from_k_vec k n (bias_flat 0.8 0.75 0.85) (BFlat 0.8 0.75 0.85) L ltac:(lia) L2 flat_gives) as [E2 U2]. rewrite E2.
      destruct (mapo_vec (bias_poly 0.02) (BPoly 0.02) _ n U2 poly_gives) as [E3 U3]. rewrite E3. apply t1_stage; auto.
    - rewrite L1. destruct (t2_stage n M k HM Hg Hg1 Hn L L2) as [E2 U2]. rewrite E2. assert (1 <= (n - k) / 2)%nat. { destruct (Hev (or_introl eq_refl)) as [q Hq]. replace (n - k)%nat with (q * 2)%nat by lia. rewrite Nat.div_mul; lia. }
      unfold wfg2_t3. apply (uniform_stage n M k); auto.
    - rewrite L1. destruct (t2_stage n M k HM Hg Hg1 Hn L L2) as [E2 U2]. rewrite E2. assert (1 <= (n - k) / 2)%nat. { destruct (Hev (or_intror eq_refl)) as [q Hq]. replace (n - k)%nat with (q * 2)%nat by lia. rewrite Nat.div_mul; lia. }
      unfold wfg2_t3. apply (uniform_stage n M k); auto.
    - destruct (mapo_vec (shift_multi_modal 30 10 0.35) (SMulti 30 10 0.35) Y n HY) as [E U]; [intros; apply multi_gives; auto; lra|]. rewrite E. apply t4_stage; auto.
    - destruct (mapo_vec (shift_deceptive 0.35 0.001 0.05) (SDecept 0.35 0.001 0.05) Y n HY decept_gives) as [E U]. rewrite E. apply t4_stage; auto.
    - rewrite L1. apply t6_stage; auto.
    - destruct (t7_stage n M k HM Hg Hg1 Hn Y HY) as [E U]. rewrite E. destruct (from_k_vec k n (shift_linear 0.35) (SLinear 0.35) _ ltac:(lia) U linear_gives) as [E2 U2]. rewrite E2. apply t4_stage; auto.
    - destruct (t8_stage n M k HM Hg Hg1 Hn Y ltac:(lia) HY) as [E U]. rewrite E. destruct (from_k_vec k n (shift_linear 0.35) (SLinear 0.35) _ ltac:(lia) U linear_gives) as [E2 U2]. rewrite E2. apply t4_stage; auto.
    - destruct (t9_stage n M k HM Hg Hg1 Hn Y HY) as [E U]. rewrite E. destruct (t92_stage n M k HM Hg Hg1 Hn _ U) as [E2 U2]. rewrite E2. apply t6_stage; auto.
  Qed.
End Reduced.

(** * shapes *)
Lemma fan_vec up dn (x : nat -> R) m : forall a, fan up dn (map x (seq a m)) =
  map (fun j => Prod (seq a (m + 1 - j)) (fun i => up (x i)) * (if (j =? 1)%nat then 1 else dn (x (a + (m + 1 - j))%nat))) (seq 1 (m + 1)).
Proof.
  induction m as [|m IH]; intros a.
  - cbn. f_equal. unfold Prod. cbn. ring.
  - cbn [seq map fan]. rewrite IH. replace (S m + 1)%nat with (S (m + 1)) by lia. rewrite (seq_S (m + 1) 1). rewrite map_app, map_map. cbn [map]. apply (f_equal2 (@app R)).
    + apply map_ext_in. intros j Hj. apply in_seq in Hj. replace (S (m + 1) - j)%nat with (S (m + 1 - j)) by lia. cbn [seq]. unfold Prod. cbn [map fold_right]. rewrite Rmult_assoc. f_equal. replace (S a + (m + 1 - j))%nat with (a + S (m + 1 - j))%nat by lia. reflexivity.
    + replace (S (m + 1) - (1 + (m + 1)))%nat with 0%nat by lia. rewrite Nat.add_0_r. apply (f_equal (fun b => [b])). destruct (Nat.eqb_spec (1 + (m + 1)) 1); [lia|]. unfold Prod. cbn. ring.
Qed.
Lemma fan_shape up dn x M : (2 <= M)%nat -> fan up dn (vec x (M - 1)) = map (Shape M up dn x) (seq 1 M).
Proof.
  intros HM. unfold vec. rewrite fan_vec. replace (M - 1 + 1)%nat with M by lia. apply map_ext_in. intros j Hj. apply in_seq in Hj. unfold Shape. replace (M - j + 1)%nat with (1 + (M - j))%nat by lia. reflexivity.
Qed.
Lemma shape_ext M up up' dn dn' x m : (forall a, up a = up' a) -> (forall a, dn a = dn' a) -> Shape M up dn x m = Shape M up' dn' x m.
Proof. intros H1 H2. unfold Shape, Prod. rewrite H2. f_equal. f_equal. apply map_ext. auto. Qed.
Lemma seq_last M : (1 <= M)%nat -> seq 1 M = seq 1 (M - 1) ++ [M].
Proof. intros HM. pose proof (seq_S (M - 1) 1) as E. replace (S (M - 1)) with M in E by lia. replace (1 + (M - 1))%nat with M in E by lia. auto. Qed.
Lemma top_shape M (F : nat -> R) (e : R) : (2 <= M)%nat -> removelast (map F (seq 1 M)) ++ [e] = map (fun m => if (m =? M)%nat then e else F m) (seq 1 M).
Proof.
  intros HM. rewrite (seq_last M) by lia. rewrite !map_app. cbn [map]. rewrite removelast_last, Nat.eqb_refl. f_equal. apply map_ext_in. intros m Hm. apply in_seq in Hm. destruct (Nat.eqb_spec m M); auto; lia.
Qed.
Lemma shape_published number M x : (2 <= M)%nat -> (1 <= number)%nat -> shape number (vec x (M - 1)) = map (WfgH M number x) (seq 1 M).
Proof.
  intros HM Hnum. assert (Hh : hd 0 (vec x (M - 1)) = x 1%nat) by (unfold vec; destruct (M - 1)%nat eqn:e; [lia|reflexivity]).
  destruct number as [|[|[|[|number]]]]; [lia| | | |]; cbn [shape]; rewrite ?Hh, fan_shape by auto.
  - rewrite top_shape by auto. apply map_ext. intros m. cbn [WfgH]. destruct (m =? M)%nat; [|reflexivity]. unfold wfg1_entry. replace (2 * 5) with 10 by ring. reflexivity.
  - rewrite top_shape by auto. apply map_ext. intros m. cbn [WfgH]. destruct (m =? M)%nat; [|reflexivity]. unfold wfg2_entry. replace (5 * x 1%nat * PI) with (5 * PI * x 1%nat) by ring. ring.
  - apply map_ext. intros m. reflexivity.
  - apply map_ext. intros m. cbn [WfgH]. apply shape_ext; intros a; unfold concave_up, concave_dn; f_equal; lra.
Qed.
Lemma coords_published number M t : (2 <= M)%nat -> unit (t M) -> coords number (vec t (M - 1)) (t M) = vec (WfgX M number t) (M - 1).
Proof.
  intros HM (U0 & U1). unfold coords, WfgX, vec. destruct (M - 1)%nat eqn:e; [lia|]. cbn [seq map]. destruct (Nat.eqb_spec number 3); cbn [andb negb].
  - cbn [Nat.eqb negb]. rewrite Rmax_right by lra. f_equal; [lra|]. rewrite map_map. apply map_ext_in. intros i Hi. apply in_seq in Hi. destruct (Nat.eqb_spec i 1); [lia|]. cbn [negb]. rewrite Rmax_left by lra. lra.
  - f_equal; [rewrite Rmax_right by lra; lra|]. apply map_ext. intros i. rewrite Rmax_right by lra. lra.
Qed.
Lemma scaled_vec (F : nat -> R) m : forall a, scaled a (map F (seq a m)) = map (fun i => 2 * INR i * F i) (seq a m).
Proof. induction m as [|m IH]; intros a; cbn [seq map scaled]; auto. rewrite IH. auto. Qed.
Lemma div_vec n xu x : length xu = n -> length x = n -> zip_with Rdiv x xu = vec (fun i => X x i / X xu i) n.
Proof.
  intros H1 H2. unfold vec. rewrite <- seq_up. revert n xu H1 H2. induction x as [|a x IH]; intros n [|b xu] H1 H2; cbn in H1, H2; subst n; try discriminate; auto.
  cbn [zip_with seq map]. f_equal. rewrite (IH (length x) xu) by congruence. injection H2 as H2. rewrite <- H2. rewrite <- seq_shift, map_map. apply map_ext. intros i. unfold X. cbn [Nat.sub]. rewrite !Nat.sub_0_r. reflexivity.
Qed.

Theorem wfg_published number n M k l xu x : (1 <= number <= 9)%nat -> wfg_valid number n M k l -> positive n xu -> below xu x ->
  wfg number n M k xu x = Some (WFG n M k number xu x).
Proof.
  intros Hnum HV Hxu Hx. destruct (below_good n xu x Hxu Hx) as ((Ly & Uy) & _). pose proof Hxu as (Lu & _). assert (Lx : length x = n). { rewrite <- Lu. unfold below in Hx. clear - Hx. induction Hx; cbn; congruence. }
  set (Y := fun i => X x i / X xu i). assert (Ey : zip_with Rdiv x xu = vec Y n) by (apply div_vec; auto). assert (HY : all_unit Y n).
  { intros i Hi. rewrite Ey in Uy. unfold vec in Uy. rewrite Forall_map, Forall_forall in Uy. apply Uy. apply in_seq. lia. }
  destruct (wfg_t_published number n M k l Hnum HV Y HY) as [E U]. set (T := WfgT n M k number Y) in *. assert (HM : (2 <= M)%nat) by apply HV.
  rewrite (wfg_of_t number n M k l xu Hnum HV Hxu x (vec T (M - 1)) (T M)); auto.
  - f_equal. rewrite coords_published by (auto; apply U; lia). rewrite shape_published by lia. rewrite scaled_vec, map_map. reflexivity.
  - unfold vec. rewrite map_length, seq_length. auto.
  - unfold vec. apply Forall_map, Forall_forall. intros i Hi. apply in_seq in Hi. apply U. lia.
  - apply U. lia.
  - rewrite Ey, E. f_equal. unfold vec. rewrite (seq_last M) at 1 by lia. rewrite map_app. reflexivity.
Qed.
