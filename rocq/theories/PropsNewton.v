(** Property theorems: line searches, box handling, population handling, main loops. *)
From Coq Require Import List Arith Bool Reals ZArith Lia Lra Permutation.
From Verif Require Import Num Exn ListAux NDSModel NDSSpec NewtonModel NewtonProof NewtonBox NewtonPop.
Import ListNotations.
Open Scope R_scope.

(** * C25 *)
(** sufficient decrease for finite values (line_search.py 20), or a negligible residual *)
Definition sufficient (c1 phi0 s phi : R) : Prop :=
  phi <= (1 - c1 * s) * phi0 \/ Rabs (phi0 - eps_mach) <= / 10 ^ 8 + / 10 ^ 5 * eps_mach.
Lemma armijo_sufficient c1 p0 s p : armijo c1 (Fin p0) s (Fin p) = true <-> sufficient c1 p0 s p.
Proof. unfold armijo, sufficient. cbn [fle fmul near_eps]. rewrite orb_true_iff, !rleb_true. reflexivity. Qed.

(** the step is [max * 2^-k] with [k <= 6]; with [k <= 5] it is accepted and all larger trials
    are rejected; the merit function is evaluated at [max * 2^-j], [j <= min(k, 5)]. *)
Theorem C25_line_search : forall phi0 phi max, exists k, (k <= 6)%nat /\
  fst (backtracking_line_search phi0 phi max) = max * (/ 2) ^ k /\
  snd (backtracking_line_search phi0 phi max) = map (fun j => max * (/ 2) ^ j) (seq 0 (Nat.min 6 (S k))) /\
  (forall j, (j < k)%nat -> armijo (/ 10 ^ 5) phi0 (max * (/ 2) ^ j) (phi (max * (/ 2) ^ j)) = false) /\
  ((k <= 5)%nat -> armijo (/ 10 ^ 5) phi0 (max * (/ 2) ^ k) (phi (max * (/ 2) ^ k)) = true).
Proof.
  intros phi0 phi max. destruct (backtrack_spec 6 (/ 10 ^ 5) phi phi0 max) as (k & H1 & H2 & H3 & H4 & H5).
  exists k. split; auto. split; auto. split; auto. split; auto. intros Hk. apply H5. lia.
Qed.
Print Assumptions C25_line_search.
(** for finite merits the condition is the documented one *)
Theorem C25_finite : forall p0 (phi : R -> R) max, let r := backtracking_line_search (Fin p0) (fun s => Fin (phi s)) max in
  (length (snd r) <= 6)%nat /\
  (sufficient (/ 10 ^ 5) p0 (fst r) (phi (fst r)) \/
   (fst r = max * (/ 2) ^ 6 /\ forall j, (j < 6)%nat -> ~ sufficient (/ 10 ^ 5) p0 (max * (/ 2) ^ j) (phi (max * (/ 2) ^ j)))).
Proof.
  intros p0 phi max r. destruct (C25_line_search (Fin p0) (fun s => Fin (phi s)) max) as (k & H1 & H2 & H3 & H4 & H5). fold r in H2, H3.
  split. { rewrite H3, map_length, seq_length. lia. }
  destruct (Nat.le_gt_cases k 5) as [Hk|Hk].
  - left. rewrite H2. apply armijo_sufficient. auto.
  - right. assert (k = 6%nat) by lia. subst k. split; auto. intros j Hj. rewrite <- armijo_sufficient. rewrite H4 by auto. discriminate.
Qed.
Print Assumptions C25_finite.
(** the search succeeds if the decrease holds for all small steps of the tested range *)
Theorem C25_success : forall p0 (phi : R -> R) max d, 0 < d -> 0 <= max -> max <= 32 * d ->
  (forall s, 0 <= s <= d -> sufficient (/ 10 ^ 5) p0 s (phi s)) ->
  let r := backtracking_line_search (Fin p0) (fun s => Fin (phi s)) max in
  sufficient (/ 10 ^ 5) p0 (fst r) (phi (fst r)) /\ In (fst r) (snd r).
Proof.
  intros p0 phi max d Hd H0 Hmax Hs r. destruct (C25_line_search (Fin p0) (fun s => Fin (phi s)) max) as (k & H1 & H2 & H3 & H4 & H5). fold r in H2, H3.
  destruct (Nat.le_gt_cases k 5) as [Hk|Hk].
  - split. rewrite H2. apply armijo_sufficient. auto. rewrite H3, H2. apply (in_map (fun j => max * (/ 2) ^ j)). apply in_seq. lia.
  - exfalso. specialize (H4 5%nat ltac:(lia)). assert (armijo (/ 10 ^ 5) (Fin p0) (max * (/ 2) ^ 5) (Fin (phi (max * (/ 2) ^ 5))) = true).
    { apply armijo_sufficient. apply Hs. simpl. lra. } congruence.
Qed.
Print Assumptions C25_success.
(** merit (1-s)^2 of a Newton direction, full step accepted; |1-3s|: the first trial fails *)
Example C25_meets : sufficient (/ 10 ^ 5) 1 1 ((1 - 1) * (1 - 1)) /\ ~ sufficient (/ 10 ^ 5) 1 1 (Rabs (1 - 3 * 1)) /\
  sufficient (/ 10 ^ 5) 1 (1 * / 2) (Rabs (1 - 3 * (1 * / 2))).
Proof.
  assert (He : 0 < eps_mach < / 10 ^ 3).
  { unfold eps_mach. split. apply Rinv_0_lt_compat, pow_lt; lra. apply Rinv_lt_contravar; [apply Rmult_lt_0_compat; apply pow_lt; lra|]. simpl. lra. }
  split. { left. simpl. lra. } split.
  - intros [H|H]. replace (1 - 3 * 1) with (-2) in H by lra. rewrite Rabs_left in H by lra. simpl in H. lra.
    rewrite Rabs_right in H by lra. simpl in H. simpl in He. lra.
  - left. replace (1 - 3 * (1 * / 2)) with (- / 2) by lra. rewrite Rabs_left by lra. simpl. lra.
Qed.

(** * C26 *)
(** the last step size can be one at which the merit function has not been evaluated and
    which increases it *)
Theorem C26_untested_step_refuted : exists phi0 (phi : R -> R) max,
  let r := backtracking_line_search (Fin phi0) (fun s => Fin (phi s)) max in
  ~ In (fst r) (snd r) /\ phi (fst r) > phi0.
Proof.
  exists 1, (fun _ => 2), 1. cbv zeta.
  destruct (C25_line_search (Fin 1) (fun _ => Fin 2) 1) as (k & H1 & H2 & H3 & _ & H5).
  assert (Hr : forall s, 0 <= s -> armijo (/ 10 ^ 5) (Fin 1) s (Fin 2) = false).
  { intros s Hs. apply not_true_is_false. rewrite armijo_sufficient. unfold sufficient.
    assert (He : 0 < eps_mach < / 10 ^ 3).
    { unfold eps_mach. split. apply Rinv_0_lt_compat, pow_lt; lra. apply Rinv_lt_contravar; [apply Rmult_lt_0_compat; apply pow_lt; lra|]. simpl. lra. }
    intros [H|H]. simpl in H. lra. simpl in He. rewrite Rabs_right in H by lra. simpl in H. lra. }
  assert (k = 6%nat). { destruct (Nat.le_gt_cases k 5) as [Hk|Hk]; [|lia]. rewrite Hr in H5. specialize (H5 Hk). discriminate. apply Rmult_le_pos; [lra|]. apply pow_le. lra. }
  subst k. rewrite H2, H3. split; [|lra]. intros Hin. apply in_map_iff in Hin as (j & E & Hj). apply in_seq in Hj. simpl in Hj.
  destruct j as [|[|[|[|[|[|j]]]]]]; simpl in E; try lra; lia.
Qed.
Print Assumptions C26_untested_step_refuted.
(** an untested step is returned only after six rejections *)
Theorem C26_untested_step_partial : forall phi0 phi max, let r := backtracking_line_search phi0 phi max in
  max <> 0 -> ~ In (fst r) (snd r) -> fst r = max * (/ 2) ^ 6 /\ forall s, In s (snd r) -> armijo (/ 10 ^ 5) phi0 s (phi s) = false.
Proof.
  intros phi0 phi max r Hm Hn. destruct (C25_line_search phi0 phi max) as (k & H1 & H2 & H3 & H4 & H5). fold r in H2, H3.
  destruct (Nat.le_gt_cases k 5) as [Hk|Hk].
  - exfalso. apply Hn. rewrite H2, H3. apply (in_map (fun j => max * (/ 2) ^ j)). apply in_seq. lia.
  - assert (k = 6%nat) by lia. subst k. split; auto. intros s Hs. rewrite H3 in Hs. apply in_map_iff in Hs as (j & <- & Hj). apply in_seq in Hj. apply H4. lia.
Qed.
Print Assumptions C26_untested_step_partial.
Example C26_meets : let r := backtracking_line_search (Fin 1) (fun _ => NaN) 1 in
  fst r = / 64 /\ snd r = [1; / 2; / 4; / 8; / 16; / 32].
Proof.
  assert (He : near_eps (Fin 1) = false).
  { unfold near_eps. apply rleb_false. assert (He : 0 < eps_mach < / 10 ^ 3).
    { unfold eps_mach. split. apply Rinv_0_lt_compat, pow_lt; lra. apply Rinv_lt_contravar; [apply Rmult_lt_0_compat; apply pow_lt; lra|]. simpl. lra. }
    simpl in He. rewrite Rabs_right by lra. simpl. lra. }
  unfold backtracking_line_search. cbn [backtrack]. unfold armijo. cbn [fle fmul orb]. rewrite He. cbn [orb fst snd]. split; [lra|].
  repeat f_equal; lra.
Qed.

(** * C27, C28 *)
(** all coordinates of X + s * step are in the box *)
Definition all_in_box (xl xu : list R) (X step : list (list R)) (s : R) : Prop :=
  forall i j, (i < length X)%nat -> (j < length xl)%nat ->
    nth j xl 0 <= nth j (nth i X []) 0 + s * nth j (nth i step []) 0 <= nth j xu 0.
Definition all_in_interior (xl xu : list R) (X step : list (list R)) (s : R) : Prop :=
  forall i j, (i < length X)%nat -> (j < length xl)%nat ->
    nth j xl 0 < nth j (nth i X []) 0 + s * nth j (nth i step []) 0 < nth j xu 0.
Definition same_shape (d : nat) (xl xu : list R) (X step : list (list R)) : Prop :=
  length xl = d /\ length xu = d /\ length step = length X /\ (forall r, In r X -> length r = d) /\ (forall r, In r step -> length r = d).
Theorem C27_step_limit : forall d xl xu X step m, same_shape d xl xu X step -> max_step_size true xl xu X step = Ok m ->
  m <= 1 /\
  (all_in_box xl xu X step 0 -> forall s, 0 <= s <= m -> all_in_box xl xu X step s) /\
  (all_in_interior xl xu X step 0 -> 0 < m /\ forall s, 0 <= s <= m -> all_in_interior xl xu X step s).
Proof.
  intros d xl xu X step m (E1 & E2 & E3 & E4 & E5) Hm. subst d. split; [|split].
  - apply max_step_value in Hm; tauto.
  - intros H0 s Hs i j Hi Hj. apply (max_step_box xl xu X step E2 E4 E5 E3 m i j s Hm Hi Hj Hs). apply H0; auto.
  - intros H0. split. apply (max_step_pos xl xu X step E2 E4 E5 E3 m); auto.
    intros s Hs i j Hi Hj. apply (max_step_box xl xu X step E2 E4 E5 E3 m i j s Hm Hi Hj Hs). apply H0; auto.
Qed.
Print Assumptions C27_step_limit.
Example C27_meets : same_shape 1 [0] [1] [[/ 2]; [/ 4]] [[1]; [-2]] /\ all_in_interior [0] [1] [[/ 2]; [/ 4]] [[1]; [-2]] 0 /\
  exists m, max_step_size true [0] [1] [[/ 2]; [/ 4]] [[1]; [-2]] = Ok m.
Proof.
  assert (S : same_shape 1 [0] [1] [[/ 2]; [/ 4]] [[1]; [-2]]).
  { repeat split; auto; intros r [<-|[<-|[]]]; auto. }
  split; auto. split. { intros [|[|i]] [|j] Hi Hj; simpl in *; try lia; lra. }
  destruct S as (_ & E2 & E3 & E4 & E5). apply (max_step_errors [0] [1] _ _ E2 E4 E5 E3). exists 0%nat, 0%nat. simpl. repeat split; try lia. lra.
Qed.

Theorem C28_zero_step_refuted : exists xl xu X step, same_shape 1 xl xu X step /\ all_in_interior xl xu X step 0 /\
  max_step_size true xl xu X step = Exn ValueError.
Proof.
  exists [0], [1], [[/ 2]], [[0]]. split. { repeat split; auto; intros r [<-|[]]; auto. }
  split. { intros [|i] [|j] Hi Hj; simpl in *; try lia; lra. }
  unfold max_step_size. cbn. rewrite Ropp_0. replace (rltb 0 0) with false by (symmetry; apply rltb_false; lra). reflexivity.
Qed.
Print Assumptions C28_zero_step_refuted.
(** a value is returned exactly when some entry of the step is not zero *)
Theorem C28_defined_partial : forall d xl xu X step, same_shape d xl xu X step ->
  ((exists m, max_step_size true xl xu X step = Ok m) <->
   (exists i j, (i < length X)%nat /\ (j < d)%nat /\ nth j (nth i step []) 0 <> 0)).
Proof. intros d xl xu X step (E1 & E2 & E3 & E4 & E5). subst d. symmetry. apply max_step_errors; auto. Qed.
Print Assumptions C28_defined_partial.
Example C28_meets : same_shape 1 [0] [1] [[/ 2]] [[3]].
Proof. repeat split; auto; intros r [<-|[]]; auto. Qed.

(** * C29, C30 *)
Definition point_in_box (xl xu x : list R) : Prop := forall k, (k < length x)%nat -> nth k xl 0 <= nth k x 0 <= nth k xu 0.
(** the point moved by [s * step] is in the box *)
Definition moved_inside (xl xu x step : list R) (s : R) : Prop :=
  forall k, (k < length x)%nat -> nth k xl 0 <= nth k x 0 + s * nth k step 0 <= nth k xu 0.
Theorem C29_box_safe : forall xl xu x step step' m', length xl = length x -> length xu = length x -> point_in_box xl xu x ->
  length step = length x -> dpn_box xl xu x step = (step', m') ->
  length step' = length x /\ exists m, m' = Fin m /\ 0 <= m <= 1 /\ (forall s, 0 <= s <= m -> moved_inside xl xu x step' s) /\
  exists k, forall j, (j < length x)%nat -> nth j step' 0 = if Nat.eqb j k then 0 else nth j step 0.
Proof. intros xl xu x step step' m' Hl Hu Hb. exact (dpn_box_safe xl xu x Hl Hu Hb step step' m'). Qed.
Print Assumptions C29_box_safe.
Example C29_meets : point_in_box [0; 0] [1; 1] [0; / 2].
Proof. intros [|[|k]] Hk; simpl in *; try lia; lra. Qed.

(** face [k < d]: lower bound of coordinate [k]; face [d + k]: upper bound of coordinate [k] *)
Theorem C30_projection_partial : forall xl xu x step k, length xl = length x -> length xu = length x -> point_in_box xl xu x ->
  length step = length x -> (k < length x)%nat ->
  (* all other coordinates are strictly inside, the box has positive width *)
  (forall i, (i < length x)%nat -> i <> k -> nth i xl 0 < nth i x 0 < nth i xu 0) -> nth k xl 0 < nth k xu 0 ->
  (* the point is on a face of coordinate [k] and the step crosses it *)
  (nth k x 0 = nth k xl 0 /\ nth k step 0 < 0) \/ (nth k x 0 = nth k xu 0 /\ 0 < nth k step 0) ->
  exists step' m, dpn_box xl xu x step = (step', Fin m) /\ 0 < m /\
  forall j, (j < length x)%nat -> nth j step' 0 = if (j =? k)%nat then 0 else nth j step 0.
Proof.
  intros xl xu x step k Hl Hu Hb Hs Hk Hin Hw Hf.
  assert (Hr : forall D w, D = 0 -> w < 0 -> fdiv (Fin D) (Fin (Rabs (Rmin 0 w))) = Fin 0).
  { intros D w -> Hneg. pose proof (ratio_neg 0 w Hneg) as E. unfold ratio in E. rewrite E. f_equal. unfold Rdiv. lra. }
  destruct Hf as [[Ex Es]|[Ex Es]].
  - destruct (dpn_box_project xl xu x Hl Hu Hb step k Hs) as (step' & m & H1 & H2 & H3).
    + lia.
    + rewrite (ratios_low xl xu x Hl Hu Hb) by auto. unfold ratio. apply Hr; lra.
    + intros i Hi Hne. apply Hin; auto.
    + intros i Hi _. destruct (Nat.eq_dec i k) as [->|]. lra. apply Hin; auto.
    + exists step', m. split; auto. split; auto. intros j Hj. rewrite H3 by auto. replace (length x + j =? k)%nat with false by (symmetry; apply Nat.eqb_neq; lia). rewrite orb_false_r. reflexivity.
  - destruct (dpn_box_project xl xu x Hl Hu Hb step (length x + k) Hs) as (step' & m & H1 & H2 & H3).
    + lia.
    + rewrite (ratios_up xl xu x Hl Hu Hb) by auto. unfold ratio. apply Hr; lra.
    + intros i Hi _. destruct (Nat.eq_dec i k) as [->|]. lra. apply Hin; auto.
    + intros i Hi Hne. apply Hin; [auto|lia].
    + exists step', m. split; auto. split; auto. intros j Hj. rewrite H3 by auto. replace (j =? length x + k)%nat with false by (symmetry; apply Nat.eqb_neq; lia).
      cbn [orb]. destruct (Nat.eqb_spec j k) as [->|Hne]. rewrite Nat.eqb_refl. auto. replace (length x + j =? length x + k)%nat with false by (symmetry; apply Nat.eqb_neq; lia). auto.
Qed.
Print Assumptions C30_projection_partial.
Example C30_meets : point_in_box [0; 0] [1; 1] [0; / 2] /\ nth 1 [0; 0] 0 < nth 1 [0; / 2] 0 < nth 1 [1; 1] 0 /\ nth 0 [-1; 1] 0 < 0.
Proof. split. apply C29_meets. simpl. lra. Qed.

(** at a corner the NaN of the face that is not crossed is taken for the minimum: the
    tangential component is removed and the point does not move *)
Theorem C30_corner_refuted : exists xl xu x step, point_in_box xl xu x /\ length step = length x /\
  (* only one face is crossed *)
  nth 0 x 0 = nth 0 xl 0 /\ 0 < nth 0 step 0 /\ nth 1 x 0 = nth 1 xl 0 /\ nth 1 step 0 < 0 /\
  dpn_box xl xu x step = ([0; -1], Fin 0).
Proof.
  exists [0; 0], [1; 1], [0; 0], [1; -1]. split. { intros [|[|k]] Hk; simpl in *; try lia; lra. }
  split; auto. split; auto. split; [simpl; lra|]. split; auto. split; [simpl; lra|].
  assert (Hr : forall a b, box_ratios [0; 0] [1; 1] [0; 0] [a; b] = [ratio 0 a; ratio 0 b; ratio 1 (- a); ratio 1 (- b)]).
  { intros a b. unfold box_ratios, ratio. cbn. replace (0 - 0) with 0 by lra. replace (1 - 0) with 1 by lra. rewrite Rabs_R0, Rabs_R1. reflexivity. }
  assert (R1 : ratio 1 (-1) = Fin 1) by (rewrite ratio_neg by lra; f_equal; field).
  assert (R0 : ratio 0 (-1) = Fin 0) by (rewrite ratio_neg by lra; f_equal; field).
  unfold dpn_box. rewrite Hr. replace (- -1) with 1 by lra. replace (Ropp 1) with (-1) by lra.
  rewrite R1, R0, (ratio_nan 1), (ratio_pos 1 1) by lra.
  cbn [nanmin fmin fle]. replace (rleb 0 1) with true by (symmetry; apply rleb_true; lra).
  unfold fmin, fle. replace (rleb 0 1) with true by (symmetry; apply rleb_true; lra). cbn [cap1]. replace (rltb 0 1) with true by (symmetry; apply rltb_true; lra).
  cbn [is_fzero]. replace (reqb 0 0) with true by (symmetry; apply reqb_true; lra).
  cbn [argmin first_nan length normal map seq Nat.eqb Nat.add]. unfold normal. cbn [length map seq Nat.eqb Nat.add zip_with dotR]. unfold dotR. cbn [zip_with fold_right].
  replace (1 - (1 * 1 + (-1 * 0 + 0)) * 1) with 0 by lra. replace (-1 - (1 * 1 + (-1 * 0 + 0)) * 0) with (-1) by lra.
  rewrite Hr. replace (- -1) with 1 by lra. replace (- 0) with 0 by lra. rewrite R0, (ratio_nan 0), !(ratio_pos 1) by lra.
  cbn [nanmin]. unfold fmin, fle, cap1. cbn. replace (rltb 0 1) with true by (symmetry; apply rltb_true; lra). reflexivity.
Qed.
Print Assumptions C30_corner_refuted.

(** * C31 *)
Theorem C31_line_search : forall phi steps norms max i, (i < length steps)%nat ->
  forallb (forallb close_to_0) steps = false -> 0 <= nth i max 1 ->
  let t := nth i (dpn_line_search phi steps norms max) 0 in
  (4 / 10) ^ 8 * nth i max 1 <= t <= nth i max 1 /\
  exists k (tried : list R), (k <= 8)%nat /\ length tried = Nat.min 8 (S k) /\ nth 0 tried 0 = nth i max 1 /\
  (forall j, (S j < length tried)%nat -> 4 / 10 * nth j tried 0 <= nth (S j) tried 0 <= 6 / 10 * nth j tried 0) /\
  (forall j, (j < k)%nat -> armijo (/ 10 ^ 4) (nth i norms NaN) (nth j tried 0) (phi i (nth j tried 0)) = false) /\
  ((k < 8)%nat -> nth k tried 0 = t /\ armijo (/ 10 ^ 4) (nth i norms NaN) t (phi i t) = true).
Proof.
  intros phi steps norms max i Hi Hc Hm t.
  assert (Et : t = fst (cubic_search 8 (/ 10 ^ 4) (phi i) (nth i norms NaN) 0 (nth i norms NaN) (nth i max 1))).
  { unfold t, dpn_line_search. rewrite Hc. rewrite (nth_map_default _ _ _ 0%nat) by (rewrite seq_length; auto). rewrite seq_nth by auto. reflexivity. }
  destruct (cubic_search_spec 8 (/ 10 ^ 4) (phi i) (nth i norms NaN) 0 (nth i norms NaN) (nth i max 1) Hm) as (k & Hk & H1 & H2 & H3 & H4 & H5 & H6). cbv zeta in *.
  rewrite <- Et in *. split.
  - destruct H1 as [H1 H1']. split.
    + eapply Rle_trans; [|exact H1]. apply Rmult_le_compat_r; auto. replace 8%nat with (k + (8 - k))%nat by lia. rewrite pow_add.
      assert (P : 0 < (4 / 10) ^ k) by (apply pow_lt; lra). assert (Q : (4 / 10) ^ (8 - k) <= 1). { rewrite <- (pow1 (8 - k)). apply pow_incr; lra. }
      rewrite <- (Rmult_1_r ((4 / 10) ^ k)) at 2. apply Rmult_le_compat_l; lra.
    + eapply Rle_trans; [exact H1'|]. assert (Q : (6 / 10) ^ k <= 1). { rewrite <- (pow1 k). apply pow_incr; lra. }
      rewrite <- (Rmult_1_l (nth i max 1)) at 2. apply Rmult_le_compat_r; auto.
  - exists k, (snd (cubic_search 8 (/ 10 ^ 4) (phi i) (nth i norms NaN) 0 (nth i norms NaN) (nth i max 1))).
    split; auto. split; auto. split. apply H5; lia. auto.
Qed.
Print Assumptions C31_line_search.
(** box handling followed by the line search keeps every point in the box; [dual]: dual
    components of the steps *)
Theorem C31_stays_in_box : forall phi xl xu X step dual norms i m step',
  (i < length X)%nat -> length step = length X ->
  length xl = length (nth i X []) -> length xu = length (nth i X []) -> point_in_box xl xu (nth i X []) ->
  length (nth i step []) = length (nth i X []) ->
  dpn_box xl xu (nth i X []) (nth i step []) = (step', Fin m) ->
  let steps := zip_with (fun x s => fst (dpn_box xl xu x s)) X step in
  let maxs := zip_with (fun x s => match snd (dpn_box xl xu x s) with Fin r => r | _ => 1 end) X step in
  let all := zip_with (@app R) steps dual in
  length dual = length X -> forallb (forallb close_to_0) all = false ->
  moved_inside xl xu (nth i X []) (nth i steps []) (nth i (dpn_line_search phi all norms maxs) 0).
Proof.
  intros phi xl xu X step dual norms i m step' Hi Hst Hl Hu Hb Hsl E steps maxs all Hdl Hc.
  destruct (C29_box_safe xl xu (nth i X []) (nth i step []) step' (Fin m) Hl Hu Hb Hsl E) as (_ & m0 & Em & Hm & Hsafe & _). injection Em as <-.
  assert (E1 : nth i steps [] = step') by (unfold steps; rewrite (zip_with_nth _ _ _ _ [] []) by lia; rewrite E; reflexivity).
  assert (E2 : nth i maxs 1 = m) by (unfold maxs; rewrite (zip_with_nth _ _ _ _ [] []) by lia; rewrite E; reflexivity).
  assert (L1 : length steps = length X) by (unfold steps; apply zip_with_length; auto).
  assert (L2 : length all = length X) by (unfold all; rewrite zip_with_length; congruence).
  destruct (C31_line_search phi all norms maxs i) as [H _]; auto; [lia|lra|]. rewrite E2 in H. rewrite E1. apply Hsafe.
  split; [|apply H]. eapply Rle_trans; [|apply (proj1 H)]. apply Rmult_le_pos; [apply pow_le; lra|lra].
Qed.
Print Assumptions C31_stays_in_box.
Example C31_meets : forallb (forallb close_to_0) [[0; 1]] = false /\ 0 <= nth 0 [/ 2] 1.
Proof.
  split. simpl. replace (close_to_0 1) with false. rewrite andb_false_r. auto. symmetry. unfold close_to_0. apply rleb_false. rewrite Rabs_R1. simpl. lra.
  simpl. lra.
Qed.
(** with only negligible components the step size is 1, whatever the maximal step size:
    the point leaves the box *)
Theorem C31_negligible_step_refuted : exists phi norms xl xu x step m, point_in_box [xl] [xu] [x] /\
  dpn_box [xl] [xu] [x] [step] = ([step], Fin m) /\ 0 < m < 1 /\
  let t := nth 0 (dpn_line_search phi [[step]] norms [m]) 0 in x + t * step < xl.
Proof.
  exists (fun _ _ => NaN), [], 0, 1, (/ 10 ^ 10), (- / 10 ^ 9), (/ 10).
  assert (Hp : 0 < / 10 ^ 10 < 1) by (simpl; lra).
  split. { intros [|k] Hk; simpl in Hk; [|lia]. simpl in *. lra. }
  split.
  { assert (Hr : box_ratios [0] [1] [/ 10 ^ 10] [- / 10 ^ 9] = [Fin (/ 10); PInf]).
    { unfold box_ratios. cbn [zip_with app map]. fold (ratio (Rabs (/ 10 ^ 10 - 0)) (- / 10 ^ 9)). fold (ratio (Rabs (1 - / 10 ^ 10)) (- - / 10 ^ 9)).
      rewrite Rminus_0_r. rewrite !Rabs_right by lra. rewrite ratio_neg, ratio_pos; try (simpl; lra). f_equal. f_equal. simpl; field. }
    unfold dpn_box. rewrite Hr. unfold nanmin, fmin, fle, cap1. cbn. replace (rltb (/ 10) 1) with true by (symmetry; apply rltb_true; lra).
    cbn. replace (reqb (/ 10) 0) with false by (symmetry; apply reqb_false; lra). reflexivity. }
  split; [lra|]. cbv zeta. unfold dpn_line_search. cbn [forallb]. unfold close_to_0.
  replace (rleb (Rabs (- / 10 ^ 9)) (/ 10 ^ 8)) with true. simpl. lra. symmetry. apply rleb_true. rewrite Rabs_Ropp, Rabs_right; simpl; lra.
Qed.
Print Assumptions C31_negligible_step_refuted.

(** * C32 *)
Theorem C32_duplicates : forall (order : list nat -> list nat) D eps N, (forall l, Permutation (order l) l) ->
  (forall i j, D i j = D j i) ->
  let K := kept order D eps N in
  NoDup K /\ (forall i, In i K -> (i < N)%nat) /\
  (forall i j, In i K -> In j K -> i <> j -> / 10 ^ 8 < Rabs (D i j)) /\
  (forall j, (j < N)%nat -> ~ In j K -> exists i, In i K /\ i <> j /\ Rabs (D i j) <= / 10 ^ 8) /\
  ((0 < N)%nat -> K <> []).
Proof.
  intros order D eps N Ho Hs. destruct (kept_spec D eps N Hs order Ho) as (H1 & H2 & H3 & H4 & H5). cbv zeta.
  split; auto. split; auto. split. { intros i j Hi Hj Hne. apply Rnot_le_lt. exact (H3 i j Hi Hj Hne). } split; auto.
Qed.
Print Assumptions C32_duplicates.
Theorem C32_population : forall (order : list nat -> list nat) eps X, (forall l, Permutation (order l) l) -> X <> [] ->
  let K := check_population order eps X in
  K <> [] /\ (forall i j, In i K -> In j K -> i <> j -> / 10 ^ 8 < dist2 (nth i X []) (nth j X [])) /\
  (forall j, (j < length X)%nat -> ~ In j K -> exists i, In i K /\ dist2 (nth i X []) (nth j X []) <= / 10 ^ 8).
Proof.
  intros order eps X Ho HX. cbv zeta.
  assert (Hz : forall p q, fold_right Rplus 0 (zip_with (fun a b => (a - b) * (a - b)) p q) = fold_right Rplus 0 (zip_with (fun a b => (a - b) * (a - b)) q p)).
  { induction p as [|a p IH]; intros [|b q]; simpl; auto. rewrite IH. f_equal. lra. }
  assert (Hab : forall i j, Rabs (dist2 (nth i X []) (nth j X [])) = dist2 (nth i X []) (nth j X [])) by (intros; apply Rabs_right, Rle_ge, sqrt_pos).
  destruct (C32_duplicates order (fun i j => dist2 (nth i X []) (nth j X [])) eps (length X) Ho) as (_ & _ & H3 & H4 & H5).
  { intros i j. unfold dist2. rewrite Hz. reflexivity. }
  split. apply H5. destruct X; [congruence|simpl; lia].
  split. intros i j Hi Hj Hne. rewrite <- Hab. apply H3; auto.
  intros j Hj Hn. destruct (H4 j Hj Hn) as (i & Hi & _ & Hle). exists i. split; auto. rewrite <- Hab. auto.
Qed.
Print Assumptions C32_population.
(** the tolerance [eps] passed to [isclose] as relative tolerance of 0 is without effect *)
Theorem C32_eps_without_effect : forall order D e1 e2 N, kept order D e1 N = kept order D e2 N.
Proof.
  intros. assert (Hc : forall i j, close_pair D e1 i j = close_pair D e2 i j) by (intros; unfold close_pair; rewrite Rabs_R0, !Rmult_0_r; reflexivity).
  unfold kept, drop_idx. f_equal. assert (Hd : forall l acc, fold_left (drop_step D e1 N) l acc = fold_left (drop_step D e2 N) l acc).
  { induction l as [|a l IH]; intros acc; simpl; auto. rewrite IH. f_equal. unfold drop_step. destruct (memn a acc); auto. f_equal. apply filter_ext. intros j. rewrite Hc. auto. }
  rewrite Hd. reflexivity.
Qed.
Print Assumptions C32_eps_without_effect.
(** so two points closer than a requested tolerance can both survive *)
Theorem C32_tolerance_refuted : exists order eps X i j, (forall l, Permutation (order l) l) /\ (i <> j)%nat /\
  let K := check_population order eps X in In i K /\ In j K /\ dist2 (nth i X []) (nth j X []) < eps.
Proof.
  exists (fun l => l), 1, [[0]; [/ 2]], 0%nat, 1%nat. split; [intros; apply Permutation_refl|]. split; [lia|].
  assert (Hd : dist2 [0] [/ 2] = / 2). { unfold dist2. cbn. replace ((0 - / 2) * (0 - / 2) + 0) with (/ 2 * / 2) by lra. apply sqrt_square. lra. }
  assert (Hd' : dist2 [/ 2] [0] = / 2). { unfold dist2. cbn. replace ((/ 2 - 0) * (/ 2 - 0) + 0) with (/ 2 * / 2) by lra. apply sqrt_square. lra. }
  assert (HS : forall i j, (i < 2)%nat -> (j < 2)%nat -> i <> j -> dist2 (nth i [[0]; [/ 2]] []) (nth j [[0]; [/ 2]] []) = / 2).
  { intros [|[|i]] [|[|j]] Hi Hj Hne; try lia; auto. }
  assert (Hk : forall j, (j < 2)%nat -> In j (check_population (fun l => l) 1 [[0]; [/ 2]])).
  { intros j Hj. destruct (in_dec Nat.eq_dec j (check_population (fun l => l) 1 [[0]; [/ 2]])) as [|Hn]; auto. exfalso.
    destruct (C32_duplicates (fun l => l) (fun i j => dist2 (nth i [[0]; [/ 2]] []) (nth j [[0]; [/ 2]] [])) 1 2) as (_ & H2 & _ & H4 & _).
    intros; apply Permutation_refl. intros i k. unfold dist2.
    destruct i as [|[|[|i]]], k as [|[|[|k]]]; cbn; auto; f_equal; lra.
    destruct (H4 j Hj Hn) as (i & Hi & Hne & Hle). rewrite HS in Hle by auto. rewrite Rabs_right in Hle by lra. simpl in Hle. lra. }
  cbv zeta. split; [apply Hk; lia|]. split; [apply Hk; lia|]. cbn [nth]. lra.
Qed.
Print Assumptions C32_tolerance_refuted.
Example C32_meets : (forall l : list nat, Permutation (rev l) l) /\ In 1%nat (drop_idx (fun _ _ => 0) 1 2).
Proof.
  split. intros; apply Permutation_sym, Permutation_rev. unfold drop_idx, drop_step. cbn [seq fold_left memn existsb filter app].
  assert (Hc : forall i j, close_pair (fun _ _ => 0) 1 i j = true).
  { intros. unfold close_pair. apply rleb_true. rewrite Rminus_0_r, Rabs_R0. simpl. lra. }
  rewrite !Hc. cbn. auto.
Qed.

(** * C33 *)
Theorem C33_layers : forall feasible Y m, length feasible = length Y -> (2 <= m)%nat -> (forall y, In y Y -> length y = m) ->
  exists d, hvn_layers feasible Y = Ok d /\
  (forall k l, In (k, l) d -> NoDup l /\ forall i, In i l -> (i < length Y)%nat) /\
  (* every individual is in exactly one layer *)
  (forall i, (i < length Y)%nat -> exists k l, In (k, l) d /\ In i l /\ forall k' l', In (k', l') d -> In i l' -> k' = k /\ l' = l) /\
  (* infeasible individuals are in layer 0 *)
  (forall i k l, In (k, l) d -> In i l -> nth i feasible false = false -> k = 0%nat) /\
  (* the layer of a feasible individual is the length of a longest chain of feasible individuals
     below it, each dominating the previous one *)
  (forall i k l, In (k, l) d -> In i l -> nth i feasible false = true ->
     (exists c, feasible_chain feasible Y i c /\ length c = k) /\ (forall c, feasible_chain feasible Y i c -> (length c <= k)%nat)).
Proof. exact hvn_layers_spec. Qed.
Print Assumptions C33_layers.
Example C33_meets : feasible_chain [true; false; true] [[1; 2]; [0; 0]; [2; 3]] 2 [0%nat] /\
  (forall y, In y [[1; 2]; [0; 0]; [2; 3]] -> length y = 2%nat).
Proof.
  split; [|intros y [<-|[<-|[<-|[]]]]; auto]. simpl. split; auto. split; auto. split; [reflexivity|]. split.
  - intros [|[|k]] Hk; cbn in *; try lia; lra.
  - exists 0%nat. cbn. split; [lia|lra].
Qed.

(** * C34 *)
Theorem C34_exact_iterations : forall St (iterate : St -> res St) s z fuel l, iterates iterate (Z.to_nat z) s = Ok l -> (Z.to_nat z <= fuel)%nat ->
  exists o, run iterate fuel (fresh s (Finite z)) = Ok o /\ o_iter o = Z.to_nat z /\ o_stop o = Some (Z.to_nat z) /\
  o_hist o = l /\ length (o_hist o) = Z.to_nat z /\ o_state o = last l s.
Proof.
  intros St iterate s z fuel l E Hf. eexists. split.
  - unfold fresh. apply (run_finite iterate (Z.to_nat z) s 0 z [] fuel l E Hf). destruct (Z.le_gt_cases z 0); [right|left]; lia.
  - cbn. repeat split; auto. clear -E. revert s l E. induction (Z.to_nat z) as [|n IH]; intros s l E; simpl in E. injection E as <-. auto.
    destruct (iterate s) as [s'|]; [|discriminate]. cbn [bind] in E. destruct (iterates iterate n s') as [l'|] eqn:El; [|discriminate]. injection E as <-. simpl. f_equal. eauto.
Qed.
Print Assumptions C34_exact_iterations.
(** exceptions of an iteration leave the loop *)
Theorem C34_exceptions : forall St (iterate : St -> res St) s z fuel e, iterates iterate (Z.to_nat z) s = Exn e -> (Z.to_nat z <= fuel)%nat ->
  run iterate fuel (fresh s (Finite z)) = Exn e.
Proof.
  intros St iterate s z fuel e E Hf. unfold fresh. apply (run_exception iterate (Z.to_nat z)); auto.
  destruct (Z.le_gt_cases z 0); [|lia]. replace (Z.to_nat z) with 0%nat in E by lia. discriminate.
Qed.
Print Assumptions C34_exceptions.
(** an infinite budget never ends: no fuel suffices *)
Theorem C34_unlimited : forall St (iterate : St -> res St) s fuel, (forall s, is_ok (iterate s) = true) ->
  run iterate fuel (fresh s Unlimited) = Exn OutOfFuel.
Proof. intros. apply run_unlimited. auto. Qed.
Print Assumptions C34_unlimited.
Example C34_meets : iterates (fun x => Ok (x + 1)%Z) (Z.to_nat 3) 0%Z = Ok [1; 2; 3]%Z /\ default_budget 5 None = Finite 50.
Proof. split; reflexivity. Qed.

(** * C35 *)
(** the budget is raised between two calls of [run] *)
Definition with_budget {St} (o : @opt St) (b : budget) : @opt St := mkOpt (o_state o) (o_iter o) b (o_stop o) (o_hist o).
Theorem C35_resume_refuted : exists (iterate : Z -> res Z) s z fuel o, (forall s, is_ok (iterate s) = true) /\
  run iterate fuel (fresh s (Finite z)) = Ok o /\ o_iter o = 2%nat /\
  forall z' fuel', exists o', run iterate fuel' (with_budget o (Finite z')) = Ok o' /\ o_iter o' = 2%nat /\ o_hist o' = o_hist o.
Proof.
  exists (fun x => Ok (x + 1)%Z), 0%Z, 2%Z, 2%nat. eexists. split; [reflexivity|]. split; [reflexivity|]. split; [reflexivity|].
  intros z' fuel'. unfold with_budget. cbn. destruct (run_stopped (fun x => Ok (x + 1)%Z) fuel' 2%Z 2 (Finite z') 2 [1%Z; 2%Z]) as (k & E).
  eexists. split; [exact E|]. split; reflexivity.
Qed.
Print Assumptions C35_resume_refuted.
(** after any completed run a further [run] performs no iteration, whatever the new budget *)
Theorem C35_no_resume_partial : forall St (iterate : St -> res St) fuel o o', run iterate fuel o = Ok o' ->
  forall b fuel', exists o'', run iterate fuel' (with_budget o' b) = Ok o'' /\ o_state o'' = o_state o' /\ o_iter o'' = o_iter o' /\ o_hist o'' = o_hist o'.
Proof.
  intros St iterate fuel o o' E b fuel'. assert (Hs : exists k, o_stop o' = Some k).
  { revert o E. induction fuel as [|f IH]; intros o E; cbn [run] in E; unfold terminate in E;
      destruct (if reached o then Some (o_iter o) else o_stop o) eqn:Es; try discriminate; try (injection E as <-; cbn; eauto).
    cbn [o_state o_iter o_max o_stop o_hist] in E. destruct (iterate (o_state o)) as [s|]; [|discriminate]. cbn [bind] in E. eauto. }
  destruct Hs as (k & Hk). unfold with_budget. rewrite Hk. destruct (run_stopped iterate fuel' (o_state o') (o_iter o') b k (o_hist o')) as (k' & E').
  eexists. split; [exact E'|]. auto.
Qed.
Print Assumptions C35_no_resume_partial.
Example C35_meets : exists o, run (fun x => Ok (x + 1)%Z) 2 (fresh 0%Z (Finite 2)) = Ok o.
Proof. eexists. reflexivity. Qed.
