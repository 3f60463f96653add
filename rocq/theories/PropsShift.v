(** Property theorems: direction and steps of the shifts of the reference set, line search of MMDNewton. *)
From Coq Require Import List Arith Bool Reals Lia Lra Permutation Sorting.Sorted.
From Verif Require Import Num Exn ListAux StateModel StateProof NewtonModel NewtonProof RefModel RefProof RefSpec RefTop RefShift ShiftModel ShiftSpec ShiftProof ShiftMain.
Import ListNotations.
Open Scope R_scope.

(** * C98 *)
(** the direction has length 1 and no positive entry *)
Theorem C98_unit : forall qr m Y r, qr_ok qr -> Y <> [] -> (0 < m)%nat -> (forall y, In y Y -> length y = m) -> compute_chim qr m Y = Ok r ->
  exists n, r = Some n /\ length n = m /\ dot m n n = 1 /\ forall k, (k < m)%nat -> nth k n 0 <= 0.
Proof. intros qr m Y r H. apply (chim_unit qr H). Qed.
Print Assumptions C98_unit.
(** two objectives: it is orthogonal to the line through the minimisers of the objectives *)
Theorem C98_two : forall qr Y r, qr_ok qr -> Y <> [] -> (forall y, In y Y -> length y = 2%nat) -> compute_chim qr 2 Y = Ok r ->
  exists n z, r = Some n /\ (forall j, (j < 2)%nat -> least j Y (z j)) /\ normal_to 2 z n.
Proof. intros qr Y r H. apply (chim_two qr H). Qed.
Print Assumptions C98_two.
(** more objectives: if the normals of the plane through the minimisers have entries of one sign *)
Theorem C98_one_sign_partial : forall qr m Y r, qr_ok qr -> Y <> [] -> (0 < m)%nat -> (forall y, In y Y -> length y = m) -> compute_chim qr m Y = Ok r ->
  exists n z, r = Some n /\ (forall j, (j < m)%nat -> least j Y (z j)) /\
  ((forall v, length v = m -> normal_to m z v -> one_sign m v) -> normal_to m z n).
Proof. intros qr m Y r H. apply (chim_normal qr H). Qed.
Print Assumptions C98_one_sign_partial.
(** without that the result is not orthogonal: the signs of the normal are lost *)
Definition ex_chim : list (list R) := [[0; 2; 1]; [1; 0; 3]; [4; 12; 0]].
Definition ex_cols : list (list R) := [[1; -2; 2]; [4; 10; -1]].
Definition ex_Q : list (list R) := [[1/3; 2/3; -2/3]; [-2/3; 2/3; 1/3]; [2/3; 1/3; 2/3]].
Definition ex_qr (m : nat) (cols : list (list R)) : res (list (list R)) :=
  if (m =? 3)%nat then if list_eq_dec (list_eq_dec Req_EM_T) cols ex_cols then Ok ex_Q else Exn ValueError else Exn ValueError.
Lemma ex_qr_ok : qr_ok ex_qr.
Proof.
  intros m cols Q E. unfold ex_qr in E. destruct (Nat.eqb_spec m 3) as [->|]; [|discriminate]. destruct (list_eq_dec _ cols ex_cols) as [->|]; [|discriminate]. injection E as <-. split.
  - split; [reflexivity|]. intros i j Hi Hj. unfold bigsum, entry, ex_Q. cbn [seq map fold_right].
    destruct i as [|[|[|i]]]; try lia; destruct j as [|[|[|j]]]; try lia; cbn [nth Nat.eqb]; lra.
  - exists (fun i j => match i, j with O, O => 3 | O, S O => -6 | S O, S O => 9 | _, _ => 0 end). split.
    + intros [|[|i]] [|[|j]] H; try lia; reflexivity.
    + intros j k Hj Hk. unfold bigsum, entry, ex_Q, ex_cols in *. cbn [seq map fold_right length] in *.
      destruct j as [|[|j]]; try lia; destruct k as [|[|[|k]]]; try lia; cbn [nth]; lra.
Qed.
Ltac real_lists := repeat (apply (f_equal2 (@cons R)); [lra|]); try reflexivity.
Ltac rtest := repeat match goal with
  | |- context [rltb ?a ?b] => first [rewrite (proj2 (rltb_true a b)) by lra | rewrite (proj2 (rltb_false a b)) by lra]
  | |- context [rleb ?a ?b] => first [rewrite (proj2 (rleb_true a b)) by lra | rewrite (proj2 (rleb_false a b)) by lra]
  | |- context [reqb ?a ?b] => first [rewrite (proj2 (reqb_true a b)) by lra | rewrite (proj2 (reqb_false a b)) by lra]
  end.
Theorem C98_normal_refuted : exists qr Y n z, qr_ok qr /\ Y <> [] /\ (forall y, In y Y -> length y = 3%nat) /\ compute_chim qr 3 Y = Ok (Some n) /\
  (forall j z', (j < 3)%nat -> least j Y z' <-> z' = z j) /\ ~ normal_to 3 z n.
Proof.
  exists ex_qr, ex_chim. eexists. exists (fun j => nth j ex_chim []). split; [exact ex_qr_ok|]. split; [discriminate|].
  split. { intros y [<-|[<-|[<-|[]]]]; reflexivity. }
  assert (EM : minimisers 3 ex_chim = ex_chim).
  { unfold minimisers, ex_chim, column. cbn [seq map nth]. unfold argminR. cbn [argmin_from]. rtest. cbn [argmin_from]. rtest. cbn [argmin_from nth]. reflexivity. }
  split.
  { unfold compute_chim, ex_chim at 1. rewrite EM. replace (differences ex_chim) with ex_cols.
    2:{ unfold ex_cols, ex_chim, differences. cbn [map zip_with]. apply (f_equal2 cons); [|apply (f_equal2 cons); [|reflexivity]]; real_lists. }
    unfold ex_qr. cbn [Nat.eqb]. destruct (list_eq_dec _ ex_cols ex_cols); [|congruence]. cbn [bind].
    rewrite (normalise_spec 3 ex_Q) by (try lia; apply (ex_qr_ok 3%nat ex_cols); unfold ex_qr; cbn [Nat.eqb]; destruct (list_eq_dec _ ex_cols ex_cols); congruence).
    reflexivity. }
  split.
  - intros j z' Hj. split.
    + intros [Hin Hl]. unfold ex_chim in *. destruct j as [|[|[|j]]]; try lia; cbn [nth].
      * specialize (Hl [0; 2; 1] (or_introl eq_refl)). destruct Hin as [<-|[<-|[<-|[]]]]; auto; simpl in Hl; lra.
      * specialize (Hl [1; 0; 3] (or_intror (or_introl eq_refl))). destruct Hin as [<-|[<-|[<-|[]]]]; auto; simpl in Hl; lra.
      * specialize (Hl [4; 12; 0] (or_intror (or_intror (or_introl eq_refl)))). destruct Hin as [<-|[<-|[<-|[]]]]; auto; simpl in Hl; lra.
    + intros ->. pose proof (minimiser_least 3 ex_chim j ltac:(discriminate) Hj) as H. rewrite EM in H. exact H.
  - intros H. specialize (H 1%nat ltac:(lia)). unfold dot, bigsum, ex_Q, ex_chim in H. cbn [seq map fold_right nth Nat.sub] in H.
    rewrite (Rabs_left1 (-2/3)), (Rabs_right (1/3)), (Rabs_right (2/3)) in H by lra. lra.
Qed.
Print Assumptions C98_normal_refuted.
Example C98_meets : qr_ok ex_qr /\ exists n, compute_chim ex_qr 3 ex_chim = Ok (Some n).
Proof. split; [exact ex_qr_ok|]. unfold compute_chim, ex_chim at 1.
  replace (differences (minimisers 3 ex_chim)) with ex_cols.
  2:{ unfold minimisers, ex_chim, column. cbn [seq map nth]. unfold argminR. cbn [argmin_from]. rtest. cbn [argmin_from]. rtest. cbn [argmin_from nth].
      unfold ex_cols, differences. cbn [map zip_with]. apply (f_equal2 cons); [|apply (f_equal2 cons); [|reflexivity]]; real_lists. }
  unfold ex_qr. cbn [Nat.eqb]. destruct (list_eq_dec _ ex_cols ex_cols); [|congruence]. cbn [bind].
  rewrite (normalise_spec 3 ex_Q) by (try lia; apply (ex_qr_ok 3%nat ex_cols); unfold ex_qr; cbn [Nat.eqb]; destruct (list_eq_dec _ ex_cols ex_cols); congruence).
  eauto.
Qed.

(** * C99 *)
(** DpN: in the first iteration all targets move by 0.08 times the direction of their component,
    later by 0.05 exactly those whose point is at the target and has a step of length 0 (up to 1e-8); the others stay; the log has the moved ones *)
Theorem C99_dpn_shift : forall iter Y steps s M mi, consistent s -> eta_ok s -> rs_matched s = Some (M, mi) -> length Y = length M -> length steps = length M ->
  exists s' lg M', dpn_shift iter (length M) Y steps s = Ok (s', lg) /\ consistent s' /\ eta_ok s' /\ rs_matched s' = Some (M', mi) /\ length M' = length M /\
  logged (dpn_moves iter Y M steps) M' lg /\
  forall k, (k < length M)%nat -> exists c i e w, nth_error mi k = Some (Some (c, i)) /\ nth_error (rs_eta s) c = Some e /\
    shifted w e (nth k M []) (nth k M' []) /\
    (dpn_moves iter Y M steps k -> w = match iter with O => 0.08 | S _ => 0.05 end) /\ (~ dpn_moves iter Y M steps k -> w = 0).
Proof. exact dpn_shift_spec. Qed.
Print Assumptions C99_dpn_shift.
(** a matched set for the examples: two targets in one component, direction -1 *)
Definition ex_set : refset := mkRS [[[0]; [1]]] [[-1]] (Some [[0; 1]%nat]) true [Some [[0]; [1]]] (Some ([[0]; [1]], [Some (0, 0); Some (0, 1)]%nat)).
Lemma ex_set_ok : consistent ex_set /\ eta_ok ex_set /\ wf ex_set.
Proof.
  split; [|split].
  - eexists. eexists. split; [reflexivity|]. split; [reflexivity|]. split.
    + intros [|[|k]] H; simpl in H; try lia; [exists 0%nat, 0%nat|exists 0%nat, 1%nat]; exists [[0]; [1]]; cbn; repeat split; auto.
    + intros [|[|k]] [|[|k']] p H1 H2; cbn in *; try congruence; try (destruct k; discriminate); try (destruct k'; discriminate).
  - intros M mi k c i E Hk. cbn in E. injection E as <- <-. destruct k as [|[|k]]; cbn in Hk; try (destruct k; discriminate); injection Hk as <- <-; exists [-1]; auto.
  - split; [reflexivity|discriminate].
Qed.
Lemma apart_1 a b : apart [a] [b] = Rabs (a - b).
Proof. unfold apart. cbn. rewrite Rplus_0_r. apply sqrt_Rsqr_abs. Qed.
Lemma length_of_1 a : length_of [a] = Rabs a.
Proof. unfold length_of. cbn. rewrite Rplus_0_r. apply sqrt_Rsqr_abs. Qed.
(** the docstring asks for a step that is not zero: a point on its target with step 1 is not
    followed by a shift, a point with step 0 is *)
Theorem C99_docstring_refuted : exists Y steps s s' lg, consistent s /\ eta_ok s /\ dpn_shift 1 2 Y steps s = Ok (s', lg) /\
  reference_set s = [[0]; [1]] /\ Y = [[0]; [1]] /\ steps = [[1]; [0]] /\
  nth 0 (reference_set s') [] = [0] /\ nth 0 (nth 1 (reference_set s') []) 0 = 0.95 /\ map fst lg = [1%nat].
Proof.
  exists [[0]; [1]], [[1]; [0]], ex_set. destruct ex_set_ok as (H1 & H2 & _).
  destruct (dpn_shift_spec 1 [[0]; [1]] [[1]; [0]] ex_set [[0]; [1]] _ H1 H2 eq_refl eq_refl eq_refl) as (s' & lg & M' & E & _ & _ & E' & EL & Hlg & Hk).
  exists s', lg. split; auto. split; auto. split; [exact E|]. split; auto. split; auto. split; auto.
  assert (HR : reference_set s' = M') by (unfold reference_set; rewrite E'; auto). rewrite HR.
  assert (N0 : ~ dpn_moves 1 [[0]; [1]] [[0]; [1]] [[1]; [0]] 0). { intros [H|[_ H]]; [discriminate|]. cbn [nth] in H. rewrite length_of_1, Rabs_right in H by lra. unfold tiny in H. lra. }
  assert (N1 : dpn_moves 1 [[0]; [1]] [[0]; [1]] [[1]; [0]] 1). { right. cbn [nth]. rewrite apart_1, length_of_1. replace (1 - 1) with 0 by lra. rewrite Rabs_R0. unfold tiny. lra. }
  destruct (Hk 0%nat ltac:(simpl; lia)) as (c & i & e & w & _ & _ & (L0 & S0) & _ & W0). rewrite (W0 N0) in *.
  destruct (Hk 1%nat ltac:(simpl; lia)) as (c1 & i1 & e1 & w1 & B1 & B2 & (L1 & S1) & W1 & _). rewrite (W1 N1) in *.
  split; [|split].
  - destruct (nth 0 M' []) as [|x [|]]; cbn in L0; try discriminate. specialize (S0 0%nat). cbn in S0. f_equal. lra.
  - cbn in B1. injection B1 as <- <-. cbn in B2. injection B2 as <-. rewrite S1. cbn. lra.
  - destruct Hlg as [Hn Hlg]. assert (Hin : forall k, In k (map fst lg) <-> k = 1%nat).
    { intros k. rewrite in_map_iff. split.
      - intros ((k' & r) & <- & H). apply Hlg in H. cbn [fst]. destruct H as (H3 & H4 & _). rewrite EL in H3. simpl in H3. destruct k' as [|[|k']]; auto; try lia. contradiction.
      - intros ->. exists (1%nat, nth 1 M' []). split; auto. apply Hlg. rewrite EL. split; [simpl; lia|]. auto. }
    destruct (map fst lg) as [|a [|b l]]. exfalso. apply (proj2 (Hin 1%nat) eq_refl). f_equal. apply Hin; simpl; auto.
    exfalso. assert (a = 1%nat) by (apply Hin; simpl; auto). assert (b = 1%nat) by (apply Hin; simpl; auto). apply NoDup_cons_iff in Hn. destruct Hn as [Hn _]. apply Hn. simpl. left. congruence.
Qed.
Print Assumptions C99_docstring_refuted.
Example C99_meets : consistent ex_set /\ eta_ok ex_set /\ rs_matched ex_set = Some ([[0]; [1]], [Some (0, 0); Some (0, 1)]%nat) /\ ~ dpn_moves 1 [[0]; [1]] [[0]; [1]] [[1]; [0]] 0.
Proof. split; [apply ex_set_ok|]. split; [apply ex_set_ok|]. split; [reflexivity|]. intros [H|[_ H]]; [discriminate|]. cbn [nth] in H. rewrite length_of_1, Rabs_right in H by lra. unfold tiny in H. lra. Qed.

(** * C100 *)
(** MMDNewton: always 0.08, and the nearest target decides *)
Theorem C100_mmd_shift : forall iter Y steps s M mi, consistent s -> eta_ok s -> rs_matched s = Some (M, mi) -> length Y = length M -> M <> [] -> length steps = length M ->
  exists s' lg M', mmd_shift iter (length M) Y steps s = Ok (s', lg) /\ consistent s' /\ eta_ok s' /\ rs_matched s' = Some (M', mi) /\ length M' = length M /\
  logged (mmd_moves iter Y M steps) M' lg /\
  forall k, (k < length M)%nat -> exists c i e w, nth_error mi k = Some (Some (c, i)) /\ nth_error (rs_eta s) c = Some e /\
    shifted w e (nth k M []) (nth k M' []) /\
    (mmd_moves iter Y M steps k -> w = 0.08) /\ (~ mmd_moves iter Y M steps k -> w = 0).
Proof. exact mmd_shift_spec. Qed.
Print Assumptions C100_mmd_shift.
(** "close to its matched target": point 0 lies on target 1, far from its own target 0, and target 0 moves *)
Theorem C100_own_target_refuted : exists Y steps s s' lg, consistent s /\ eta_ok s /\ mmd_shift 1 2 Y steps s = Ok (s', lg) /\
  reference_set s = [[0]; [1]] /\ Y = [[1]; [1]] /\ nth 0 (nth 0 (reference_set s') []) 0 = -0.08.
Proof.
  exists [[1]; [1]], [[0]; [0]], ex_set. destruct ex_set_ok as (H1 & H2 & _).
  destruct (mmd_shift_spec 1 [[1]; [1]] [[0]; [0]] ex_set [[0]; [1]] _ H1 H2 eq_refl eq_refl ltac:(discriminate) eq_refl) as (s' & lg & M' & E & _ & _ & E' & EL & _ & Hk).
  exists s', lg. split; auto. split; auto. split; [exact E|]. split; auto. split; auto.
  assert (HR : reference_set s' = M') by (unfold reference_set; rewrite E'; auto). rewrite HR.
  assert (N0 : mmd_moves 1 [[1]; [1]] [[0]; [1]] [[0]; [0]] 0).
  { right. split. exists [1]. split; [simpl; auto|]. cbn [nth]. rewrite apart_1. replace (1 - 1) with 0 by lra. rewrite Rabs_R0. unfold tiny. lra. cbn [nth]. rewrite length_of_1, Rabs_R0. unfold tiny. lra. }
  destruct (Hk 0%nat ltac:(simpl; lia)) as (c & i & e & w & B1 & B2 & (L0 & S0) & W0 & _). rewrite (W0 N0) in *.
  cbn in B1. injection B1 as <- <-. cbn in B2. injection B2 as <-. rewrite S0. cbn. lra.
Qed.
Print Assumptions C100_own_target_refuted.
(** a set that is never matched (MMDNewton with matching=False) moves as a whole in every iteration *)
Theorem C100_unmatched : forall iter N Y steps s mask, rs_matched s = None -> (length (rs_ref s) <= length (rs_eta s))%nat ->
  mmd_masks iter N Y (reference_set s) steps = Ok mask ->
  (forall k, (k < length mask)%nat -> nth k mask false = true -> (k < length (concat (rs_ref s)))%nat) ->
  exists s' lg, mmd_shift iter N Y steps s = Ok (s', lg) /\ rs_matched s' = None /\
  forall c comp e r, nth_error (rs_ref s) c = Some comp -> nth_error (rs_eta s) c = Some e -> forall i, nth_error comp i = Some r ->
    length r = length e -> exists comp' r', nth_error (rs_ref s') c = Some comp' /\ nth_error comp' i = Some r' /\ shifted 0.08 e r r'.
Proof.
  intros iter N Y steps s mask Hm Hl E Hb. unfold mmd_shift. rewrite E. cbn [bind].
  destruct (unmatched_shift s 0.08 (Some (indices_of mask)) Hm Hl) as (s' & E1 & M1 & _ & R1). rewrite E1. cbn [bind].
  assert (HL : length (reference_set s') = length (concat (rs_ref s))).
  { unfold reference_set. rewrite M1, R1. apply (length_shifted_ref (fun k => scale 0.08 (nth k (rs_eta s) []))). }
  rewrite log_total. 2:{ intros k Hk. apply positions_iff in Hk. rewrite HL. apply Hb; tauto. }
  cbn [bind]. eexists. eexists. split; [reflexivity|]. split; auto. intros c comp e r H1 H2 i H3 H4.
  assert (Hc : (c < length (rs_ref s))%nat) by (apply nth_error_Some; congruence).
  exists (map (fun r => add_vec r (scale 0.08 e)) comp), (add_vec r (scale 0.08 e)). split; [|split].
  - rewrite R1. rewrite nth_error_map. rewrite (nth_error_nth' _ (0%nat, [])) by (rewrite combine_length, seq_length, Nat.min_id; auto).
    rewrite combine_nth by apply seq_length. rewrite seq_nth by auto. cbn [option_map fst snd Nat.add]. rewrite (nth_error_nth _ _ [] H1), (nth_error_nth _ _ [] H2). auto.
  - rewrite nth_error_map, H3. auto.
  - split. rewrite add_vec_length; auto. rewrite scale_length; auto. intros j. rewrite add_vec_nth, scale_nth; auto. rewrite scale_length; auto.
Qed.
Print Assumptions C100_unmatched.
Theorem C100_unmatched_refuted : exists Y steps s s', rs_matched s = None /\ mmd_shift 1 1 Y steps s = Ok (s', []) /\
  Y = [[5]] /\ reference_set s = [[0]; [1]] /\ nth 0 (nth 0 (reference_set s') []) 0 = -0.08 /\ nth 0 (nth 1 (reference_set s') []) 0 = 0.92.
Proof.
  exists [[5]], [[1]], (mkRS [[[0]; [1]]] [[-1]] None true [None] None).
  destruct (mmd_masks_spec 1 [[5]] [[0]; [1]] [[1]] ltac:(discriminate) eq_refl) as (mask & E & L & Hk). cbn [length] in E, L, Hk.
  assert (Hf : nth 0 mask false = false). { destruct (nth 0 mask false) eqn:Em; auto. apply (Hk 0%nat) in Em; [|lia]. destruct Em as [Em|[_ Em]]; [discriminate|]. cbn [nth] in Em. rewrite length_of_1, Rabs_right in Em by lra. unfold tiny in Em. lra. }
  destruct mask as [|b [|]]; try discriminate. cbn in Hf. subst b.
  eexists. split; [reflexivity|]. split. { unfold mmd_shift. cbn [reference_set rs_matched rs_ref concat app]. rewrite E. reflexivity. }
  split; auto. split; auto. cbn. lra.
Qed.
Print Assumptions C100_unmatched_refuted.
(** and with more points than reference points the first iteration fails when it logs them *)
Theorem C100_unmatched_error : forall N Y steps s, rs_matched s = None -> (length (rs_ref s) <= length (rs_eta s))%nat ->
  (length (concat (rs_ref s)) < N)%nat -> mmd_shift 0 N Y steps s = Exn IndexError.
Proof.
  intros N Y steps s Hm Hl HN. unfold mmd_shift. cbn [mmd_masks bind].
  destruct (unmatched_shift s 0.08 (Some (indices_of (repeat true N))) Hm Hl) as (s' & E1 & M1 & _ & R1). rewrite E1. cbn [bind].
  assert (HL : length (reference_set s') = length (concat (rs_ref s))).
  { unfold reference_set. rewrite M1, R1. apply (length_shifted_ref (fun k => scale 0.08 (nth k (rs_eta s) []))). }
  assert (K : forall ix, (exists k, In k ix /\ (length (reference_set s') <= k)%nat) -> log_medoids s' ix = Exn IndexError).
  { unfold log_medoids. induction ix as [|k ix IH]; intros (q & Hq & Hle); [contradiction|]. cbn [mapM]. unfold nth_res. destruct (nth_error (reference_set s') k) as [r|] eqn:Er; [|reflexivity].
    cbn [bind]. assert (q <> k) by (intros ->; apply nth_error_None in Hle; congruence). destruct Hq as [->|Hq]; [congruence|]. unfold nth_res in IH. rewrite IH by eauto. auto. }
  rewrite K. reflexivity. exists (length (reference_set s')). split; auto. apply positions_iff. rewrite repeat_length. split; [lia|]. apply repeat_true_nth. lia.
Qed.
Print Assumptions C100_unmatched_error.
Example C100_meets : consistent ex_set /\ eta_ok ex_set /\ mmd_moves 1 [[1]; [1]] [[0]; [1]] [[0]; [0]] 0 /\
  (length (concat [[[0]; [1]]]) < 3)%nat.
Proof.
  split; [apply ex_set_ok|]. split; [apply ex_set_ok|]. split; [|simpl; lia].
  right. split. exists [1]. split; [simpl; auto|]. cbn [nth]. rewrite apart_1. replace (1 - 1) with 0 by lra. rewrite Rabs_R0. unfold tiny. lra. cbn [nth]. rewrite length_of_1, Rabs_R0. unfold tiny. lra.
Qed.

(** * C101 *)
Definition value (i : indicator) (gd igd : R) : R := match i with TheGD => gd | TheIGD => igd end.
(** type "deltap": the incumbent indicator attains the larger of the two values, which is the logged one *)
Theorem C101_deltap : forall gd igd, value (active_indicator Deltap gd igd) gd igd = Rmax gd igd /\ curr_indicator_value gd igd = Rmax gd igd.
Proof.
  intros gd igd. unfold active_indicator, curr_indicator_value. split.
  - destruct (rltb igd gd) eqn:E; cbn [value]; [apply rltb_true in E; rewrite Rmax_left by lra|apply rltb_false in E; rewrite Rmax_right by lra]; auto.
  - destruct (rltb gd igd) eqn:E; [apply rltb_true in E; rewrite Rmax_right by lra|apply rltb_false in E; rewrite Rmax_left by lra]; auto.
Qed.
Print Assumptions C101_deltap.
(** with type "gd" or "igd" the logged value need not be the value of the incumbent indicator *)
Theorem C101_logged_refuted : forall t, t <> Deltap -> exists gd igd, curr_indicator_value gd igd <> value (active_indicator t gd igd) gd igd.
Proof.
  intros [| |] H; [exists 0, 1|exists 1, 0|congruence]; unfold curr_indicator_value; cbn [active_indicator value]; rtest; lra.
Qed.
Print Assumptions C101_logged_refuted.
(** MMDNewton: if all primal entries of the step exceed 2e-8 (or are below -2e-8) the step size is
    found by halving 1 up to six times, and satisfies the descent condition unless all trials failed *)
Lemma insertR_perm x l : Permutation (insertR x l) (x :: l).
Proof. induction l as [|y l IH]; simpl; auto. destruct (rleb x y); auto. transitivity (y :: x :: l); [apply perm_skip; auto|apply perm_swap]. Qed.
Lemma sortR_perm l : Permutation (sortR l) l.
Proof. induction l as [|x l IH]; simpl; auto. transitivity (x :: sortR l); [apply insertR_perm|apply perm_skip; auto]. Qed.
Lemma median_between l a b : l <> [] -> (forall x, In x l -> a <= x <= b) -> exists m, median l = Fin m /\ a <= m <= b.
Proof.
  intros Hl H. unfold median. assert (Hn : (0 < length l)%nat) by (destruct l; [congruence|simpl; lia]). destruct (length l) as [|n] eqn:E; [lia|]. eexists. split; [reflexivity|].
  assert (K : forall i, (i < S n)%nat -> a <= nth i (sortR l) 0 <= b).
  { intros i Hi. apply H. apply (Permutation_in _ (sortR_perm l)). apply nth_In. rewrite (Permutation_length (sortR_perm l)). lia. }
  pose proof (K ((S n - 1) / 2)%nat ltac:(apply Nat.div_lt_upper_bound; lia)). pose proof (K (S n / 2)%nat ltac:(apply Nat.div_lt_upper_bound; lia)). lra.
Qed.
Lemma mmd_box_min step : step <> [] -> list_minR (snd (mmd_box step)) = Ok 1.
Proof.
  destruct step as [|s step]; [congruence|]. intros _. cbn. f_equal. induction step as [|t step IH]; cbn; auto. unfold Rmin at 2. destruct (Rle_dec 1 1); auto.
Qed.
Theorem C101_mmd_step : forall d step phi0 phi, concat (map (firstn d) step) <> [] ->
  (forall x, In x (concat (map (firstn d) step)) -> / 10 ^ 8 * 2 < x) \/ (forall x, In x (concat (map (firstn d) step)) -> x < - (/ 10 ^ 8 * 2)) ->
  exists k, mmd_step_size d step phi0 phi = Ok ((/ 2) ^ k) /\ (k <= 6)%nat /\
  (forall j, (j < k)%nat -> armijo (/ 10 ^ 6) phi0 ((/ 2) ^ j) (phi ((/ 2) ^ j)) = false) /\
  ((k < 6)%nat -> armijo (/ 10 ^ 6) phi0 ((/ 2) ^ k) (phi ((/ 2) ^ k)) = true).
Proof.
  intros d step phi0 phi Hne Hs. unfold mmd_step_size. set (l := concat (map (firstn d) step)) in *.
  assert (Hr : near_resolution (median l) = false).
  { assert (Hmax : exists a b, (forall x, In x l -> a <= x <= b) /\ ((/ 10 ^ 8 * 2 < a) \/ b < - (/ 10 ^ 8 * 2))).
    { destruct l as [|x0 l0]; [congruence|]. clear Hne. assert (K : exists a b, (forall x, In x (x0 :: l0) -> a <= x <= b) /\ In a (x0 :: l0) /\ In b (x0 :: l0)).
      { clear. induction l0 as [|y l0 (a & b & H1 & H2 & H3)]. exists x0, x0. repeat split; simpl; auto; destruct H as [->|[]]; lra.
        exists (Rmin a y), (Rmax b y). split; [|split].
        - pose proof (Rmin_l a y). pose proof (Rmin_r a y). pose proof (Rmax_l b y). pose proof (Rmax_r b y). intros x [<-|[<-|Hx]]. specialize (H1 x0 ltac:(simpl; auto)). lra. lra. specialize (H1 x ltac:(simpl; auto)). lra.
        - unfold Rmin. destruct (Rle_dec a y); simpl in *; tauto.
        - unfold Rmax. destruct (Rle_dec b y); simpl in *; tauto. }
      destruct K as (a & b & H1 & H2 & H3). exists a, b. split; auto. destruct Hs as [Hs|Hs]; [left|right]; apply Hs; auto. }
    destruct Hmax as (a & b & H1 & H2). destruct (median_between l a b Hne H1) as (m & -> & Hm). cbn [near_resolution]. apply rleb_false.
    destruct H2. rewrite Rabs_right by lra. lra. rewrite Rabs_left1 by lra. lra. }
  rewrite Hr. assert (Hstep : step <> []). { intros ->. apply Hne. reflexivity. } rewrite mmd_box_min by auto. cbn [bind].
  destruct (backtrack_spec 6 (/ 10 ^ 6) phi phi0 1) as (k & H1 & H2 & H3 & H4 & H5).
  assert (T : forall k, NewtonProof.trial 1 k = (/ 2) ^ k) by (intros; unfold NewtonProof.trial; lra).
  exists k. unfold mmd_line_search. rewrite H2, T. split; auto. split; auto. split. intros j Hj. rewrite <- T. auto. intros Hk. rewrite <- T. auto.
Qed.
Print Assumptions C101_mmd_step.
(** a step with entries 1 and -1 has median 0: it is taken in full without any test, even if R grows *)
Theorem C101_armijo_refuted : exists d step phi0 phi, mmd_step_size d step (Fin phi0) (fun s => Fin (phi s)) = Ok 1 /\
  (exists r x, In r step /\ In x (firstn d r) /\ 1 <= x) /\ 0 < phi0 /\ phi 1 > 100 * phi0 /\
  armijo (/ 10 ^ 6) (Fin phi0) (/ 2) (Fin (phi (/ 2))) = true.
Proof.
  exists 1%nat, [[1]; [-1]], 1, (fun s => if rltb s 1 then 0 else 1000). split.
  { unfold mmd_step_size. cbn [map firstn concat app]. unfold median, sortR. cbn [length fold_right insertR]. rtest. cbn [insertR]. cbn [Nat.sub Nat.div Nat.divmod fst nth near_resolution].
    replace ((-1 + 1) / 2 - / 10 ^ 15) with (- / 10 ^ 15) by lra. rewrite Rabs_Ropp, Rabs_right by lra. rtest. reflexivity. }
  split. exists [1], 1. simpl. split; auto. split; auto. lra. split; [lra|]. split. rtest. lra.
  unfold armijo. cbn [fle fmul]. rtest. reflexivity.
Qed.
Print Assumptions C101_armijo_refuted.
(** there is no box handling: a point inside the box can leave it *)
Theorem C101_box_refuted : exists d X step phi0 phi s X', mmd_step_size d step phi0 phi = Ok s /\ X' = mmd_update s X (fst (mmd_box step)) /\
  X = [[/ 2]] /\ nth 0 (nth 0 X' []) 0 > 1.
Proof.
  exists 1%nat, [[/ 2]], [[2]], (Fin 1), (fun _ => Fin 0), 1. eexists. split; [|split; [reflexivity|split; [reflexivity|cbn; lra]]].
  unfold mmd_step_size. cbn [map firstn concat app]. unfold median, sortR. cbn [length fold_right insertR Nat.sub Nat.div Nat.divmod fst nth near_resolution].
  replace ((2 + 2) / 2) with 2 by lra. rewrite (Rabs_right (2 - / 10 ^ 15)) by lra. rtest. cbn. unfold armijo. cbn [fle fmul]. rtest. reflexivity.
Qed.
Print Assumptions C101_box_refuted.
Example C101_meets : concat (map (firstn 1) [[2; 5]; [3; 0]]) <> [] /\ forall x, In x (concat (map (firstn 1) [[2; 5]; [3; 0]])) -> / 10 ^ 8 * 2 < x.
Proof. split; [discriminate|]. intros x [<-|[<-|[]]]; lra. Qed.

(** * C102 *)
(** the line searches set [re_match] of the indicator, which nothing reads: the reference set is
    matched with every trial population in turn *)
Theorem C102_rematched : forall (match_ : refset -> list (list R) -> res refset) Ys o r, trials match_ o Ys = Ok r -> foldM match_ Ys (io_ref o) = Ok (io_ref (snd r)).
Proof.
  intros match_ Ys o r E. rewrite trials_ref in E. destruct (foldM match_ Ys (io_ref o)) as [s'|]; [|discriminate].
  destruct (trials match_ o Ys) as [r'|]; [|discriminate]. injection E as <-. reflexivity.
Qed.
Print Assumptions C102_rematched.
(** with one component and fixed sizes the targets are at least only permuted *)
Theorem C102_permuted : forall lsa hausdorff kmedoids n_obj Ys o r L, lsa_ok lsa -> kmedoids_ok kmedoids -> wf (io_ref o) -> rs_rematch (io_ref o) = true ->
  length (rs_ref (io_ref o)) = 1%nat -> nth 0 (rs_medoids (io_ref o)) None = Some L -> reference_set (io_ref o) = L -> (forall Y, In Y Ys -> length Y = length L) ->
  trials (match_Y lsa hausdorff kmedoids n_obj) o Ys = Ok r -> Permutation (reference_set (io_ref (snd r))) L.
Proof.
  intros lsa hausdorff kmedoids n_obj Ys o r L H1 H2 H3 H4 H5 H6 H7 H8 E. apply C102_rematched in E.
  apply (match_fold_perm lsa hausdorff kmedoids n_obj H1 H2 Ys (io_ref o) _ L); auto.
Qed.
Print Assumptions C102_permuted.
(** the targets are not kept during the line search: one point moves and the two targets are exchanged *)
Definition ls_X : list (list R) := [[0]; [1]].
Definition ls_Y : list (list R) := [[2]; [/ 2]].
Definition ls_lsa (C : list (list R)) : res (list nat * list nat) :=
  if list_eq_dec (list_eq_dec Req_EM_T) C (cdist ls_Y ls_X) then Ok ([0; 1], [1; 0])%nat else Exn ValueError.
Lemma ls_cost : cdist ls_Y ls_X = [[2; 1]; [/ 2; / 2]].
Proof.
  unfold cdist, ls_Y, ls_X. cbn [map]. rewrite !dist2_apart, !apart_1. rewrite (Rabs_right (2 - 0)), (Rabs_right (2 - 1)), (Rabs_right (/ 2 - 0)), (Rabs_left1 (/ 2 - 1)) by lra.
  apply (f_equal2 cons); [|apply (f_equal2 cons); [|reflexivity]]; real_lists.
Qed.
Lemma ls_lsa_ok : lsa_ok ls_lsa.
Proof.
  intros C m a Hr E. unfold ls_lsa in E. destruct (list_eq_dec _ C (cdist ls_Y ls_X)) as [->|]; [|discriminate]. injection E as <-. rewrite ls_cost in *.
  assert (m = 2%nat) by (symmetry; apply (Hr [2; 1]); simpl; auto). subst m. split.
  - repeat split; cbn [fst snd length Nat.min]; auto. repeat constructor; lia. intros i [<-|[<-|[]]]; simpl; lia. repeat constructor; simpl; lia. intros i [<-|[<-|[]]]; simpl; lia.
  - intros [r c] (A1 & A2 & A3 & A4 & A5 & A6). cbn [fst snd length Nat.min] in *.
    destruct r as [|i [|i' [|]]]; try discriminate. destruct c as [|j [|j' [|]]]; try discriminate.
    pose proof (A4 i ltac:(simpl; auto)). pose proof (A4 i' ltac:(simpl; auto)). pose proof (A6 j ltac:(simpl; auto)). pose proof (A6 j' ltac:(simpl; auto)).
    assert (i < i')%nat. { inversion A3; subst. inversion H6; subst. auto. } assert (i = 0 /\ i' = 1)%nat as [-> ->] by lia.
    unfold total. destruct j as [|[|j]]; try lia; destruct j' as [|[|j']]; try lia; cbn; lra.
Qed.
Theorem C102_kept_refuted : exists lsa hausdorff kmedoids o Y d o', lsa_ok lsa /\ kmedoids_ok kmedoids /\ consistent (io_ref o) /\ wf (io_ref o) /\
  reference_set (io_ref o) = [[0]; [1]] /\ Y = [[2]; [/ 2]] /\ trial (match_Y lsa hausdorff kmedoids 1) o Y = Ok (d, o') /\
  (* the differences are taken to the exchanged targets, and the exchange remains *)
  reference_set (io_ref o') = [[1]; [0]] /\ nth 0 (nth 0 d []) 0 = 1 /\ nth 0 (nth 0 Y []) 0 - nth 0 (nth 0 (reference_set (io_ref o)) []) 0 = 2.
Proof.
  exists ls_lsa, (fun _ _ => Exn ValueError), (fun _ _ => Exn ValueError), (mkInd true ex_set), ls_Y. eexists. eexists.
  split; [exact ls_lsa_ok|]. split; [intros comp k r E; discriminate|]. split; [apply ex_set_ok|]. split; [apply ex_set_ok|]. split; [reflexivity|]. split; [reflexivity|].
  split. { rewrite trial_flag. unfold match_Y. assert (HM : match_rows ls_lsa [[0]; [1]] ls_Y = Ok [[1]; [0]]).
    { unfold match_rows, ls_lsa. change [[0]; [1]] with ls_X. destruct (list_eq_dec (list_eq_dec Req_EM_T) (cdist ls_Y ls_X) (cdist ls_Y ls_X)); [|congruence]. reflexivity. }
    remember ls_lsa as f eqn:Hf. unfold ex_set. cbn [io_ref rs_rematch rs_matched]. unfold partition_Y, match_components. cbn [rs_ref length Nat.eqb bind Nat.ltb Nat.leb andb match_loop nth_res nth_error ls_Y seq medoids_for rs_medoids nth].
    change [[2]; [/ 2]] with ls_Y. rewrite HM. cbn. reflexivity. }
  cbn. split; [reflexivity|]. lra.
Qed.
Print Assumptions C102_kept_refuted.
Example C102_meets : lsa_ok ls_lsa /\ wf ex_set /\ rs_rematch ex_set = true /\ length (rs_ref ex_set) = 1%nat /\
  nth 0 (rs_medoids ex_set) None = Some ls_X /\ reference_set ex_set = ls_X /\ length ls_Y = length ls_X.
Proof. split; [exact ls_lsa_ok|]. split; [apply ex_set_ok|]. repeat split. Qed.
