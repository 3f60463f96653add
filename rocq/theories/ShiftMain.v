(** The shifts of the reference set, and the line search that matches it again. *)
From Coq Require Import List Arith Bool Reals Lia Lra Permutation.
From Verif Require Import Num Exn ListAux StateModel StateProof NewtonModel NewtonProof RefModel RefProof RefSpec RefTop RefShift ShiftModel ShiftSpec ShiftProof.
Import ListNotations.
Open Scope R_scope.

Lemma zip_with_length {A B C} (f : A -> B -> C) l : forall l', length l = length l' -> length (zip_with f l l') = length l.
Proof. induction l as [|a l IH]; intros [|b l'] H; try discriminate; simpl; auto. Qed.
Lemma zip_with_nth {A B C} (f : A -> B -> C) l : forall l' k da db dc, length l = length l' -> (k < length l)%nat ->
  nth k (zip_with f l l') dc = f (nth k l da) (nth k l' db).
Proof. induction l as [|a l IH]; intros [|b l'] k da db dc H Hk; try discriminate; simpl in *; [lia|]. destruct k; auto. apply IH; lia. Qed.

Lemma dist2_apart u : forall v, dist2 u v = apart u v.
Proof.
  assert (K : forall u v, fold_right Rplus 0 (zip_with (fun a b => (a - b) * (a - b)) u v) = fold_right (fun p r => (fst p - snd p) * (fst p - snd p) + r) 0 (combine u v)).
  { induction u0 as [|a u0 IH]; intros [|b v]; simpl; auto. rewrite IH; auto. }
  intros v. unfold dist2, apart. rewrite K. auto.
Qed.
Lemma norm_length_of v : sqrt (fold_right Rplus 0 (map (fun a => a * a) v)) = length_of v.
Proof. unfold length_of. f_equal. induction v as [|a v IH]; simpl; auto. rewrite IH; auto. Qed.
Lemma close_tiny x : 0 <= x -> close_to_0 x = true <-> tiny x.
Proof. intros H. unfold close_to_0, tiny. rewrite Rabs_right by lra. apply rleb_true. Qed.
Lemma apart_nonneg u v : 0 <= apart u v. Proof. apply sqrt_pos. Qed.
Lemma length_of_nonneg v : 0 <= length_of v. Proof. apply sqrt_pos. Qed.

Lemma positions_iff mask k : In k (positions_of true mask) <-> (k < length mask)%nat /\ nth k mask false = true.
Proof.
  unfold positions_of. rewrite filter_In, in_seq. cbn [negb]. split.
  - intros [H1 H2]. split; [lia|]. destruct (nth k mask false); auto.
  - intros [H1 H2]. split; [lia|]. rewrite H2. auto.
Qed.
Lemma positions_nodup mask : NoDup (positions_of true mask).
Proof. apply NoDup_filter, seq_NoDup. Qed.
Lemma occurrences_positions mask k : occurrences k (positions_of true mask) = if nth k mask false then 1%nat else 0%nat.
Proof.
  unfold occurrences. destruct (nth k mask false) eqn:E.
  - assert (k < length mask)%nat. { destruct (Nat.lt_ge_cases k (length mask)); auto. rewrite nth_overflow in E by auto. discriminate. }
    apply NoDup_count_occ'. apply positions_nodup. apply positions_iff. auto.
  - apply count_occ_not_In. intros H. apply positions_iff in H. destruct H. congruence.
Qed.

(** ** one shift of a matched set *)
Lemma shift_masked s M mi mask c : consistent s -> eta_ok s -> rs_matched s = Some (M, mi) -> length mask = length M ->
  exists s' M', shift_ref s c (Some (positions_of true mask)) = Ok s' /\ consistent s' /\ eta_ok s' /\ rs_matched s' = Some (M', mi) /\
  length M' = length M /\ rs_ref s' = rs_ref s /\ rs_eta s' = rs_eta s /\
  forall k, (k < length M)%nat -> exists c' i e, nth_error mi k = Some (Some (c', i)) /\ nth_error (rs_eta s) c' = Some e /\
    shifted (if nth k mask false then c else 0) e (nth k M []) (nth k M' []).
Proof.
  intros Hc He Hm Hl. destruct (shifts_spec [(c, Some (positions_of true mask))] s M mi Hc He Hm) as (s' & M' & E & A1 & A2 & A3 & A4 & A5 & A6 & A7).
  { intros c0 l k [H|[]] Hk. injection H as <- <-. apply positions_iff in Hk. lia. }
  cbn [foldM fst snd] in E. destruct (shift_ref s c (Some (positions_of true mask))) as [s1|] eqn:E1; [|discriminate]. cbn [bind] in E. injection E as ->.
  exists s', M'. repeat (split; auto). intros k Hk. destruct (A7 k Hk) as (c' & i & e & B1 & B2 & B3 & B4 & B5). exists c', i, e. split; auto. split; auto. split; auto.
  intros j. rewrite B5. unfold shift_weight. cbn [map fold_right fst snd]. rewrite occurrences_positions. destruct (nth k mask false); simpl; lra.
Qed.
Lemma log_total s ix : (forall k, In k ix -> (k < length (reference_set s))%nat) ->
  log_medoids s ix = Ok (map (fun k => (k, nth k (reference_set s) [])) ix).
Proof.
  intros H. unfold log_medoids. apply mapM_ok. rewrite map_map. apply map_ext_in. intros k Hk. unfold nth_res.
  destruct (nth_error (reference_set s) k) eqn:E. cbn [bind]. rewrite (nth_error_nth _ _ [] E). auto. apply nth_error_None in E. specialize (H k Hk). lia.
Qed.
Lemma log_logged M' mask (moves : nat -> Prop) : length mask = length M' -> (forall k, (k < length M')%nat -> nth k mask false = true <-> moves k) ->
  logged moves M' (map (fun k => (k, nth k M' [])) (positions_of true mask)).
Proof.
  intros Hl Hm. split. rewrite map_map. cbn [fst]. rewrite map_id. apply positions_nodup. intros k r. rewrite in_map_iff. split.
  - intros (k' & E & Hk). injection E as -> <-. apply positions_iff in Hk. destruct Hk as [H1 H2]. split; [lia|]. split; auto. apply Hm; auto. lia.
  - intros (H1 & H2 & ->). exists k. split; auto. apply positions_iff. split; [lia|]. apply Hm; auto.
Qed.
Lemma repeat_true_nth n k : (k < n)%nat -> nth k (repeat true n) false = true.
Proof. revert k. induction n as [|n IH]; intros k H; [lia|]. destruct k; simpl; auto. apply IH. lia. Qed.

Lemma mask_and b1 b2 : andb b1 b2 = true <-> b1 = true /\ b2 = true. Proof. apply andb_true_iff. Qed.
Lemma steps_mask steps k : (k < length steps)%nat ->
  nth k (map (fun s => close_to_0 (sqrt (fold_right Rplus 0 (map (fun a => a * a) s)))) steps) false = true <-> tiny (length_of (nth k steps [])).
Proof.
  intros H. rewrite (nth_indep _ false (close_to_0 (sqrt (fold_right Rplus 0 (map (fun a => a * a) []))))) by (rewrite map_length; auto).
  rewrite (map_nth (fun s => close_to_0 (sqrt (fold_right Rplus 0 (map (fun a => a * a) s))))). rewrite norm_length_of. apply close_tiny, length_of_nonneg.
Qed.

Lemma dpn_masks_spec iter Y M steps : length Y = length M -> length steps = length M ->
  exists mask, dpn_masks iter (length M) Y M steps = Ok mask /\ length mask = length M /\
  forall k, (k < length M)%nat -> nth k mask false = true <-> dpn_moves iter Y M steps k.
Proof.
  intros H1 H2. destruct iter as [|it]; cbn [dpn_masks].
  - eexists. split; [reflexivity|]. split; [apply repeat_length|]. intros k Hk. rewrite repeat_true_nth by auto. unfold dpn_moves. tauto.
  - rewrite H1, H2, !Nat.eqb_refl. cbn [negb orb]. eexists. split; [reflexivity|].
    assert (L1 : length (zip_with (fun y r => close_to_0 (dist2 y r)) Y M) = length M) by (rewrite zip_with_length; auto).
    split. rewrite zip_with_length; auto. rewrite map_length. lia. intros k Hk.
    rewrite (zip_with_nth andb _ _ k false false false) by (try rewrite map_length; lia). rewrite mask_and, steps_mask by lia.
    rewrite (zip_with_nth _ Y M k [] [] false) by lia. rewrite dist2_apart, close_tiny by apply apart_nonneg. unfold dpn_moves. intuition congruence.
Qed.
Theorem dpn_shift_spec iter Y steps s M mi : consistent s -> eta_ok s -> rs_matched s = Some (M, mi) -> length Y = length M -> length steps = length M ->
  exists s' lg M', dpn_shift iter (length M) Y steps s = Ok (s', lg) /\ consistent s' /\ eta_ok s' /\ rs_matched s' = Some (M', mi) /\ length M' = length M /\
  logged (dpn_moves iter Y M steps) M' lg /\
  forall k, (k < length M)%nat -> exists c i e w, nth_error mi k = Some (Some (c, i)) /\ nth_error (rs_eta s) c = Some e /\
    shifted w e (nth k M []) (nth k M' []) /\
    (dpn_moves iter Y M steps k -> w = match iter with O => 0.08 | S _ => 0.05 end) /\ (~ dpn_moves iter Y M steps k -> w = 0).
Proof.
  intros Hc He Hm H1 H2. destruct (dpn_masks_spec iter Y M steps H1 H2) as (mask & E & Lm & Hmask).
  unfold dpn_shift. replace (reference_set s) with M by (unfold reference_set; rewrite Hm; auto). rewrite E. cbn [bind]. unfold indices_of.
  destruct (shift_masked s M mi mask (match iter with O => 0.08 | S _ => 0.05 end) Hc He Hm Lm) as (s' & M' & E1 & A1 & A2 & A3 & A4 & _ & _ & A5).
  rewrite E1. cbn [bind]. assert (HR : reference_set s' = M') by (unfold reference_set; rewrite A3; auto).
  rewrite log_total. 2:{ intros k Hk. apply positions_iff in Hk. rewrite HR. lia. }
  cbn [bind]. rewrite HR. eexists. eexists. exists M'. split; [reflexivity|]. split; [exact A1|]. split; [exact A2|]. split; [exact A3|]. split; [exact A4|]. split.
  - apply log_logged; [lia|]. intros k Hk. apply Hmask. lia.
  - intros k Hk. destruct (A5 k Hk) as (c & i & e & B1 & B2 & B3). exists c, i, e. eexists. split; [exact B1|]. split; [exact B2|]. split; [exact B3|].
    pose proof (Hmask k Hk) as HM. destruct (nth k mask false). split; auto. intros N. exfalso. apply N, HM; auto. split; auto. intros N. apply HM in N. discriminate.
Qed.

(** ** MMDNewton *)
Lemma fold_min_iff l : forall a t, fold_left Rmin l a <= t <-> a <= t \/ exists r, In r l /\ r <= t.
Proof.
  induction l as [|b l IH]; intros a t; simpl.
  - split; auto. intros [H|(r & [] & _)]; auto.
  - rewrite IH. split.
    + intros [H|(r & H1 & H2)]; [|right; exists r; auto]. unfold Rmin in H. destruct (Rle_dec a b); auto. right. exists b. auto.
    + intros [H|(r & [->|H1] & H2)]; [left|left|right; eauto]. pose proof (Rmin_l a b). lra. pose proof (Rmin_r a r). lra.
Qed.
Lemma mmd_masks_spec iter Y M steps : M <> [] -> length steps = length Y ->
  exists mask, mmd_masks iter (length Y) Y M steps = Ok mask /\ length mask = length Y /\
  forall k, (k < length Y)%nat -> nth k mask false = true <-> mmd_moves iter Y M steps k.
Proof.
  intros HM H2. destruct iter as [|it]; cbn [mmd_masks].
  - eexists. split; [reflexivity|]. split; [apply repeat_length|]. intros k Hk. rewrite repeat_true_nth by auto. unfold mmd_moves. tauto.
  - rewrite H2, Nat.eqb_refl. cbn [negb].
    destruct (mapM_total (fun y => list_minR (map (dist2 y) M)) Y) as (d & Ed). { intros y _. destruct M; [congruence|]. simpl. eauto. }
    rewrite Ed. cbn [bind]. eexists. split; [reflexivity|]. pose proof (mapM_length _ _ _ Ed) as Ld.
    split. rewrite zip_with_length; rewrite map_length; auto. rewrite map_length. lia. intros k Hk.
    rewrite (zip_with_nth andb _ _ k false false false) by (rewrite !map_length; lia). rewrite mask_and, steps_mask by lia.
    rewrite (nth_indep _ false (close_to_0 0)) by (rewrite map_length; lia). rewrite map_nth.
    assert (En : list_minR (map (dist2 (nth k Y [])) M) = Ok (nth k d 0)). { apply (mapM_nth _ _ _ k _ _ Ed); apply nth_error_nth'; lia. }
    assert (Hn : 0 <= nth k d 0 /\ (nth k d 0 <= / 10 ^ 8 <-> exists r, In r M /\ tiny (apart (nth k Y []) r))).
    { destruct M as [|m0 M]; [congruence|]. cbn [map list_minR] in En. injection En as En. rewrite <- En. split.
      - destruct (Rle_lt_dec 0 (fold_left Rmin (map (dist2 (nth k Y [])) M) (dist2 (nth k Y []) m0))) as [H|H]; auto. exfalso.
        assert (H' : fold_left Rmin (map (dist2 (nth k Y [])) M) (dist2 (nth k Y []) m0) <= fold_left Rmin (map (dist2 (nth k Y [])) M) (dist2 (nth k Y []) m0)) by lra.
        apply fold_min_iff in H'. assert (P : forall r, 0 <= dist2 (nth k Y []) r) by (intros; apply sqrt_pos).
        destruct H' as [H'|(r & H1 & H3)]. specialize (P m0). lra. apply in_map_iff in H1. destruct H1 as (q & <- & _). specialize (P q). lra.
      - rewrite fold_min_iff. unfold tiny. split.
        + intros [H|(r & H1 & H3)]. exists m0. split; simpl; auto. rewrite <- dist2_apart. auto. apply in_map_iff in H1. destruct H1 as (q & <- & Hq). exists q. split; simpl; auto. rewrite <- dist2_apart. auto.
        + intros (r & [->|H1] & H3); rewrite <- dist2_apart in H3. auto. right. exists (dist2 (nth k Y []) r). split; auto. apply in_map. auto. }
    destruct Hn as [Hn0 Hn]. rewrite close_tiny by auto. unfold tiny at 1. rewrite Hn. unfold mmd_moves. intuition congruence.
Qed.
Theorem mmd_shift_spec iter Y steps s M mi : consistent s -> eta_ok s -> rs_matched s = Some (M, mi) -> length Y = length M -> M <> [] -> length steps = length M ->
  exists s' lg M', mmd_shift iter (length M) Y steps s = Ok (s', lg) /\ consistent s' /\ eta_ok s' /\ rs_matched s' = Some (M', mi) /\ length M' = length M /\
  logged (mmd_moves iter Y M steps) M' lg /\
  forall k, (k < length M)%nat -> exists c i e w, nth_error mi k = Some (Some (c, i)) /\ nth_error (rs_eta s) c = Some e /\
    shifted w e (nth k M []) (nth k M' []) /\
    (mmd_moves iter Y M steps k -> w = 0.08) /\ (~ mmd_moves iter Y M steps k -> w = 0).
Proof.
  intros Hc He Hm H1 HM H2. destruct (mmd_masks_spec iter Y M steps HM ltac:(lia)) as (mask & E & Lm & Hmask). rewrite H1 in E, Lm, Hmask.
  unfold mmd_shift. replace (reference_set s) with M by (unfold reference_set; rewrite Hm; auto). rewrite E. cbn [bind]. unfold indices_of.
  destruct (shift_masked s M mi mask 0.08 Hc He Hm Lm) as (s' & M' & E1 & A1 & A2 & A3 & A4 & _ & _ & A5).
  rewrite E1. cbn [bind]. assert (HR : reference_set s' = M') by (unfold reference_set; rewrite A3; auto).
  rewrite log_total. 2:{ intros k Hk. apply positions_iff in Hk. rewrite HR. lia. }
  cbn [bind]. rewrite HR. eexists. eexists. exists M'. split; [reflexivity|]. split; [exact A1|]. split; [exact A2|]. split; [exact A3|]. split; [exact A4|]. split.
  - apply log_logged; [lia|]. intros k Hk. apply Hmask. lia.
  - intros k Hk. destruct (A5 k Hk) as (c & i & e & B1 & B2 & B3). exists c, i, e. eexists. split; [exact B1|]. split; [exact B2|]. split; [exact B3|].
    pose proof (Hmask k Hk) as HMk. destruct (nth k mask false). split; auto. intros N. exfalso. apply N, HMk; auto. split; auto. intros N. apply HMk in N. discriminate.
Qed.

(** an unmatched set (MMDNewton with matching=False): all points move, whatever the indices *)
Lemma mapM_seq_combine {A B} (f : nat * A -> res B) (g : nat -> A -> B) (l : list A) :
  (forall k a, nth_error l k = Some a -> f (k, a) = Ok (g k a)) ->
  mapM f (combine (seq 0 (length l)) l) = Ok (map (fun ka => g (fst ka) (snd ka)) (combine (seq 0 (length l)) l)).
Proof.
  intros H. apply mapM_ok. rewrite map_map. apply map_ext_in. intros [k a] Hin. cbn [fst snd]. apply H.
  destruct (In_nth _ _ (0%nat, a) Hin) as (q & Hq & E). rewrite combine_length, seq_length, Nat.min_id in Hq. rewrite combine_nth in E by apply seq_length.
  rewrite seq_nth in E by auto. injection E as <- E. rewrite <- E. cbn [Nat.add]. apply nth_error_nth'. auto.
Qed.
Lemma length_shifted_ref (g : nat -> list R) (ref : list (list (list R))) : forall q,
  length (concat (map (fun ke => map (fun r => add_vec r (g (fst ke))) (snd ke)) (combine (seq q (length ref)) ref))) = length (concat ref).
Proof. induction ref as [|a l IH]; intros q; [reflexivity|]. cbn [length seq combine map concat fst snd]. rewrite !app_length, map_length, IH. reflexivity. Qed.
Lemma unmatched_shift s c ix : rs_matched s = None -> (length (rs_ref s) <= length (rs_eta s))%nat ->
  exists s', shift_ref s c ix = Ok s' /\ rs_matched s' = None /\ rs_eta s' = rs_eta s /\
  rs_ref s' = map (fun ke => map (fun r => add_vec r (scale c (nth (fst ke) (rs_eta s) []))) (snd ke)) (combine (seq 0 (length (rs_ref s))) (rs_ref s)).
Proof.
  intros Hm Hl. unfold shift_ref. rewrite Hm.
  rewrite (mapM_seq_combine _ (fun k comp => map (fun r => add_vec r (scale c (nth k (rs_eta s) []))) comp)).
  2:{ intros k a Ha. cbn [fst snd]. assert (k < length (rs_ref s))%nat by (apply nth_error_Some; congruence). unfold nth_res.
      rewrite (nth_error_nth' _ []) by lia. reflexivity. }
  cbn [bind]. eexists. split; [reflexivity|]. cbn. auto.
Qed.

(** ** the line search *)
Section Trial.
Variable match_ : refset -> list (list R) -> res refset.
Lemma trial_flag o Y : trial match_ o Y = do s' <- match_ (io_ref o) Y; Ok (zip_with (zip_with Rminus) Y (reference_set s'), mkInd true s').
Proof. unfold trial, ind_diff, set_rematch. cbn [io_ref io_rematch]. destruct (match_ (io_ref o) Y); reflexivity. Qed.
(** the reference set is matched with every trial population in turn *)
Lemma trials_ref : forall Ys o, trials match_ o Ys = 
  match foldM match_ Ys (io_ref o) with
  | Ok s' => match trials match_ o Ys with Ok r => Ok (fst r, mkInd (match Ys with [] => io_rematch o | _ => true end) s') | Exn e => Exn e end
  | Exn e => Exn e
  end.
Proof.
  induction Ys as [|Y Ys IH]; intros o; cbn [trials foldM].
  - destruct o; reflexivity.
  - rewrite trial_flag. destruct (match_ (io_ref o) Y) as [s1|e]; [|reflexivity]. cbn [bind fst snd]. rewrite IH. cbn [io_ref].
    destruct (foldM match_ Ys s1) as [s2|]; [|reflexivity]. destruct (trials match_ (mkInd true s1) Ys) as [r|]; [|reflexivity]. cbn [bind fst snd io_rematch]. destruct Ys; reflexivity.
Qed.
End Trial.

(** with one component the targets are only permuted *)
Lemma match_one_perm lsa hausdorff kmedoids n_obj s Y s' L : lsa_ok lsa -> kmedoids_ok kmedoids -> wf s -> rs_rematch s = true \/ rs_matched s = None ->
  length (rs_ref s) = 1%nat -> nth 0 (rs_medoids s) None = Some L -> length L = length Y ->
  match_Y lsa hausdorff kmedoids n_obj s Y = Ok s' -> Permutation (reference_set s') L /\ nth 0 (rs_medoids s') None = Some (reference_set s') /\
  rs_ref s' = rs_ref s /\ wf s' /\ rs_rematch s' = rs_rematch s.
Proof.
  intros H1 H2 H3 H4 Hone HL Hlen E.
  destruct (match_spec lsa hausdorff kmedoids H1 H2 n_obj s Y s' H3 H4 E) as (ix & parts & vs & out & mi & A1 & A2 & A3 & A4 & A5 & A6 & A7 & A8 & A9).
  unfold partition_Y in A1. rewrite Hone in A1. cbn [Nat.eqb] in A1. injection A1 as <- <-.
  unfold match_components in A2. rewrite Hone in A2. cbn [length Nat.eqb Nat.ltb Nat.leb andb] in A2. injection A2 as <-.
  assert (Hcov : covers [seq 0 (length Y)] (length Y)). { unfold covers. cbn [concat]. rewrite app_nil_r. auto. }
  destruct (A9 Hcov) as (Lo & _ & Hk). destruct (Hk 0%nat ltac:(simpl; lia)) as (comp & X & M & B1 & B2 & B3 & B4 & B5 & _ & B7 & _). cbn [nth] in *.
  rewrite seq_length in *. unfold medoids_for in B2. rewrite HL in B2. rewrite Hlen, Nat.eqb_refl in B2. injection B2 as <-.
  assert (HM : out = M).
  { apply (list_eq_nth []); [lia|]. intros i Hi.
    assert (E2 : nth i (map (nth_error out) (seq 0 (length Y))) None = nth i (map Some M) None) by (rewrite B5; auto).
    rewrite (nth_indep _ None (nth_error out 0%nat)) in E2 by (rewrite map_length, seq_length; lia). rewrite map_nth, seq_nth in E2 by lia. cbn [Nat.add] in E2.
    rewrite (nth_indep (map Some M) None (Some [])) in E2 by (rewrite map_length; lia). rewrite map_nth in E2. apply nth_error_nth. auto. }
  unfold reference_set. rewrite A6. subst out. auto.
Qed.
Lemma match_fold_perm lsa hausdorff kmedoids n_obj : lsa_ok lsa -> kmedoids_ok kmedoids -> forall Ys s s' L, wf s -> rs_rematch s = true -> 
  length (rs_ref s) = 1%nat -> nth 0 (rs_medoids s) None = Some L -> (forall Y, In Y Ys -> length Y = length L) -> reference_set s = L ->
  foldM (match_Y lsa hausdorff kmedoids n_obj) Ys s = Ok s' -> Permutation (reference_set s') L.
Proof.
  intros H1 H2. induction Ys as [|Y Ys IH]; intros s s' L Hw Hr Ho HL Hlen HR E; cbn [foldM] in E.
  - injection E as <-. rewrite HR. auto.
  - destruct (match_Y lsa hausdorff kmedoids n_obj s Y) as [s1|] eqn:E1; [|discriminate]. cbn [bind] in E.
    destruct (match_one_perm lsa hausdorff kmedoids n_obj s Y s1 L H1 H2 Hw (or_introl Hr) Ho HL ltac:(symmetry; apply Hlen; simpl; auto) E1) as (P1 & P2 & P3 & P4 & P5).
    transitivity (reference_set s1); auto. apply (IH s1 s' (reference_set s1)); auto; try congruence.
    intros Z HZ. rewrite (Hlen Z) by (simpl; auto). symmetry. apply Permutation_length; auto.
Qed.
