(** Property theorems: reference set. *)
From Coq Require Import List Arith Bool Reals Lia Lra Permutation Sorting.Sorted.
From Verif Require Import Num Exn ListAux StateModel NewtonModel NewtonProof RefModel RefProof RefSpec RefTop RefShift.
Import ListNotations.
Open Scope R_scope.

(** * C36 *)
(** after [match] the medoids and the matched rows agree; the index sets the object computes
    itself always cover the population *)
Theorem C36_match_consistent : forall lsa hausdorff kmedoids n_obj s Y s',
  lsa_ok lsa -> kmedoids_ok kmedoids -> wf s -> rs_rematch s = true \/ rs_matched s = None ->
  match_Y lsa hausdorff kmedoids n_obj s Y = Ok s' ->
  wf s' /\ exists ix, rs_Yidx s' = Some ix /\
  (length (rs_ref s) = 1%nat \/ rs_Yidx s = None -> covers ix (length Y)) /\
  (covers ix (length Y) -> consistent s' /\ length (reference_set s') = length Y).
Proof.
  intros lsa hausdorff kmedoids n_obj s Y s' H1 H2 H3 H4 E.
  destruct (match_spec lsa hausdorff kmedoids H1 H2 n_obj s Y s' H3 H4 E) as (ix & parts & vs & out & mi & A1 & A2 & A3 & A4 & A5 & A6 & A7 & A8 & A9).
  split; auto. exists ix. split; auto. destruct (partition_spec s Y ix parts (proj2 H3) A1) as (_ & _ & _ & B & _).
  split; auto. intros Hc. destruct (A9 Hc) as (L & Hcons & _). split; auto. unfold reference_set. rewrite A6. auto.
Qed.
Print Assumptions C36_match_consistent.
(** without [re_match] a second call changes nothing *)
Theorem C36_no_rematch : forall lsa hausdorff kmedoids n_obj s Y, rs_rematch s = false -> rs_matched s <> None ->
  match_Y lsa hausdorff kmedoids n_obj s Y = Ok s.
Proof. intros. unfold match_Y. rewrite H. destruct (rs_matched s); [auto|congruence]. Qed.
Print Assumptions C36_no_rematch.
(** any sequence of shifts succeeds, adds to every row the accumulated multiple of the direction
    of its component (once per occurrence of its index), and keeps medoids and rows equal *)
Theorem C36_shifts : forall ops s M mi, consistent s -> eta_ok s -> rs_matched s = Some (M, mi) ->
  (forall c l k, In (c, Some l) ops -> In k l -> (k < length M)%nat) ->
  exists s' M', foldM (fun s o => shift_ref s (fst o) (snd o)) ops s = Ok s' /\ consistent s' /\
  rs_matched s' = Some (M', mi) /\ length M' = length M /\ rs_ref s' = rs_ref s /\
  forall k, (k < length M)%nat -> exists c i e, nth_error mi k = Some (Some (c, i)) /\ nth_error (rs_eta s) c = Some e /\
    length (nth k M' []) = length (nth k M []) /\
    forall j, nth j (nth k M' []) 0 = nth j (nth k M []) 0 + shift_weight (length M) k ops * nth j e 0.
Proof.
  intros ops s M mi H1 H2 H3 H4. destruct (shifts_spec ops s M mi H1 H2 H3 H4) as (s' & M' & A1 & A2 & _ & A4 & A5 & _ & A7 & A8).
  exists s', M'. repeat (split; auto). intros k Hk. destruct (A8 k Hk) as (c & i & e & B1 & B2 & B3 & _ & B5). exists c, i, e. auto.
Qed.
Print Assumptions C36_shifts.
(** an unmatched reference set is shifted as a whole *)
Theorem C36_shift_unmatched : forall s c o, rs_matched s = None -> (length (rs_ref s) <= length (rs_eta s))%nat ->
  exists s', shift_ref s c o = Ok s' /\ rs_matched s' = None /\ length (rs_ref s') = length (rs_ref s) /\
  forall k comp e, nth_error (rs_ref s) k = Some comp -> nth_error (rs_eta s) k = Some e ->
    nth_error (rs_ref s') k = Some (map (fun r => add_vec r (scale c e)) comp).
Proof.
  intros s c o Hm Hl. unfold shift_ref. rewrite Hm.
  destruct (mapM_total (fun ke => do et <- nth_res KeyError (rs_eta s) (fst ke); Ok (map (fun r => add_vec r (scale c et)) (snd ke)))
     (combine (seq 0 (length (rs_ref s))) (rs_ref s))) as (ref' & E).
  { intros [k comp] Hin. cbn [fst snd]. apply in_combine_l in Hin. apply in_seq in Hin. unfold nth_res. destruct (nth_error (rs_eta s) k) eqn:E. cbn [bind]. eauto. apply nth_error_None in E. lia. }
  rewrite E. cbn [bind]. eexists. split; [reflexivity|]. cbn. split; auto. pose proof (mapM_length _ _ _ E) as HL. rewrite combine_length, seq_length, Nat.min_id in HL. split; auto.
  intros k comp e Hk He. assert (Hlt : (k < length (rs_ref s))%nat) by (apply nth_error_Some; congruence).
  destruct (nth_error ref' k) as [r|] eqn:Er. 2:{ apply nth_error_None in Er. lia. }
  assert (Hin : nth_error (combine (seq 0 (length (rs_ref s))) (rs_ref s)) k = Some (k, comp)).
  { rewrite (nth_error_nth' _ (0%nat, [])) by (rewrite combine_length, seq_length, Nat.min_id; auto). rewrite combine_nth by (rewrite seq_length; auto).
    rewrite seq_nth by auto. simpl. rewrite (nth_error_nth _ _ [] Hk). auto. }
  pose proof (mapM_nth _ _ _ k _ _ E Hin Er) as Hf. cbn [fst snd] in Hf. unfold nth_res in Hf. rewrite He in Hf. cbn [bind] in Hf. congruence.
Qed.
Print Assumptions C36_shift_unmatched.

(** [match] fails only if a component has fewer points than its cluster, or one of the
    external routines fails *)
Theorem C36_match_total : forall lsa hausdorff kmedoids n_obj s Y ix parts vs,
  lsa_ok lsa -> kmedoids_ok kmedoids -> wf s ->
  (forall C, (forall r, In r C -> length r = length C) -> exists a, lsa C = Ok a) ->
  (forall comp k, (k <= length comp)%nat -> exists r, kmedoids comp k = Ok r) ->
  partition_Y s Y = Ok (ix, parts) -> covers ix (length Y) -> match_components lsa hausdorff (rs_ref s) parts = Ok vs ->
  (forall k comp, (k < length vs)%nat -> nth_error (rs_ref s) k = Some comp -> (length (nth (nth k vs 0%nat) ix []) <= length comp)%nat) ->
  exists s', match_Y lsa hausdorff kmedoids n_obj s Y = Ok s'.
Proof.
  intros lsa hausdorff kmedoids n_obj s Y ix parts vs H1 H2 H3 T1 T2 EP Hc EV Hsz. unfold match_Y.
  assert (G : exists s', (do ixp <- partition_Y s Y;
    let (ix, parts) := ixp in
    let N := fold_right Nat.add 0%nat (map (@length _) parts) in
    do vs <- match_components lsa hausdorff (rs_ref s) parts;
    do r <- match_loop lsa kmedoids (rs_ref s) ix parts 0 vs (repeat (repeat 0%R n_obj) N) (repeat None N) (rs_medoids s);
    let '(out, mi, med) := r in
    Ok (mkRS (rs_ref s) (rs_eta s) (Some ix) (rs_rematch s) med (Some (out, mi)))) = Ok s').
  { rewrite EP. cbn [bind]. cbv zeta. rewrite EV. cbn [bind]. destruct H3 as [H3 H3'].
    destruct (partition_spec s Y ix parts H3' EP) as (P1 & P2 & _). destruct (covers_parts ix (length Y) Hc) as (C1 & C2 & C3 & _).
    destruct (components_spec lsa hausdorff H1 _ _ _ H3' EV) as (Q1 & Q2 & _).
    assert (HN : fold_right Nat.add 0%nat (map (@length _) parts) = length Y). { rewrite <- (covers_length ix (length Y) Hc). f_equal. apply (list_eq_nth 0%nat). rewrite !map_length; auto. intros i Hi. rewrite map_length in Hi. rewrite !(nth_map_default _ _ _ []) by lia. auto. }
    rewrite HN.
    destruct (loop_total lsa kmedoids (rs_ref s) ix parts C1 C2 P2 (lsa_len lsa H1) (fun c k r H => proj1 (H2 c k r H))) with (vs := vs) (k := 0%nat) (out := repeat (repeat 0 n_obj) (length Y)) (mi := repeat (@None (nat * nat)) (length Y)) (med := rs_medoids s) as (r & Er).
    - intros X Y0 HXY. destruct (T1 (cdist Y0 X)) as (a & Ea). intros r Hr. rewrite (cdist_rect Y0 X r Hr). unfold cdist. rewrite map_length. auto.
      exists a. split; auto. intros i Hi. destruct (H1 _ (length X) a (cdist_rect Y0 X) Ea) as [(_ & _ & _ & _ & _ & H6) _]. auto.
    - intros comp k Hk. destruct (T2 comp k Hk) as (r & Er). exists r. split; auto. apply (H2 comp k r Er).
    - auto.
    - intros q Hq. cbv zeta. assert (Hlv : length vs = length ix) by (rewrite (Permutation_length Q2), seq_length; auto). split.
      assert (Hin : In (nth q vs 0%nat) vs) by (apply nth_In; auto). apply (Permutation_in _ Q2) in Hin. apply in_seq in Hin. lia.
      destruct (nth_error (rs_ref s) (0 + q)) as [comp|] eqn:E. exists comp. split; auto. apply nth_error_None in E. simpl in E. lia.
    - intros v i Hi. rewrite repeat_length. eauto.
    - rewrite !repeat_length. auto.
    - rewrite Er. cbn [bind]. destruct r as [[o m] md]. eauto. }
  destruct (rs_rematch s); auto. destruct (rs_matched s); eauto.
Qed.
Print Assumptions C36_match_total.

(** a solver for the example: correct on the one problem it answers *)
Definition ex_X : list (list R) := [[0]; [1]].
Definition ex_Y : list (list R) := [[1]; [0]].
Definition ex_lsa (C : list (list R)) : res (list nat * list nat) :=
  if list_eq_dec (list_eq_dec Req_EM_T) C (cdist ex_Y ex_X) then Ok ([0; 1], [1; 0])%nat else Exn ValueError.
Lemma ex_lsa_ok : lsa_ok ex_lsa.
Proof.
  intros C m a Hr E. unfold ex_lsa in E. destruct (list_eq_dec _ C (cdist ex_Y ex_X)) as [->|]; [|discriminate]. injection E as <-.
  assert (m = 2%nat). { symmetry. apply (Hr (map (dist2 [1]) ex_X)). simpl; auto. } subst m. split.
  - repeat split; cbn [fst snd]; auto. repeat constructor; lia. intros i [<-|[<-|[]]]; simpl; lia. repeat constructor; simpl; lia. intros i [<-|[<-|[]]]; simpl; lia.
  - intros a' Ha'. replace (total (cdist ex_Y ex_X) ([0; 1], [1; 0])%nat) with 0.
    + unfold total. assert (K : forall l : list (nat * nat), 0 <= fold_right Rplus 0 (map (fun ij : nat * nat => nth (snd ij) (nth (fst ij) (cdist ex_Y ex_X) []) 0) l)); [|apply K].
      induction l as [|[i j] l IH]; simpl; [lra|]. apply Rplus_le_le_0_compat; auto.
      destruct i as [|[|[|i]]], j as [|[|[|j]]]; simpl; try lra; apply sqrt_pos.
    + assert (D : forall r, dist2 [r] [r] = 0). { intros r. unfold dist2. cbn [zip_with fold_right]. replace ((r - r) * (r - r) + 0) with 0 by lra. apply sqrt_0. }
      unfold total. cbn [fst snd combine map nth cdist ex_Y ex_X fold_right]. rewrite !D. lra.
Qed.
Definition ex_km (comp : list (list R)) (k : nat) : res (list nat) := Exn ValueError.
Example C36_meets : lsa_ok ex_lsa /\ kmedoids_ok ex_km /\ exists s s', new_refset [ex_X] [[2]] None = Ok s /\ wf s /\ rs_rematch s = true /\
  match_Y ex_lsa (fun _ _ => Exn ValueError) ex_km 1 s ex_Y = Ok s' /\ rs_matched s' = Some ([[1]; [0]], [Some (0, 0); Some (0, 1)]%nat) /\ eta_ok s'.
Proof.
  split; [exact ex_lsa_ok|]. split; [intros comp k r E; discriminate|].
  eexists. eexists. split; [reflexivity|]. split; [split; [reflexivity|discriminate]|]. split; [reflexivity|].
  split. { unfold match_Y. cbn. unfold match_rows, ex_lsa. destruct (list_eq_dec _ (cdist ex_Y ex_X) (cdist ex_Y ex_X)); [|congruence]. cbn. reflexivity. }
  split; [reflexivity|]. intros M mi k c i E Hk. cbn in E. injection E as <- <-.
  destruct k as [|[|k]]; simpl in Hk; try (destruct k; discriminate); injection Hk as <- <-; exists [2]; auto.
Qed.

(** * C37 *)
(** every cluster [v] gets, in some order, all medoids of one component [k], each exactly once,
    in an order of smallest total distance; different clusters get different components.  The medoids are the
    previous ones if their number fits, else points of the component at different positions. *)
Theorem C37_one_to_one : forall lsa hausdorff kmedoids n_obj s Y s' ix,
  lsa_ok lsa -> kmedoids_ok kmedoids -> wf s -> rs_rematch s = true \/ rs_matched s = None ->
  match_Y lsa hausdorff kmedoids n_obj s Y = Ok s' -> rs_Yidx s' = Some ix -> covers ix (length Y) ->
  exists vs, Permutation vs (seq 0 (length ix)) /\ (length vs <= length (rs_ref s))%nat /\
  forall k, (k < length vs)%nat -> let cell := nth (nth k vs 0%nat) ix [] in
  exists comp X M Yv, nth_error (rs_ref s) k = Some comp /\ take_rows Y cell = Ok Yv /\
    (* the matched rows of the cluster, in order *)
    map (nth_error (reference_set s')) cell = map Some M /\ nth k (rs_medoids s') None = Some M /\
    Permutation M X /\ (forall P, Permutation P X -> sum_dist Yv M <= sum_dist Yv P) /\
    ((exists Xold, nth k (rs_medoids s) None = Some Xold /\ length Xold = length cell /\ X = Xold) \/
     exists r, NoDup r /\ take_rows comp r = Ok X).
Proof.
  intros lsa hausdorff kmedoids n_obj s Y s' ix H1 H2 H3 H4 E EI Hc.
  destruct (match_spec lsa hausdorff kmedoids H1 H2 n_obj s Y s' H3 H4 E) as (ix' & parts & vs & out & mi & A1 & A2 & A3 & A4 & A5 & A6 & A7 & A8 & A9).
  assert (ix' = ix) by congruence. subst ix'. destruct (A9 Hc) as (_ & _ & Hk). destruct (partition_spec s Y ix parts (proj2 H3) A1) as (P1 & P2 & P3 & _).
  destruct (components_spec lsa hausdorff H1 _ _ _ (proj2 H3) A2) as (Q1 & Q2 & _). exists vs. rewrite P1 in Q1, Q2. split; auto. split.
  { rewrite (Permutation_length Q2), seq_length. auto. }
  intros k Hlt. cbv zeta. destruct (Hk k Hlt) as (comp & X & M & B1 & B2 & B3 & B4 & B5 & B6 & B7 & B8). cbv zeta in *.
  exists comp, X, M, (nth (nth k vs 0%nat) parts []). split; auto. split; auto. unfold reference_set. rewrite A6. split; auto. split; auto. split; auto. split; auto.
  assert (Hcl : cluster kmedoids comp (length (nth (nth k vs 0%nat) ix [])) = Ok X -> exists r, NoDup r /\ take_rows comp r = Ok X).
  { unfold cluster. destruct (Nat.eqb_spec (length comp) (length (nth (nth k vs 0%nat) ix []))).
    - intros EX. injection EX as <-. destruct (perm_take_rows comp comp (Permutation_refl _)) as (r & Hr & Er). exists r. split; auto. apply (Permutation_NoDup (Permutation_sym Hr)), seq_NoDup.
    - destruct (kmedoids comp (length (nth (nth k vs 0%nat) ix []))) as [r|] eqn:Er; [|discriminate]. cbn [bind]. intros. exists r. split; auto. apply (H2 _ _ _ Er). }
  unfold medoids_for in B2. destruct (nth k (rs_medoids s) None) as [Xold|]; auto.
  destruct (Nat.eqb_spec (length Xold) (length (nth (nth k vs 0%nat) ix []))); auto. injection B2 as <-. left. eauto.
Qed.
Print Assumptions C37_one_to_one.
Example C37_meets : covers [[0; 2]; [1]]%nat 3 /\ Permutation [[1]; [0]] ex_X.
Proof.
  split. unfold covers. simpl. apply perm_skip. apply perm_swap. apply perm_swap.
Qed.

(** * C38 *)
(** with as many clusters as components every cluster goes to the component chosen for it *)
Theorem C38_components_partial : forall lsa hausdorff kmedoids n_obj s Y s' ix,
  lsa_ok lsa -> kmedoids_ok kmedoids -> wf s -> rs_rematch s = true \/ rs_matched s = None ->
  match_Y lsa hausdorff kmedoids n_obj s Y = Ok s' -> rs_Yidx s' = Some ix -> covers ix (length Y) ->
  (2 <= length (rs_ref s))%nat -> length ix = length (rs_ref s) ->
  exists parts cost rows cols, mapM (take_rows Y) ix = Ok parts /\ length cost = length (rs_ref s) /\
  (forall i r, nth_error cost i = Some r -> exists c, nth_error (rs_ref s) i = Some c /\ mapM (hausdorff c) parts = Ok r) /\
  lsa cost = Ok (rows, cols) /\ best_assignment cost (length ix) (rows, cols) /\
  forall q, (q < length rows)%nat -> let k := nth q rows 0%nat in let v := nth q cols 0%nat in
    exists M, nth k (rs_medoids s') None = Some M /\ map (nth_error (reference_set s')) (nth v ix []) = map Some M.
Proof.
  intros lsa hausdorff kmedoids n_obj s Y s' ix H1 H2 H3 H4 E EI Hc Hn Hm.
  destruct (match_spec lsa hausdorff kmedoids H1 H2 n_obj s Y s' H3 H4 E) as (ix' & parts & vs & out & mi & A1 & A2 & A3 & A4 & A5 & A6 & A7 & A8 & A9).
  assert (ix' = ix) by congruence. subst ix'. destruct (A9 Hc) as (_ & _ & Hk). destruct (partition_spec s Y ix parts (proj2 H3) A1) as (P1 & P2 & P3 & _).
  destruct (components_spec lsa hausdorff H1 _ _ _ (proj2 H3) A2) as (Q1 & Q2 & [(Hx & _)|(cost & rows & R1 & R2 & R3 & R4)]); [lia|].
  exists parts, cost, rows, vs. split. { apply mapM_ok. apply (list_eq_nth (Exn ValueError)). rewrite !map_length; auto. intros i Hi. rewrite map_length in Hi. rewrite !(nth_map_default _ _ _ []) by lia. auto. }
  split; auto. split; auto. split; auto. rewrite <- P1. split; auto. intros q Hq. cbv zeta.
  assert (Hrows : rows = seq 0 (length rows)).
  { destruct R4 as [(S1 & S2 & S3 & S4 & _) _]. cbn [fst] in *. apply sorted_full; auto. intros i Hi. apply S4 in Hi. rewrite S1. lia. }
  rewrite Hrows, seq_nth by auto. simpl. assert (Hq' : (q < length vs)%nat). { destruct R4 as [(S1 & S2 & _) _]. cbn [fst snd] in *. lia. }
  destruct (Hk q Hq') as (comp & X & M & _ & _ & B3 & _ & B5 & _). exists M. split; auto. unfold reference_set. rewrite A6. auto.
Qed.
Print Assumptions C38_components_partial.

(** with fewer clusters than components the chosen rows are discarded: the solver assigns the
    cluster to component 1, which contains the point itself, but it is matched to component 0 *)
Definition lsa1 (C : list (list R)) : res (list nat * list nat) :=
  match C with
  | [[a]] => Ok ([0%nat], [0%nat])
  | [[a]; [b]] => if rleb a b then Ok ([0%nat], [0%nat]) else Ok ([1%nat], [0%nat])
  | _ => Exn ValueError
  end.
Lemma lsa1_ok : lsa_ok lsa1.
Proof.
  assert (S1 : forall l : list nat, length l = 1%nat -> exists i, l = [i]). { intros [|i [|]]; try discriminate. eauto. }
  assert (SS : forall i, StronglySorted lt [i]) by (intros; repeat constructor).
  intros C m a Hr E. destruct C as [|[|x [|]] [|[|y [|]] [|]]]; try discriminate.
  - injection E as <-. assert (m = 1%nat) by (symmetry; apply (Hr [x]); simpl; auto). subst m. split.
    + repeat split; cbn [fst snd]; auto. intros i [<-|[]]; simpl; lia. repeat constructor; simpl; lia. intros i [<-|[]]; simpl; lia.
    + intros [r c] (A1 & A2 & _ & A4 & _ & A6). cbn [fst snd] in *. simpl in A1, A2. destruct (S1 r A1) as (i & ->). destruct (S1 c A2) as (j & ->).
      specialize (A4 i ltac:(simpl; auto)). specialize (A6 j ltac:(simpl; auto)). simpl in A4. assert (i = 0%nat) by lia. assert (j = 0%nat) by lia. subst. lra.
  - assert (m = 1%nat) by (symmetry; apply (Hr [x]); simpl; auto). subst m. cbn [lsa1] in E. split.
    + destruct (rleb x y); injection E as <-; repeat split; cbn [fst snd]; auto; try (intros i [<-|[]]; simpl; lia); repeat constructor; simpl; lia.
    + intros [r c] (A1 & A2 & _ & A4 & _ & A6). cbn [fst snd] in *. simpl in A1, A2. destruct (S1 r A1) as (i & ->). destruct (S1 c A2) as (j & ->).
      specialize (A4 i ltac:(simpl; auto)). specialize (A6 j ltac:(simpl; auto)). simpl in A4. assert (j = 0%nat) by lia. subst j.
      destruct (rleb x y) eqn:Exy; injection E as <-; [apply rleb_true in Exy|apply rleb_false in Exy]; destruct i as [|[|i]]; try lia; unfold total; simpl; lra.
Qed.
Theorem C38_components_refuted : exists lsa hausdorff kmedoids s Y s' cost,
  lsa_ok lsa /\ kmedoids_ok kmedoids /\ wf s /\ rs_Yidx s = Some [[0%nat]] /\ covers [[0%nat]] (length Y) /\
  match_Y lsa hausdorff kmedoids 1 s Y = Ok s' /\
  (* the costs are the distances, the solver chooses component 1 *)
  rs_ref s = [[[5]]; [[0]]] /\ Y = [[0]] /\ cost = [[5]; [0]] /\
  mapM (fun r => mapM (hausdorff r) [Y]) (rs_ref s) = Ok cost /\ lsa cost = Ok ([1%nat], [0%nat]) /\
  (* the point is matched to component 0 *)
  reference_set s' = [[5]].
Proof.
  assert (D5 : dist2 [5] [0] = 5). { unfold dist2. cbn. replace ((5 - 0) * (5 - 0) + 0) with (5 * 5) by lra. apply sqrt_square. lra. }
  assert (D0 : dist2 [0] [0] = 0). { unfold dist2. cbn. replace ((0 - 0) * (0 - 0) + 0) with 0 by lra. apply sqrt_0. }
  assert (E50 : rleb 5 0 = false) by (apply rleb_false; lra).
  exists lsa1, (fun A B => Ok (dist2 (hd [] A) (hd [] B))), ex_km, (mkRS [[[5]]; [[0]]] [[1]; [1]] (Some [[0%nat]]) true [None; None] None), [[0]].
  eexists. exists [[5]; [0]]. split; [exact lsa1_ok|]. split; [intros comp k r E; discriminate|]. split; [split; [reflexivity|discriminate]|].
  split; [reflexivity|]. split; [unfold covers; simpl; auto|]. split.
  { unfold match_Y. cbn. unfold match_components. cbn. rewrite D5, D0. unfold lsa1. rewrite E50. cbn. unfold match_rows. cbn. reflexivity. }
  split; [reflexivity|]. split; [reflexivity|]. split; [reflexivity|]. split; [cbn; rewrite D5, D0; reflexivity|]. split; [|reflexivity].
  cbn. rewrite E50. reflexivity.
Qed.
Print Assumptions C38_components_refuted.
Example C38_meets : lsa_ok lsa1 /\ assignment 2 2 ([0; 1], [1; 0])%nat.
Proof.
  split; [exact lsa1_ok|]. repeat split; cbn [fst snd]; auto; try (intros i [<-|[<-|[]]]; simpl; lia); repeat constructor; simpl; lia.
Qed.
