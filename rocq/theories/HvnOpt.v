(** The hypervolume of points on a descending line; equally spaced points maximise it. *)
From Coq Require Import List Arith Bool Reals ZArith Lia Lra Psatz Permutation Sorting.Sorted.
From Verif Require Import Num Exn ListAux NDSSpec HVModel HVSpec HVTheory HVExtra HVTop.
Import ListNotations.
Open Scope R_scope.

Lemma sort_reals (l : list R) : exists l', Permutation l' l /\ StronglySorted Rle l'.
Proof.
  induction l as [|x l (l' & Hp & Hs)]. exists []. split; constructor.
  assert (G : exists g, Permutation g (x :: l') /\ StronglySorted Rle g).
  { clear Hp. induction Hs as [|y m Hm IH Hf]. exists [x]. split; auto. constructor; constructor.
    destruct (Rle_dec x y) as [H|H].
    - exists (x :: y :: m). split; auto. constructor. constructor; auto. constructor; auto. eapply Forall_impl; [|exact Hf]. intros; simpl in *; lra.
    - destruct IH as (g & Hp & Hg). exists (y :: g). split. rewrite Hp. apply perm_swap. constructor; auto. rewrite Forall_forall in *. intros z Hz. apply (Permutation_in _ Hp) in Hz as [<-|Hz]; auto. lra. }
  destruct G as (g & Hg & Hgs). exists g. split; auto. rewrite Hg, Hp. auto.
Qed.

(** area gained by each point over its right neighbour *)
Fixpoint gain (a b : R) (zs : list R) : R :=
  match zs with [] => 0 | x :: zs' => (hd b zs' - x) * (x - a) + gain a b zs' end.
Lemma sq_split u w n : 0 < n -> (u + w) * (u + w) / (2 * (n + 1)) <= u * u / 2 + w * w / (2 * n).
Proof.
  intros Hn. apply (Rmult_le_reg_l (2 * n * (n + 1))). nra. replace (2 * n * (n + 1) * ((u + w) * (u + w) / (2 * (n + 1)))) with (n * ((u + w) * (u + w))) by (field; lra).
  replace (2 * n * (n + 1) * (u * u / 2 + w * w / (2 * n))) with (n * (n + 1) * (u * u) + (n + 1) * (w * w)) by (field; lra).
  pose proof (Rle_0_sqr (n * u - w)) as S. unfold Rsqr in S. nra.
Qed.
Lemma gain_head a b x zs : gain a b (x :: zs) <= (x - a) * (b - x) + (b - x) * (b - x) / 2 - (b - x) * (b - x) / (2 * INR (S (length zs))).
Proof.
  revert x. induction zs as [|m zs IH]; intros x.
  - cbn [gain hd length]. simpl INR. apply Req_le. field.
  - specialize (IH m). change (gain a b (x :: m :: zs)) with ((m - x) * (x - a) + gain a b (m :: zs)). cbn [length] in *. set (n := INR (S (length zs))) in *. rewrite S_INR. fold n.
    assert (Hn : 0 < n) by (apply lt_0_INR; lia). pose proof (sq_split (m - x) (b - m) n Hn) as S. replace (m - x + (b - m)) with (b - x) in S by ring. unfold Rdiv in *. nra.
Qed.
Lemma gain_bound a b zs : gain a b zs <= (b - a) * (b - a) / 2 - (b - a) * (b - a) / (2 * INR (S (length zs))).
Proof.
  destruct zs as [|x zs]. cbn [gain length]. simpl INR. apply Req_le. field.
  eapply Rle_trans; [apply gain_head|]. cbn [length]. set (n := INR (S (length zs))). rewrite S_INR. fold n. assert (Hn : 0 < n) by (apply lt_0_INR; lia).
  pose proof (sq_split (x - a) (b - x) n Hn) as S. replace (x - a + (b - x)) with (b - a) in S by ring. unfold Rdiv in *. nra.
Qed.
Lemma gain_even a b N : gain a b (map (fun s => a + INR (S s) * ((b - a) / INR (S N))) (seq 0 N)) = (b - a) * (b - a) / 2 - (b - a) * (b - a) / (2 * INR (S N)).
Proof.
  set (dl := (b - a) / INR (S N)). assert (HI : INR (S N) <> 0) by (apply not_0_INR; lia).
  assert (G : forall n j, (j + n = N)%nat -> gain a b (map (fun s => a + INR (S s) * dl) (seq j n)) = dl * dl * (INR N * INR (S N) - INR j * INR (S j)) / 2).
  { induction n as [|n IH]; intros j E. replace j with N by lia. cbn [seq map gain]. field. cbn [seq map gain]. rewrite IH by lia.
    assert (Eh : hd b (map (fun s => a + INR (S s) * dl) (seq (S j) n)) = a + INR (S (S j)) * dl).
    { destruct n; cbn [seq map hd]; auto. replace (S (S j)) with (S N) by lia. unfold dl. field. auto. }
    rewrite Eh. rewrite !S_INR. field. }
  rewrite (G N 0%nat) by lia. unfold dl. rewrite S_INR in *. simpl INR. field. auto.
Qed.

Section Opt.
Variables p0 p1 q0 q1 r0 r1 : R.
Hypothesis Q0 : 0 < q0.
Hypothesis Q1 : 0 < q1.
Let a := (p1 - r1) / q1.
Let b := (r0 - p0) / q0.
Definition on_line (x : R) : list R := [p0 + q0 * x; p1 - q1 * x].
Lemma off0 x : r0 - (p0 + q0 * x) = q0 * (b - x).
Proof using Q0. unfold b. field. lra. Qed.
Lemma off1 x : r1 - (p1 - q1 * x) = q1 * (x - a).
Proof using Q1. unfold a. field. lra. Qed.
Lemma box_line u v (f : pt) : f 0%nat = p0 + q0 * u -> f 1%nat = p1 - q1 * v -> u <= b -> a <= v -> box 2 (co [r0; r1]) f = q0 * q1 * ((b - u) * (v - a)).
Proof using Q0 Q1.
  intros E0 E1 H0 H1. unfold box. cbn [prodn]. unfold co. cbn [nth]. rewrite E0, E1, off0, off1. rewrite !Rmax_right by nra. ring.
Qed.
Lemma hv_sorted zs : StronglySorted Rle zs -> (forall z, In z zs -> a <= z <= b) -> hv 2 (co [r0; r1]) (map (fun z => co (on_line z)) zs) = q0 * q1 * gain a b zs.
Proof using Q0 Q1.
  induction zs as [|x zs IH]; intros Hs Hb. cbn [map hv gain]. ring.
  apply StronglySorted_inv in Hs as [Hs Hf]. rewrite Forall_forall in Hf. cbn [map hv]. rewrite IH by (auto; intros; apply Hb; simpl; auto).
  rewrite (box_line x x) by (try reflexivity; apply Hb; simpl; auto). rewrite hvs_join, map_map.
  assert (E : hv 2 (co [r0; r1]) (map (fun z => pjoin (co (on_line z)) (co (on_line x))) zs) = q0 * q1 * ((b - hd b zs) * (x - a))).
  { destruct zs as [|m zs]. cbn [map hv hd]. ring. cbn [hd].
    transitivity (hv 2 (co [r0; r1]) [pjoin (co (on_line m)) (co (on_line x))]).
    - apply Rle_antisym; apply hv_mono; intros p Hp.
      + eexists. split; [left; reflexivity|]. apply in_map_iff in Hp as (z & <- & Hz). intros k Hk. assert (Hmz : m <= z). { destruct Hz as [<-|Hz]; [lra|]. apply StronglySorted_inv in Hs as [_ Hg]. rewrite Forall_forall in Hg. apply Hg; auto. }
        assert (Hxm : x <= m) by (apply Hf; simpl; auto). unfold pjoin. assert (k = 0 \/ k = 1)%nat as [->| ->] by lia; unfold co, on_line; cbn [nth].
        apply Rle_max_compat_r. nra. rewrite !Rmax_right by nra. lra.
      + destruct Hp as [<-|[]]. exists (pjoin (co (on_line m)) (co (on_line x))). split; [left; reflexivity|]. intros; lra.
    - cbn [hv hvs]. assert (Hxm : x <= m) by (apply Hf; simpl; auto). rewrite (box_line m x). ring.
      unfold pjoin, co, on_line; cbn [nth]. apply Rmax_left. nra. unfold pjoin, co, on_line; cbn [nth]. apply Rmax_right. nra. apply Hb; simpl; auto. apply Hb; simpl; auto. }
  rewrite E. cbn [gain]. ring.
Qed.
Lemma hv_bound zs : a <= b -> hv 2 (co [r0; r1]) (map (fun z => co (on_line z)) zs) <= q0 * q1 * ((b - a) * (b - a) / 2 - (b - a) * (b - a) / (2 * INR (S (length zs)))).
Proof using Q0 Q1.
  intros Hab. 
  set (f := fun p : list R => if Rlt_dec (nth 0 p 0) r0 then if Rlt_dec (nth 1 p 0) r1 then true else false else false).
  assert (Ef : hv 2 (co [r0; r1]) (map co (map on_line zs)) = hv 2 (co [r0; r1]) (map co (filter f (map on_line zs)))).
  { symmetry. apply hv_filter. intros p Hp Hf. unfold f in Hf. destruct (Rlt_dec (nth 0 p 0) r0). destruct (Rlt_dec (nth 1 p 0) r1). discriminate. exists 1%nat. split; auto. unfold co; cbn [nth]. lra. exists 0%nat. split; auto. unfold co; cbn [nth]. lra. }
  rewrite <- map_map, Ef.
  assert (Eg : exists zs', filter f (map on_line zs) = map on_line zs' /\ (length zs' <= length zs)%nat /\ forall z, In z zs' -> a <= z <= b).
  { clear Ef. induction zs as [|z zs (zs' & E1 & E2 & E3)]. exists []. split; auto. split; auto. intros z [].
    cbn [map filter]. destruct (f (on_line z)) eqn:E.
    - exists (z :: zs'). cbn [map length]. rewrite E1. split; auto. split. lia. intros w [<-|Hw]; auto. unfold f in E. cbn [on_line nth] in E. destruct (Rlt_dec _ r0) as [L0|]; [|discriminate]. destruct (Rlt_dec _ r1) as [L1|]; [|discriminate].
      pose proof (off0 z). pose proof (off1 z). split; nra.
    - exists zs'. split; auto. split; auto. cbn [length]; lia. }
  destruct Eg as (zs' & -> & Hl & Hb). destruct (sort_reals zs') as (zz & Hp & Hs). rewrite map_map.
  rewrite <- (hv_perm 2 _ _ _ (Permutation_map (fun z => co (on_line z)) Hp)). rewrite hv_sorted; auto.
  2:{ intros z Hz. apply Hb. apply (Permutation_in _ Hp Hz). }
  apply Rmult_le_compat_l. nra. eapply Rle_trans; [apply gain_bound|]. rewrite (Permutation_length Hp).
  assert (H1 : 0 < INR (S (length zs'))) by (apply lt_0_INR; lia). assert (H2 : INR (S (length zs')) <= INR (S (length zs))) by (apply le_INR; lia).
  assert (H3 : / (2 * INR (S (length zs))) <= / (2 * INR (S (length zs')))) by (apply Rinv_le_contravar; lra). pose proof (Rle_0_sqr (b - a)) as S. unfold Rsqr in S. unfold Rdiv at 2 4.
  pose proof (Rmult_le_compat_l _ _ _ S H3). lra.
Qed.
Lemma hv_even N : a <= b -> hv 2 (co [r0; r1]) (map (fun z => co (on_line z)) (map (fun s => a + INR (S s) * ((b - a) / INR (S N))) (seq 0 N))) = q0 * q1 * ((b - a) * (b - a) / 2 - (b - a) * (b - a) / (2 * INR (S N))).
Proof using Q0 Q1.
  intros Hab. assert (HI : 0 < INR (S N)) by (apply lt_0_INR; lia). assert (Hd : 0 <= (b - a) / INR (S N)) by (apply Rmult_le_pos; [lra|apply Rlt_le, Rinv_0_lt_compat; auto]).
  rewrite hv_sorted. rewrite gain_even. reflexivity.
  - generalize 0%nat. assert (G : forall n j, StronglySorted Rle (map (fun s => a + INR (S s) * ((b - a) / INR (S N))) (seq j n))).
    { induction n as [|n IH]; intros j; cbn [seq map]; constructor; auto. apply Forall_forall. intros z Hz. apply in_map_iff in Hz as (s & <- & Hs). apply in_seq in Hs.
      apply Rplus_le_compat_l. apply Rmult_le_compat_r; auto. apply le_INR. lia. }
    intros n. apply G.
  - intros z Hz. apply in_map_iff in Hz as (s & <- & Hs). apply in_seq in Hs. assert (E : b = a + INR (S N) * ((b - a) / INR (S N))) by (field; lra).
    assert (0 <= INR (S s)) by apply pos_INR. assert (INR (S s) <= INR (S N)) by (apply le_INR; lia). split. nra. rewrite E at 2. nra.
Qed.
End Opt.
