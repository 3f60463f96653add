(** C166: the fronts that the benchmark problems report, vector for vector. *)
From Coq Require Import List Arith Bool Reals ZArith Lia Lra Psatz Sorted.
From Verif Require Import ListAux ProbModel NewtonModel BenchModel BenchSpec BenchBase BenchTrig FormSpec BenchCF PropsBench.
Import ListNotations.
Open Scope R_scope.

(** the N equidistant numbers from 0 to 1 *)
Definition Node (N i : nat) : R := if (N =? 1)%nat then 0 else INR i / INR (N - 1).
(** the curve sampled at the nodes, in this order *)
Definition Sampled (F : nat -> list (list R)) (phi : R -> R) : Prop := forall N, F N = map (fun i => [Node N i; phi (Node N i)]) (seq 0 N).
(** the same without the nodes outside [D] *)
Definition Selected (F : nat -> list (list R)) (D : R -> Prop) (phi : R -> R) : Prop :=
  forall N, StronglySorted (fun u v => nth 0 u 0 < nth 0 v 0) (F N) /\ forall u, In u (F N) <-> exists i, (i < N)%nat /\ D (Node N i) /\ u = [Node N i; phi (Node N i)].

Lemma sampled_map (phi phi' : R -> R) F : (forall N, F N = map (fun t => [t; phi t]) (linspace01 N)) -> (forall t, phi t = phi' t) -> Sampled F phi'.
Proof. intros H E N. rewrite H. unfold linspace01. rewrite map_map. apply map_ext. intros i. unfold Node. rewrite E. reflexivity. Qed.
Lemma node_lt N i j : (i < j < N)%nat -> Node N i < Node N j.
Proof.
  intros H. unfold Node. destruct (Nat.eqb_spec N 1); [lia|]. apply Rmult_lt_compat_r; [apply Rinv_0_lt_compat, lt_0_INR; lia|apply lt_INR; lia].
Qed.
Lemma sorted_nodes (phi : R -> R) (keep : R -> bool) N : forall m a, (a + m <= N)%nat ->
  StronglySorted (fun u v => nth 0 u 0 < nth 0 v 0) (map (fun t => [t; phi t]) (filter keep (map (Node N) (seq a m)))).
Proof.
  induction m as [|m IH]; intros a Ha; cbn [seq map filter]; [constructor|]. destruct (keep (Node N a)); [|apply IH; lia]. cbn [map]. constructor; [apply IH; lia|].
  apply Forall_map, Forall_forall. intros t Ht. apply filter_In in Ht. destruct Ht as (Ht & _). apply in_map_iff in Ht. destruct Ht as (j & <- & Hj). apply in_seq in Hj. cbn [nth]. apply node_lt. lia.
Qed.
Lemma selected_map (phi phi' : R -> R) (keep : R -> bool) (D : R -> Prop) F : (forall N, F N = map (fun t => [t; phi t]) (filter keep (linspace01 N))) -> (forall t, phi t = phi' t) ->
  (forall t, 0 <= t <= 1 -> (keep t = true <-> D t)) -> Selected F D phi'.
Proof.
  intros H E HD N. rewrite H. change (linspace01 N) with (map (Node N) (seq 0 N)). split; [apply sorted_nodes; lia|]. intros u. rewrite in_map_iff.
  assert (U : forall i, (i < N)%nat -> 0 <= Node N i <= 1). { intros i Hi. apply (linspace_unit N). change (linspace01 N) with (map (Node N) (seq 0 N)). apply in_map, in_seq. lia. }
  split.
  - intros (t & <- & Ht). apply filter_In in Ht. destruct Ht as (Ht & Hk). apply in_map_iff in Ht. destruct Ht as (i & <- & Hi). apply in_seq in Hi. exists i. split; [lia|]. split; [apply HD; auto; apply U; lia|]. rewrite E. reflexivity.
  - intros (i & Hi & Hd & ->). exists (Node N i). rewrite E. split; auto. apply filter_In. split; [apply in_map, in_seq; lia|apply HD; auto].
Qed.

Theorem C166_curves :
  Sampled zdt1_front (fun t => 1 - sqrt t) /\ Sampled zdt2_front (fun t => 1 - t ^ 2) /\ Sampled uf1_front (fun t => 1 - sqrt t) /\ Sampled uf4_front (fun t => 1 - t ^ 2)
  /\ Sampled uf7_front (fun t => 1 - t) /\ Sampled cf1_front (fun t => 1 - t)
  /\ Sampled cf4_front (fun t => if Rle_dec t (1/2) then 1 - t else if Rle_dec t (3/4) then 3/4 - t / 2 else 9/8 - t)
  /\ Sampled cf6_front (fun t => if Rle_dec t (1/2) then (1 - t) ^ 2 else if Rle_dec t (3/4) then (1 - t) / 2 else sqrt (1 - t) / 4)
  /\ (forall N, zdt6_front N = map (fun i => let t := 0.2807753191 + (1 - 0.2807753191) * Node N i in [t; 1 - t ^ 2]) (seq 0 N))
  /\ (forall n N, zdt_set n N = map (fun i => Node N i :: repeat 0 (n - 1)) (seq 0 N)).
Proof.
  assert (S : forall t, 1 - sq t = 1 - t ^ 2) by (intros; unfold sq; ring).
  split; [apply (sampled_map (fun t => 1 - sqrt t)); auto|]. split; [apply (sampled_map (fun t => 1 - sq t)); auto|]. split; [apply (sampled_map (fun t => 1 - sqrt t)); auto|]. split; [apply (sampled_map (fun t => 1 - sq t)); auto|].
  split; [apply (sampled_map (fun t => 1 - t)); auto|]. split; [apply (sampled_map (fun t => 1 - t)); auto|]. split; [|split; [|split]].
  - apply (sampled_map cf4_phi); auto. intros t. unfold cf4_phi, rltb. destruct (Rlt_dec 0.75 t), (Rlt_dec 0.5 t), (Rle_dec t (1/2)), (Rle_dec t (3/4)); lra.
  - apply (sampled_map cf6_phi); auto. intros t. unfold cf6_phi, rltb, sq. destruct (Rlt_dec 0.75 t), (Rlt_dec 0.5 t), (Rle_dec t (1/2)), (Rle_dec t (3/4)); lra.
  - intros N. unfold zdt6_front. change (linspace01 N) with (map (Node N) (seq 0 N)). rewrite map_map. apply map_ext. intros i. cbv zeta. rewrite <- S. rewrite (Rmult_comm (Node N i)). reflexivity.
  - intros n N. unfold zdt_set. change (linspace01 N) with (map (Node N) (seq 0 N)). rewrite map_map. reflexivity.
Qed.
Print Assumptions C166_curves.
Theorem C166_gaps :
  Selected uf6_front (fun t => t = 0 \/ 1/4 <= t <= 1/2 \/ 3/4 <= t <= 1) (fun t => 1 - t)
  /\ Selected cf2_front (fun t => 1/16 <= t <= 1/4 \/ 9/16 <= t <= 1) (fun t => 1 - sqrt t)
  /\ Selected cf3_front (fun t => t = 0 \/ 1/4 <= t ^ 2 <= 1/2 \/ 3/4 <= t ^ 2 <= 1) (fun t => 1 - t ^ 2).
Proof.
  split; [|split].
  - apply (selected_map (fun t => 1 - t) _ uf6_keep); auto. intros t Ht. unfold uf6_keep. rewrite negb_true_iff, orb_false_iff, !andb_false_iff, !rltb_false. lra.
  - apply (selected_map (fun t => 1 - sqrt t) _ cf2_keep); auto. intros t Ht. unfold cf2_keep. rewrite orb_true_iff, !andb_true_iff, !rleb_true. lra.
  - apply (selected_map (fun t => 1 - sq t) _ cf3_keep); auto; [intros; unfold sq; ring|]. intros t Ht. unfold cf3_keep. rewrite negb_true_iff, orb_false_iff, !andb_false_iff, !rltb_false.
    assert (H1 : sqrt (1/2) * sqrt (1/2) = 1/2) by (apply sqrt_sqrt; lra). assert (H2 : sqrt (3/4) * sqrt (3/4) = 3/4) by (apply sqrt_sqrt; lra).
    pose proof (sqrt_pos (1/2)). pose proof (sqrt_pos (3/4)). replace (t ^ 2) with (t * t) by ring.
    assert (A1 : t <= sqrt (1/2) <-> t * t <= 1/2) by (split; intros; nra). assert (A2 : sqrt (3/4) <= t <-> 3/4 <= t * t) by (split; intros; nra).
    assert (A3 : 1/2 <= t <-> 1/4 <= t * t) by (split; intros; nra). assert (A5 : t * t <= 1) by nra. rewrite A1, A2, A3. lra.
Qed.
Print Assumptions C166_gaps.
(** CF2: the sampled vectors that are optimal are reported, except (0, 1) *)
Theorem C166_cf2_optimal : forall n N i, (4 <= n)%nat -> Nat.even n = true -> (i < N)%nat -> let t := Node N i in
  In [t; 1 - sqrt t] (cf2_front N) <-> t <> 0 /\ optimal (con_obj (in_box n 1 0 1 (-1) 1) (cf2 n) cf2_con) (cf2 n) [t; 1 - sqrt t].
Proof.
  intros n N i Hn He Hi t. destruct (C81_cf2 n Hn He) as (F & _). rewrite (proj1 F). destruct C166_gaps as (_ & G & _). destruct (G N) as (_ & G2). rewrite G2.
  assert (U : 0 <= t <= 1). { apply (linspace_unit N). change (linspace01 N) with (map (Node N) (seq 0 N)). apply in_map, in_seq. lia. }
  split.
  - intros (j & Hj & Hd & E). injection E as E _. fold t in E. rewrite <- E in Hd. split; [lra|]. exists t. split; auto. exists (sqrt t). assert (Es : sqrt t * sqrt t = t) by (apply sqrt_sqrt; lra). split; auto. pose proof (sqrt_pos t). destruct Hd; [right; left|right; right]; nra.
  - intros (H0 & t' & (k & Hb & Hk) & E). injection E as <- _. exists i. split; auto. split; auto. fold t. destruct Hb as [->|[Hb|Hb]]; [exfalso; lra|left; nra|right; nra].
Qed.
Print Assumptions C166_cf2_optimal.
Theorem C166_zdt3 : forall N u, In u (zdt3_front N) <-> exists lo hi i, In (lo, hi) [(0, 0.0830015349); (0.182228780, 0.2577623634); (0.4093136748, 0.4538821041); (0.6183967944, 0.6525117038); (0.8233317983, 0.8518328654)]
  /\ (i < Nat.max 1 (N / 5))%nat /\ let t := lo + Node (Nat.max 1 (N / 5)) i * (hi - lo) in u = [t; 1 - sqrt t - t * sin (10 * PI * t)].
Proof.
  intros N u. unfold zdt3_front. fold zdt3_regions. rewrite in_concat. split.
  - intros (b & Hb & Hu). apply in_map_iff in Hb. destruct Hb as ((lo, hi) & <- & Hr). change (linspace01 (Nat.max 1 (N / 5))) with (map (Node (Nat.max 1 (N / 5))) (seq 0 (Nat.max 1 (N / 5)))) in Hu. rewrite map_map in Hu. apply in_map_iff in Hu. destruct Hu as (i & <- & Hi). apply in_seq in Hi. exists lo, hi, i. split; auto. split; [lia|reflexivity].
  - intros (lo & hi & i & Hr & Hi & ->). eexists. split; [apply in_map; exact Hr|]. cbn [fst snd]. change (linspace01 (Nat.max 1 (N / 5))) with (map (Node (Nat.max 1 (N / 5))) (seq 0 (Nat.max 1 (N / 5)))). rewrite map_map. apply in_map_iff. exists i. split; [reflexivity|apply in_seq; lia].
Qed.
Print Assumptions C166_zdt3.
(** CF8: the five arcs, with 1 in place of the second coordinate *)
Theorem C166_cf8 : forall N u, (1 <= N)%nat -> let k := ((N + 4) / 5)%nat in
  In u (cf8_front N) <-> exists j i, (j <= 4)%nat /\ (i < k)%nat /\ let a := Node k i * PI / 2 in u = [sqrt (INR j / 4) * cos a; 1; sin a].
Proof.
  intros N u HN k. assert (Hk : (1 <= k)%nat) by (apply Nat.div_le_lower_bound; lia).
  assert (Hc : forall j i, (i < k)%nat -> sqrt (INR j / 4 * (1 - sq (sin (Node k i * PI / 2)))) = sqrt (INR j / 4) * cos (Node k i * PI / 2)).
  { intros j i Hi. assert (U : 0 <= Node k i <= 1) by (apply (linspace_unit k); change (linspace01 k) with (map (Node k) (seq 0 k)); apply in_map, in_seq; lia). pose proof (pos_INR j). pose proof PI_RGT_0.
    rewrite sqrt_mult_alt by lra. f_equal. replace (1 - sq (sin (Node k i * PI / 2))) with (cos (Node k i * PI / 2) * cos (Node k i * PI / 2)) by (pose proof (sin2_cos2 (Node k i * PI / 2)) as E; unfold sq; unfold Rsqr in E; lra). apply sqrt_square. apply cos_ge_0; nra. }
  destruct (C82_cf8_refuted 5 N (le_n _) HN) as (H1 & _). unfold cf8_front in *. fold k in H1. fold k.
  set (rows := concat (map (fun i => map (fun t => let s := sin (t * PI / 2) in (sqrt (INR i / 4 * (1 - sq s)), s)) (linspace01 k)) (seq 0 5))) in *.
  assert (Hr : forall r, In r rows <-> exists j i, (j <= 4)%nat /\ (i < k)%nat /\ r = (sqrt (INR j / 4) * cos (Node k i * PI / 2), sin (Node k i * PI / 2))).
  { intros r. unfold rows. rewrite in_concat. change (linspace01 k) with (map (Node k) (seq 0 k)). split.
    - intros (b & Hb & Hu). apply in_map_iff in Hb. destruct Hb as (j & <- & Hj). apply in_seq in Hj. rewrite map_map in Hu. apply in_map_iff in Hu. destruct Hu as (i & <- & Hi). apply in_seq in Hi. exists j, i. split; [lia|]. split; [lia|]. cbv zeta. rewrite Hc by lia. reflexivity.
    - intros (j & i & Hj & Hi & ->). eexists. split; [apply in_map_iff; exists j; split; [reflexivity|apply in_seq; lia]|]. rewrite map_map. apply in_map_iff. exists i. split; [|apply in_seq; lia]. cbv zeta. rewrite Hc by lia. reflexivity. }
  destruct (map (fun r : R * R => 1 - sq (fst r) - sq (snd r)) rows) as [|a l] eqn:El.
  - exfalso. assert (Hin : In (sqrt (INR 0 / 4) * cos (Node k 0 * PI / 2), sin (Node k 0 * PI / 2)) rows) by (apply Hr; exists 0%nat, 0%nat; split; [lia|]; split; [lia|reflexivity]). destruct rows; [destruct Hin|discriminate].
  - cbv zeta in *. set (top := sqrt (fold_left Rmax l a)) in *. assert (Et : top = 1).
    { assert (Hin : In (sqrt (INR 0 / 4) * cos (Node k 0 * PI / 2), sin (Node k 0 * PI / 2)) rows) by (apply Hr; exists 0%nat, 0%nat; split; [lia|]; split; [lia|reflexivity]). exact (H1 _ (in_map (fun r : R * R => [fst r; top; snd r]) _ _ Hin)). }
    rewrite Et. rewrite in_map_iff. split.
    + intros (r & <- & Hin). apply Hr in Hin. destruct Hin as (j & i & Hj & Hi & ->). exists j, i. auto.
    + intros (j & i & Hj & Hi & ->). eexists. split; [|apply Hr; exists j, i; split; [exact Hj|]; split; [exact Hi|reflexivity]]. reflexivity.
Qed.
Print Assumptions C166_cf8.
Example C166_meets : (4 <= 6)%nat /\ Nat.even 6 = true /\ (1 < 17)%nat /\ Node 17 1 = 1/16 /\ In [1/16; 1 - sqrt (1/16)] (cf2_front 17) /\ ~ In [1/2; 1 - sqrt (1/2)] (cf2_front 17).
Proof.
  assert (Hn : forall i, Node 17 i = INR i / 16). { intros i. unfold Node. cbn [Nat.eqb]. f_equal. rewrite INR_IZR_INZ. reflexivity. }
  split; [lia|]. split; [reflexivity|]. split; [lia|]. split; [rewrite Hn; reflexivity|]. destruct C166_gaps as (_ & G & _). destruct (G 17%nat) as (_ & G2). split.
  - apply G2. exists 1%nat. split; [lia|]. rewrite Hn. cbn [INR]. split; [left; lra|reflexivity].
  - intros H. apply G2 in H. destruct H as (i & _ & Hd & E). injection E as E _. rewrite <- E in Hd. lra.
Qed.
