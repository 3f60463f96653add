From Coq Require Import List Arith Bool Lia Reals Lra Psatz.
From Verif Require Import ListAux ProbModel NewtonModel BenchModel BenchSpec BenchBase BenchTrig BenchUF BenchZDT.
Import ListNotations.
Open Scope R_scope.

(** the feasible points of CF1-CF3: the constraint is a function of the objectives *)
Definition con_obj (B : list R -> Prop) (f : list R -> option (list R)) (g : list R -> R) (x : list R) : Prop :=
  B x /\ exists v, f x = Some v /\ g v <= 0.
(** CF4, CF5: one function of the point; CF6, CF7: two *)
Definition con_one (B : list R -> Prop) (g : list R -> option R) (x : list R) : Prop := B x /\ exists c, g x = Some c /\ c <= 0.
Definition con_all (B : list R -> Prop) (g : list R -> option (list R)) (x : list R) : Prop := B x /\ exists c, g x = Some c /\ Forall (fun a => a <= 0) c.

Lemma cf_J1_in n i : In i (cf_J1 n) -> (1 <= i < n)%nat /\ Nat.even i = true.
Proof.
  unfold cf_J1. rewrite in_map_iff. intros (j & <- & H). apply arange_in in H; [|lia]. destruct H as (k & -> & H). split; [lia|].
  apply Nat.even_spec. exists (1 + k)%nat. lia.
Qed.
Lemma cf_J2_in n i : Nat.even n = true -> In i (cf_J2 n) -> (1 <= i < n)%nat /\ Nat.even i = false.
Proof.
  intros Hn. unfold cf_J2. rewrite in_map_iff. intros (j & <- & H). apply arange_in in H; [|lia]. destruct H as (k & -> & H).
  apply Nat.even_spec in Hn. destruct Hn as (m & ->). split; [lia|]. rewrite <- Nat.negb_odd. apply negb_false_iff. apply Nat.odd_spec. exists k. lia.
Qed.
Lemma cf_J1_nonnil n : (4 <= n)%nat -> cf_J1 n <> [].
Proof. intros H. apply (nonnil_in 2%nat). unfold cf_J1. apply in_map_iff. exists 3%nat. split; auto. apply arange_in; [lia|]. exists 0%nat. lia. Qed.
Lemma cf_J2_nonnil n : (4 <= n)%nat -> cf_J2 n <> [].
Proof. intros H. apply (nonnil_in 1%nat). unfold cf_J2. apply in_map_iff. exists 2%nat. split; auto. apply arange_in; [lia|]. exists 0%nat. lia. Qed.
(** the groups in general *)
Lemma cf_J1_spec n i : In i (cf_J1 n) <-> (2 <= i /\ i + 1 < n)%nat /\ Nat.even i = true.
Proof.
  unfold cf_J1. rewrite in_map_iff. split.
  - intros (j & <- & H). apply arange_in in H; [|lia]. destruct H as (k & -> & H). split; [lia|]. apply Nat.even_spec. exists (1 + k)%nat. lia.
  - intros (H & E). apply Nat.even_spec in E. destruct E as (k & ->). exists (2 * k + 1)%nat. split; [lia|]. apply arange_in; [lia|]. exists (k - 1)%nat. lia.
Qed.
Lemma cf_J2_spec n i : In i (cf_J2 n) <-> (1 <= i <= n)%nat /\ Nat.odd i = true.
Proof.
  unfold cf_J2. rewrite in_map_iff. split.
  - intros (j & <- & H). apply arange_in in H; [|lia]. destruct H as (k & -> & H). split; [lia|]. apply Nat.odd_spec. exists k. lia.
  - intros (H & E). apply Nat.odd_spec in E. destruct E as (k & ->). exists (2 * k + 2)%nat. split; [lia|]. apply arange_in; [lia|]. exists k. lia.
Qed.

Section CF.
  Variable n : nat.
  Hypothesis Hn : (4 <= n)%nat.
  Hypothesis He : Nat.even n = true.
  Lemma cf_value tgt1 tgt2 P1 P2 A B :
    (forall l, l <> [] -> exists p, P1 l = Some p /\ 0 <= p) -> (forall l, l <> [] -> exists p, P2 l = Some p /\ 0 <= p) ->
    forall x, length x = n -> exists p q, 0 <= p /\ 0 <= q /\ obj2 (cf_J1 n) (cf_J2 n) tgt1 tgt2 P1 P2 A B x = Some [A (nth 0 x 0) + p; B (nth 0 x 0) + q].
  Proof. intros G1 G2 x Hx. apply obj2_value with (n := n); auto using cf_J1_in, cf_J2_in, cf_J1_nonnil, cf_J2_nonnil. lia. Qed.
  Lemma cf_point tgt1 tgt2 P1 P2 A B t :
    (forall l, l <> [] -> Forall (fun a => a = 0) l -> P1 l = Some 0) -> (forall l, l <> [] -> Forall (fun a => a = 0) l -> P2 l = Some 0) ->
    obj2 (cf_J1 n) (cf_J2 n) tgt1 tgt2 P1 P2 A B (point2 n tgt1 tgt2 t) = Some [A t; B t].
  Proof. intros Z1 Z2. apply obj2_point; auto using cf_J1_in, cf_J2_in, cf_J1_nonnil, cf_J2_nonnil. lia. Qed.
End CF.
Lemma box_0_1 n c d x : in_box n 1 c d c d x <-> in_box n 0 c d c d x.
Proof. unfold in_box. split; intros (H1 & H); (split; [exact H1|]); intros i Hi; specialize (H i Hi); destruct (i <? 1)%nat; exact H. Qed.

(** CF1 *)
Lemma cf1_front_spec n : (4 <= n)%nat -> Nat.even n = true ->
  front (con_obj (in_box n 0 0 0 0 1) (cf1 n) cf1_con) (cf1 n) (graph (grid 20) (fun t => 1 - t)).
Proof.
  intros Hn He. assert (E20 : INR 20 = 20) by (cbn; ring).
  assert (Hf : forall x, in_box n 0 0 0 0 1 x -> cf1 n x = obj2 (cf_J1 n) (cf_J2 n) (power_tgt n) (power_tgt n) (mean2_of sq) (mean2_of sq) (fun t => t) (fun t => 1 - t) x).
  { intros x Hx. unfold cf1. rewrite (clip_box n 0 0 0 0 1) by (auto; lia). reflexivity. }
  apply front_intro; [| |apply graph_antichain; intros; lra].
  - intros x (Hx & v & Ev & Hv). exists v. split; auto. rewrite Hf in Ev by auto.
    destruct (cf_value n Hn He (power_tgt n) (power_tgt n) (mean2_of sq) (mean2_of sq) (fun t => t) (fun t => 1 - t)) with (x := x) as (p & q & Hp & Hq & E);
      [apply mean2_of_nonneg, sq_nonneg|apply mean2_of_nonneg, sq_nonneg|apply Hx|]. rewrite E in Ev. injection Ev as <-.
    destruct Hx as (Hl & Hx). specialize (Hx 0%nat ltac:(lia)). cbn [Nat.ltb Nat.leb] in Hx. set (x0 := nth 0 x 0) in *. unfold cf1_con in Hv. cbn [nth] in Hv.
    destruct (grid_between 20 (x0 + p) (1 - x0 + q)) as (k & Hk & H1); [lia|lra|lra| |].
    + rewrite E20. match type of Hv with context [sin ?a] => replace (20 * PI * (x0 + p - (1 - x0 + q) + 1) / 2) with a by field end. lra.
    + exists [k; 1 - k]. split; [exists k; auto|]. apply wdom2. lra.
  - intros u (t & Ht & ->). pose proof (grid_unit 20 t ltac:(lia) Ht) as Hu. pose proof (grid_sin 20 t ltac:(lia) Ht) as Hs. rewrite E20 in Hs.
    exists (point2 n (power_tgt n) (power_tgt n) t).
    assert (Hb : in_box n 0 0 0 0 1 (point2 n (power_tgt n) (power_tgt n) t)).
    { cut (in_box n 0 0 1 0 1 (point2 n (power_tgt n) (power_tgt n) t)); [intros (H1 & H2); split; auto|]. apply box_0_1. apply point2_box; auto; [lia|]. intros i Hi. destruct (Nat.even i); apply power_tgt_bound; auto; lia. }
    assert (Ho : cf1 n (point2 n (power_tgt n) (power_tgt n) t) = Some [t; 1 - t]).
    { rewrite Hf by auto. exact (cf_point n Hn He _ _ _ _ (fun t => t) (fun t => 1 - t) t (mean2_of_zero sq sq_zero) (mean2_of_zero sq sq_zero)). }
    split; auto. split; auto. exists [t; 1 - t]. split; auto. unfold cf1_con. cbn [nth].
    replace (10 * PI * (t - (1 - t) + 1)) with (20 * PI * t) by ring. rewrite Hs, Rabs_R0. lra.
Qed.

(** CF2, CF3 *)
Lemma squash_sign t : squash t <= 0 <-> 0 <= t.
Proof.
  unfold squash. pose proof (exp_pos (4 * Rabs t)). assert (Hi : 0 < / (1 + exp (4 * Rabs t))) by (apply Rinv_0_lt_compat; lra). unfold Rdiv. split; intros; nra.
Qed.
Definition cf2_dom (t : R) : Prop := exists k, bands k /\ t = k * k.
Lemma cf2_front_spec n : (4 <= n)%nat -> Nat.even n = true ->
  front (con_obj (in_box n 1 0 1 (-1) 1) (cf2 n) cf2_con) (cf2 n) (graph cf2_dom (fun t => 1 - sqrt t)).
Proof.
  intros Hn He.
  assert (Hf : forall x, in_box n 1 0 1 (-1) 1 x -> cf2 n x = obj2 (cf_J1 n) (cf_J2 n) (sine n) (cosine n) (mean2_of sq) (mean2_of sq) (fun t => t) (fun t => 1 - sqrt t) x).
  { intros x Hx. unfold cf2. rewrite (clip_box n 1 0 1 (-1) 1) by (auto; lia). reflexivity. }
  apply front_intro; [| |apply graph_antichain].
  - intros x (Hx & v & Ev & Hv). exists v. split; auto. rewrite Hf in Ev by auto.
    destruct (cf_value n Hn He (sine n) (cosine n) (mean2_of sq) (mean2_of sq) (fun t => t) (fun t => 1 - sqrt t)) with (x := x) as (p & q & Hp & Hq & E);
      [apply mean2_of_nonneg, sq_nonneg|apply mean2_of_nonneg, sq_nonneg|apply Hx|]. rewrite E in Ev. injection Ev as <-.
    destruct (in_box_first _ _ _ _ _ _ x 0 Hx ltac:(lia) ltac:(lia)) as (_ & H0). set (x0 := nth 0 x 0) in *. unfold cf2_con in Hv. cbn [nth] in Hv. apply (proj1 (squash_sign _)) in Hv.
    assert (Hs : sqrt x0 <= sqrt (x0 + p)) by (apply sqrt_le_1_alt; lra). assert (H1 : sqrt x0 <= 1) by (rewrite <- sqrt_1; apply sqrt_le_1_alt; lra). pose proof (sqrt_pos x0).
    destruct (bands_between (sqrt (x0 + p)) (1 - sqrt x0 + q)) as (k & Hk & H2); [lra|lra|lra|lra|].
    exists [k * k; 1 - sqrt (k * k)]. split; [exists (k * k); split; [exists k; auto|auto]|]. pose proof (bands_unit k Hk). rewrite sqrt_square by lra.
    apply wdom2. split; [|lra]. rewrite <- (sqrt_sqrt (x0 + p)) by lra. apply Rmult_le_compat; lra.
  - intros u (t & (k & Hk & ->) & ->). pose proof (bands_unit k Hk) as Hu. pose proof (bands_sin k Hk) as Hs. rewrite sqrt_square by lra.
    exists (point2 n (sine n) (cosine n) (k * k)).
    assert (Hb : in_box n 1 0 1 (-1) 1 (point2 n (sine n) (cosine n) (k * k))).
    { apply point2_box; [lia|nra|]. intros i Hi. destruct (Nat.even i); [apply sine_bound|apply cosine_bound]. }
    assert (Ho : cf2 n (point2 n (sine n) (cosine n) (k * k)) = Some [k * k; 1 - k]).
    { rewrite Hf by auto. transitivity (Some [k * k; 1 - sqrt (k * k)]); [|rewrite sqrt_square by lra; auto].
      exact (cf_point n Hn He _ _ _ _ (fun t => t) (fun t => 1 - sqrt t) (k * k) (mean2_of_zero sq sq_zero) (mean2_of_zero sq sq_zero)). }
    split; auto. split; auto. exists [k * k; 1 - k]. split; auto. unfold cf2_con. cbn [nth]. refine (proj2 (squash_sign _) _). rewrite sqrt_square by lra.
    replace (2 * PI * (k - (1 - k) + 1)) with (4 * PI * k) by ring. lra.
  - intros s t (a & Ha & ->) (b & Hb & ->) H. apply bands_unit in Ha. apply bands_unit in Hb. rewrite !sqrt_square by lra. nra.
Qed.
Definition cf3_dom (t : R) : Prop := 0 <= t /\ bands (t * t).
Lemma cf3_front_spec n : (4 <= n)%nat -> Nat.even n = true ->
  front (con_obj (in_box n 1 0 1 (-2) 2) (cf3 n) cf3_con) (cf3 n) (graph cf3_dom (fun t => 1 - sq t)).
Proof.
  intros Hn He.
  assert (Hf : forall x, in_box n 1 0 1 (-2) 2 x -> cf3 n x = obj2 (cf_J1 n) (cf_J2 n) (sine n) (sine n) (cos_penalty (cf_J1 n)) (cos_penalty (cf_J2 n)) (fun t => t) (fun t => 1 - sq t) x).
  { intros x Hx. unfold cf3. rewrite (clip_box n 1 0 1 (-2) 2) by (auto; lia). reflexivity. }
  apply front_intro; [| |apply graph_antichain].
  - intros x (Hx & v & Ev & Hv). exists v. split; auto. rewrite Hf in Ev by auto.
    destruct (cf_value n Hn He (sine n) (sine n) (cos_penalty (cf_J1 n)) (cos_penalty (cf_J2 n)) (fun t => t) (fun t => 1 - sq t)) with (x := x) as (p & q & Hp & Hq & E);
      [intros; apply cos_penalty_nonneg, cf_J1_nonnil; auto|intros; apply cos_penalty_nonneg, cf_J2_nonnil; auto|apply Hx|]. rewrite E in Ev. injection Ev as <-.
    destruct (in_box_first _ _ _ _ _ _ x 0 Hx ltac:(lia) ltac:(lia)) as (_ & H0). set (x0 := nth 0 x 0) in *. unfold cf3_con in Hv. cbn [nth] in Hv.
    assert (Hs : sq x0 <= sq (x0 + p)) by (unfold sq; nra). assert (H1 : 0 <= sq x0 <= 1) by (unfold sq; nra).
    destruct (bands_between (sq (x0 + p)) (1 - sq x0 + q)) as (k & Hk & H2); [lra|lra|lra|lra|].
    pose proof (bands_unit k Hk) as Hu. assert (Hkk : sqrt k * sqrt k = k) by (apply sqrt_sqrt; lra).
    exists [sqrt k; 1 - sq (sqrt k)]. split; [exists (sqrt k); split; [split; [apply sqrt_pos|rewrite Hkk; auto]|auto]|].
    apply wdom2. split; [|unfold sq; rewrite Hkk; unfold sq in *; lra]. rewrite <- (sqrt_square (x0 + p)) by lra. apply sqrt_le_1_alt. unfold sq in *. lra.
  - intros u (t & (Ht0 & Hk) & ->). pose proof (bands_unit _ Hk) as Hu. pose proof (bands_sin _ Hk) as Hs. assert (Ht1 : t <= 1) by nra.
    exists (point2 n (sine n) (sine n) t).
    assert (Hb : in_box n 1 0 1 (-2) 2 (point2 n (sine n) (sine n) t)).
    { apply point2_box; [lia|lra|]. intros i Hi. pose proof (sine_bound n t i). destruct (Nat.even i); lra. }
    assert (Ho : cf3 n (point2 n (sine n) (sine n) t) = Some [t; 1 - sq t]).
    { rewrite Hf by auto. refine (cf_point n Hn He _ _ _ _ (fun t => t) (fun t => 1 - sq t) t _ _); intros; apply cos_penalty_zero; auto using cf_J1_nonnil, cf_J2_nonnil. }
    split; auto. split; auto. exists [t; 1 - sq t]. split; auto. unfold cf3_con. cbn [nth]. unfold sq.
    replace (2 * PI * (t * t - (1 - t * t) + 1)) with (4 * PI * (t * t)) by ring. lra.
  - intros s t (Hs & _) (Ht & _) H. pose proof (sq_strict s t Hs H). lra.
Qed.

(** CF4-CF7 *)
Lemma cf_J2_head n : (4 <= n)%nat -> exists r, cf_J2 n = 1%nat :: 3%nat :: r /\ forall i, In i r -> (5 <= i)%nat.
Proof.
  intros H. unfold cf_J2, arange. assert (E : exists m, ((n + 2 - 2 + (2 - 1)) / 2 = S (S m))%nat).
  { assert (2 <= (n + 2 - 2 + (2 - 1)) / 2)%nat by (apply Nat.div_le_lower_bound; lia). destruct ((n + 2 - 2 + (2 - 1)) / 2)%nat as [|[|m]]; [lia|lia|]. exists m; auto. }
  destruct E as (m & ->). rewrite map_map. cbn [seq map]. eexists. split; [f_equal; f_equal; reflexivity|].
  intros i Hi. apply in_map_iff in Hi. destruct Hi as (k & <- & Hk). apply in_seq in Hk. lia.
Qed.
Lemma front_curve (F : list R -> Prop) f phi :
  (forall x, F x -> exists x0 v1 v2, 0 <= x0 <= 1 /\ f x = Some [v1; v2] /\ x0 <= v1 /\ phi x0 <= v2) ->
  (forall t, 0 <= t <= 1 -> exists x, F x /\ f x = Some [t; phi t]) ->
  (forall s t, 0 <= s -> t <= 1 -> s < t -> phi t < phi s) -> front F f (graph unit_interval phi).
Proof.
  intros H1 H2 H3. apply front_intro; [| |apply graph_antichain; intros s t Hs Ht; apply H3; [apply Hs|apply Ht]].
  - intros x Hx. destruct (H1 x Hx) as (x0 & v1 & v2 & H0 & E & Ha & Hb). exists [v1; v2]. split; auto. exists [x0; phi x0]. split; [exists x0; auto|]. apply wdom2; auto.
  - intros u (t & Ht & ->). destruct (H2 t Ht) as (x & Hx & E). exists x; auto.
Qed.
Lemma cf4_phi_strict s t : 0 <= s -> t <= 1 -> s < t -> cf4_phi t < cf4_phi s.
Proof.
  intros Hs Ht H. unfold cf4_phi. destruct (rltb 0.75 t) eqn:E1; destruct (rltb 0.5 t) eqn:E2; destruct (rltb 0.75 s) eqn:E3; destruct (rltb 0.5 s) eqn:E4;
    repeat match goal with E : rltb _ _ = true |- _ => apply (proj1 (rltb_true _ _)) in E | E : rltb _ _ = false |- _ => apply (proj1 (rltb_false _ _)) in E end; lra.
Qed.
Lemma threshold_bound : 1/4 < threshold <= 1.
Proof.
  unfold threshold. assert (H : sqrt (1/2) * sqrt (1/2) = 1/2) by (apply sqrt_sqrt; lra). pose proof (sqrt_pos (1/2)). split; nra.
Qed.
(** the second objective in the first distance [a], with at least [m] at and beyond the threshold *)
Definition cf45_h (far : R -> R) (a : R) : R := if rltb a threshold then Rabs a else far a.
Lemma cf45_bound far x0 a : 0 <= x0 <= 1 -> (forall b, 0.125 <= far b) -> 0 <= a - 0.5 * x0 + 0.25 -> cf4_phi x0 <= 1 - x0 + cf45_h far a.
Proof.
  intros H0 Hf Ha. pose proof threshold_bound. unfold cf45_h, cf4_phi. specialize (Hf a). pose proof (Rle_abs a). pose proof (Rabs_pos a).
  destruct (rltb a threshold) eqn:E; destruct (rltb 0.75 x0) eqn:E1; destruct (rltb 0.5 x0) eqn:E2;
    repeat match goal with E : rltb _ _ = true |- _ => apply (proj1 (rltb_true _ _)) in E | E : rltb _ _ = false |- _ => apply (proj1 (rltb_false _ _)) in E end; lra.
Qed.
Definition cf45_dist (t : R) : R := if rltb 0.75 t then 1 else if rltb 0.5 t then 0.5 * t - 0.25 else 0.
Lemma cf45_dist_spec far t : 0 <= t <= 1 -> far 1 = 0.125 ->
  0 <= cf45_dist t <= 1 /\ 0 <= cf45_dist t - 0.5 * t + 0.25 /\ 1 - t + cf45_h far (cf45_dist t) = cf4_phi t.
Proof.
  intros Ht Hf. pose proof threshold_bound. unfold cf45_dist, cf45_h, cf4_phi.
  destruct (rltb 0.75 t) eqn:E1; [|destruct (rltb 0.5 t) eqn:E2];
    repeat match goal with E : rltb _ _ = true |- _ => apply (proj1 (rltb_true _ _)) in E | E : rltb _ _ = false |- _ => apply (proj1 (rltb_false _ _)) in E end.
  - assert (E : rltb 1 threshold = false) by (apply rltb_false; lra). rewrite E, Hf. lra.
  - assert (E : rltb (0.5 * t - 0.25) threshold = true) by (apply rltb_true; lra). rewrite E, Rabs_pos_eq by lra. lra.
  - assert (E : rltb 0 threshold = true) by (apply rltb_true; lra). rewrite E, Rabs_R0. lra.
Qed.
(** the distance [d1] is added to variable 1 and [d3] to variable 3 *)
Definition shifted (tgt : R -> nat -> R) (d1 d3 : R -> R) (t : R) (i : nat) : R := tgt t i + (if (i =? 1)%nat then d1 t else if (i =? 3)%nat then d3 t else 0).
Section Shift.
  Variable n : nat.
  Hypothesis Hn : (4 <= n)%nat.
  Hypothesis He : Nat.even n = true.
  Variables (tgt1 tgt2 : R -> nat -> R) (d1 d3 : R -> R) (t : R).
  Let x := point2 n tgt1 (shifted tgt2 d1 d3) t.
  Lemma shift_0 : nth 0 x 0 = t.
  Proof. reflexivity. Qed.
  Lemma shift_1 : nth 1 x 0 = tgt2 t 1 + d1 t.
  Proof. unfold x. rewrite point2_nth by lia. reflexivity. Qed.
  Lemma shift_3 : nth 3 x 0 = tgt2 t 3 + d3 t.
  Proof. unfold x. rewrite point2_nth by lia. reflexivity. Qed.
  Lemma shift_J1 g : g 0 = 0 -> vsum (map g (map (fun i => nth i x 0 - tgt1 t i) (cf_J1 n))) = 0.
  Proof.
    intros Hg. apply vsum_zero. apply Forall_map, Forall_map, Forall_forall. intros i Hi. apply cf_J1_in in Hi. unfold x. rewrite point2_nth by lia. destruct Hi as (_ & ->).
    replace (tgt1 t i - tgt1 t i) with 0 by ring. exact Hg.
  Qed.
  Lemma shift_J2 g r : g 0 = 0 -> cf_J2 n = 1%nat :: 3%nat :: r -> (forall i, In i r -> (5 <= i)%nat) -> vsum (map g (map (fun i => nth i x 0 - tgt2 t i) r)) = 0.
  Proof.
    intros Hg Er Hr. apply vsum_zero. apply Forall_map, Forall_map, Forall_forall. intros i Hi. specialize (Hr i Hi).
    assert (HJ : In i (cf_J2 n)) by (rewrite Er; right; right; auto). apply cf_J2_in in HJ; auto. unfold x. rewrite point2_nth by lia. destruct HJ as (_ & ->). unfold shifted.
    destruct (Nat.eqb_spec i 1); [lia|]. destruct (Nat.eqb_spec i 3); [lia|]. replace (tgt2 t i + 0 - tgt2 t i) with 0 by ring. exact Hg.
  Qed.
  Lemma shift_box b : (forall i, - b <= tgt1 t i <= b) -> (forall i, - b <= tgt2 t i <= b) -> 0 <= t <= 1 -> 0 <= d1 t -> 0 <= d3 t ->
    b + d1 t <= 2 -> b + d3 t <= 2 -> in_box n 1 0 1 (-2) 2 x.
  Proof.
    intros H1 H2 Ht Hd1 Hd3 Hb1 Hb3. apply point2_box; auto; [lia|]. intros i Hi. specialize (H1 i). specialize (H2 i). unfold shifted. destruct (Nat.even i); [lra|].
    destruct (i =? 1)%nat; [lra|]. destruct (i =? 3)%nat; lra.
  Qed.
End Shift.
Lemma vsum_map_nonneg {A} (g : A -> R) l : (forall a, 0 <= g a) -> 0 <= vsum (map g l).
Proof. intros H. apply vsum_nonneg. apply Forall_map, Forall_forall. auto. Qed.
