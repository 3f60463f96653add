From Coq Require Import List Arith Bool Lia Reals Lra Psatz.
From Verif Require Import ListAux ProbModel NewtonModel BenchModel BenchSpec BenchBase BenchTrig BenchUF.
Import ListNotations.
Open Scope R_scope.

Definition zdt_box (n : nat) : list R -> Prop := in_box n 0 0 0 0 1.
Lemma zdt_box_first n x : (1 <= n)%nat -> zdt_box n x -> exists x0 r, x = x0 :: r /\ 0 <= x0 <= 1 /\ length r = (n - 1)%nat /\ Forall (fun a => 0 <= a <= 1) r.
Proof.
  intros Hn (Hl & H). destruct x as [|x0 r]; [cbn in Hl; lia|]. exists x0, r. split; auto. cbn in Hl. split; [apply (H 0%nat); lia|]. split; [lia|].
  apply Forall_forall. intros a Ha. apply (In_nth _ _ 0) in Ha. destruct Ha as (i & Hi & <-). apply (H (S i)). lia.
Qed.
Definition zrow (n : nat) (t : R) : list R := t :: repeat 0 (n - 1).
Lemma zrow_nth n t i : nth (S i) (zrow n t) 0 = 0.
Proof. cbn. apply nth_repeat. Qed.
Lemma zrow_box n k a b c d t : (1 <= n)%nat -> (k <= 1)%nat -> (if (k =? 0)%nat then c <= t <= d else a <= t <= b) -> c <= 0 <= d -> in_box n k a b c d (zrow n t).
Proof.
  intros Hn Hk Ht Hc. split; [unfold zrow; cbn; rewrite repeat_length; lia|]. intros [|i] Hi.
  - destruct k as [|[|k]]; cbn in *; auto; lia.
  - destruct k as [|[|k]]; [| |lia]; cbn [Nat.ltb Nat.leb]; rewrite zrow_nth; lra.
Qed.
Lemma zdt_g_ge n x : (2 <= n)%nat -> zdt_box n x -> exists g, zdt_g x = Some g /\ 1 <= g.
Proof.
  intros Hn Hx. destruct (zdt_box_first n x ltac:(lia) Hx) as (x0 & r & -> & _ & Hl & Hr). unfold zdt_g. cbn [tl].
  destruct (mean_nonneg r) as (m & E & Hm); [intros ->; cbn [length] in Hl; lia| |].
  - eapply Forall_impl; [|exact Hr]. cbn; intros; lra.
  - rewrite E. eexists; split; [reflexivity|lra].
Qed.
Lemma repeat_zero k : Forall (fun a => a = 0) (repeat 0 k).
Proof. apply Forall_forall. intros a Ha. apply repeat_spec in Ha. auto. Qed.
Lemma zdt_g_row n t : (2 <= n)%nat -> zdt_g (zrow n t) = Some 1.
Proof.
  intros Hn. unfold zdt_g, zrow. cbn [tl]. rewrite mean_zero; [f_equal; ring| |apply repeat_zero]. destruct (n - 1)%nat eqn:E; [lia|cbn; congruence].
Qed.
Lemma eps_pos : 0 < eps.
Proof. unfold eps. apply Rinv_0_lt_compat. apply pow_lt. lra. Qed.
Lemma eps_lt_1 : eps < 1.
Proof. unfold eps. rewrite <- Rinv_1. apply Rinv_lt_contravar; lra. Qed.

Lemma div1 a : a / 1 = a.
Proof. field. Qed.
(** the values of the first objective on the front of ZDT1 and ZDT4 *)
Definition zdt1_dom (t : R) : Prop := t = 0 \/ eps < t <= 1.
Definition zdt1_phi (t : R) : R := 1 - sqrt (Rmax t eps).
Lemma zdt1_phi_strict s t : zdt1_dom s -> zdt1_dom t -> s < t -> zdt1_phi t < zdt1_phi s.
Proof.
  pose proof eps_pos. intros Hs [->|Ht] H1; [destruct Hs; lra|]. unfold zdt1_phi. rewrite (Rmax_left t) by lra.
  assert (sqrt (Rmax s eps) < sqrt t); [|lra]. apply sqrt_strict; [apply Rle_trans with eps; [lra|apply Rmax_r]|]. apply Rmax_lub_lt; lra.
Qed.
Lemma zdt1_cover x0 g : 0 <= x0 <= 1 -> 1 <= g -> exists s, zdt1_dom s /\ s <= x0 /\ zdt1_phi s <= g * (1 - sqrt (Rmax (x0 / g) eps)).
Proof.
  intros H0 Hg. pose proof eps_pos as Hep. pose proof eps_lt_1 as Hel.
  assert (Hd : x0 / g <= x0). { apply Rmult_le_reg_r with g; [lra|]. unfold Rdiv. rewrite Rmult_assoc, Rinv_l by lra. nra. }
  assert (Hm : sqrt (Rmax (x0 / g) eps) <= sqrt (Rmax x0 eps)) by (apply sqrt_le_1_alt; apply Rle_max_compat_r; auto).
  assert (H1 : sqrt (Rmax x0 eps) <= 1) by (rewrite <- sqrt_1; apply sqrt_le_1_alt; apply Rmax_lub; lra).
  assert (Hle : 1 - sqrt (Rmax x0 eps) <= g * (1 - sqrt (Rmax (x0 / g) eps))) by nra.
  destruct (Rlt_dec eps x0).
  - exists x0. split; [right; lra|]. split; [lra|]. exact Hle.
  - exists 0. split; [left; auto|]. split; [lra|]. unfold zdt1_phi. rewrite Rmax_right by lra. rewrite (Rmax_right x0) in Hle by lra. exact Hle.
Qed.
Lemma zdt1_row n t : (2 <= n)%nat -> zdt1 (zrow n t) = Some [t; zdt1_phi t].
Proof. intros Hn. unfold zdt1. rewrite zdt_g_row by auto. cbn [zrow nth_error]. unfold zdt1_phi. rewrite div1, Rmult_1_l. reflexivity. Qed.
Lemma zdt1_dom_unit t : zdt1_dom t -> 0 <= t <= 1.
Proof. pose proof eps_pos. unfold zdt1_dom. lra. Qed.
Lemma zdt1_front_spec n : (2 <= n)%nat -> front (zdt_box n) zdt1 (graph zdt1_dom zdt1_phi).
Proof.
  intros Hn. apply front_intro; [| |apply graph_antichain; apply zdt1_phi_strict].
  - intros x Hx. destruct (zdt_g_ge n x Hn Hx) as (g & E & Hg). destruct (zdt_box_first n x ltac:(lia) Hx) as (x0 & r & -> & H0 & _ & _).
    unfold zdt1. rewrite E. cbn [nth_error]. eexists. split; [reflexivity|]. destruct (zdt1_cover x0 g H0 Hg) as (s & Hs & H1 & H2).
    exists [s; zdt1_phi s]. split; [exists s; auto|]. apply wdom2. auto.
  - intros u (t & Ht & ->). exists (zrow n t). split; [apply zrow_box; cbn; try lia; try lra; apply zdt1_dom_unit; auto|]. apply zdt1_row; auto.
Qed.
Lemma zdt4_front_spec n : (2 <= n)%nat -> front (in_box n 1 0 1 (-5) 5) zdt4 (graph zdt1_dom zdt1_phi).
Proof.
  intros Hn. apply front_intro; [| |apply graph_antichain; apply zdt1_phi_strict].
  - intros x Hx. destruct (in_box_first _ _ _ _ _ _ x 0 Hx ltac:(lia) ltac:(lia)) as (E & H0). destruct Hx as (Hl & _). unfold zdt4. rewrite E. eexists. split; [reflexivity|].
    destruct (zdt1_cover (nth 0 x 0) (1 + 10 * INR (length x - 1) + vsum (map (fun a => sq a - 10 * cos (4 * PI * a)) (tl x)))) as (s & Hs & H1 & H2); auto.
    + destruct x as [|x0 r]; [cbn in Hl; lia|]. cbn [tl length]. rewrite Nat.sub_succ, Nat.sub_0_r.
      assert (- (10 * INR (length r)) <= vsum (map (fun a => sq a - 10 * cos (4 * PI * a)) r)); [|lra]. clear. induction r as [|a r IH]; [cbn; lra|].
      cbn [map length]. rewrite S_INR. cbn [vsum fold_right] in *. fold (vsum (map (fun a => sq a - 10 * cos (4 * PI * a)) r)) in *.
      pose proof (COS_bound (4 * PI * a)). pose proof (sq_nonneg a). lra.
    + exists [s; zdt1_phi s]. split; [exists s; auto|]. apply wdom2. auto.
  - intros u (t & Ht & ->). exists (zrow n t). split; [apply zrow_box; cbn; try lia; try lra; apply zdt1_dom_unit; auto|].
    unfold zdt4. cbn [zrow nth_error tl length]. rewrite repeat_length. do 3 f_equal.
    replace (1 + 10 * INR (S (n - 1) - 1) + vsum (map (fun a => sq a - 10 * cos (4 * PI * a)) (repeat 0 (n - 1)))) with 1; [unfold zdt1_phi; rewrite div1; ring|].
    rewrite Nat.sub_succ, Nat.sub_0_r. assert (Hz : forall k, vsum (map (fun a => sq a - 10 * cos (4 * PI * a)) (repeat 0 k)) = - (10 * INR k)); [|rewrite Hz; ring].
    induction k as [|k IH]; [cbn; ring|]. rewrite S_INR. cbn [repeat map vsum fold_right] in *. fold (vsum (map (fun a => sq a - 10 * cos (4 * PI * a)) (repeat 0 k))) in *.
    rewrite IH. rewrite Rmult_0_r, cos_0, sq_zero. ring.
Qed.
Lemma zdt2_front_spec n : (2 <= n)%nat -> front (zdt_box n) zdt2 (graph unit_interval (fun t => 1 - sq t)).
Proof.
  intros Hn. apply front_intro; [| |apply graph_antichain].
  - intros x Hx. destruct (zdt_g_ge n x Hn Hx) as (g & E & Hg). destruct (zdt_box_first n x ltac:(lia) Hx) as (x0 & r & -> & H0 & _ & _).
    unfold zdt2. rewrite E. cbn [nth_error]. eexists. split; [reflexivity|]. exists [x0; 1 - sq x0]. split; [exists x0; split; auto|]. apply wdom2. split; [lra|].
    assert (Hd : 0 <= x0 / g <= x0).
    { split; [apply Rmult_le_pos; [lra|]; apply Rlt_le, Rinv_0_lt_compat; lra|]. apply Rmult_le_reg_r with g; [lra|]. unfold Rdiv. rewrite Rmult_assoc, Rinv_l by lra. nra. }
    unfold sq. set (q := x0 / g) in *. assert (q * q <= x0 * x0) by nra. assert (x0 * x0 <= 1) by nra. nra.
  - intros u (t & Ht & ->). exists (zrow n t). split; [apply zrow_box; cbn; try lia; try lra; auto|]. unfold zdt2. rewrite zdt_g_row by auto. cbn [zrow nth_error]. rewrite div1, Rmult_1_l. reflexivity.
  - intros s t Hs Ht H. pose proof (sq_strict s t (proj1 Hs) H). lra.
Qed.

(** ZDT3: the record minima of a function *)
Definition zdt3_phi (t : R) : R := 1 - sqrt (Rmax t eps) - t * sin (10 * PI * t).
Definition zdt3_dom (t : R) : Prop := 0 <= t <= 1 /\ forall s, 0 <= s < t -> zdt3_phi t < zdt3_phi s.
Lemma zdt3_value n x : (2 <= n)%nat -> zdt_box n x -> exists x0 v, 0 <= x0 <= 1 /\ zdt3 x = Some [x0; v] /\ zdt3_phi x0 <= v.
Proof.
  intros Hn Hx. destruct (zdt_g_ge n x Hn Hx) as (g & E & Hg). destruct (zdt_box_first n x ltac:(lia) Hx) as (x0 & r & -> & H0 & _ & _).
  unfold zdt3. rewrite E. cbn [nth_error]. eexists. eexists. split; [exact H0|]. split; [reflexivity|]. pose proof eps_lt_1 as Hel. unfold zdt3_phi.
  assert (Hd : x0 / g <= x0). { apply Rmult_le_reg_r with g; [lra|]. unfold Rdiv. rewrite Rmult_assoc, Rinv_l by lra. nra. }
  assert (Hm : sqrt (Rmax (x0 / g) eps) <= sqrt (Rmax x0 eps)) by (apply sqrt_le_1_alt; apply Rle_max_compat_r; auto).
  assert (H1 : sqrt (Rmax x0 eps) <= 1) by (rewrite <- sqrt_1; apply sqrt_le_1_alt; apply Rmax_lub; lra).
  replace (g * (1 - sqrt (Rmax (x0 / g) eps) - x0 / g * sin (10 * PI * x0))) with (g * (1 - sqrt (Rmax (x0 / g) eps)) - x0 * sin (10 * PI * x0)) by (field; lra).
  nra.
Qed.
Lemma zdt3_row n t : (2 <= n)%nat -> zdt3 (zrow n t) = Some [t; zdt3_phi t].
Proof. intros Hn. unfold zdt3. rewrite zdt_g_row by auto. cbn [zrow nth_error]. unfold zdt3_phi. rewrite div1, Rmult_1_l. reflexivity. Qed.
Lemma zdt3_optimal n u : (2 <= n)%nat -> optimal (zdt_box n) zdt3 u <-> graph zdt3_dom zdt3_phi u.
Proof.
  intros Hn. assert (Hb : forall t, 0 <= t <= 1 -> zdt_box n (zrow n t)) by (intros; apply zrow_box; cbn; try lia; lra). split.
  - intros ((x & Hx & E) & Hu). destruct (zdt3_value n x Hn Hx) as (t & v & Ht & E' & Hv). rewrite E in E'. injection E' as ->.
    assert (v = zdt3_phi t) as ->.
    { apply Rle_antisym; auto. destruct (Rle_dec v (zdt3_phi t)); auto. exfalso. apply (Hu _ _ (Hb t Ht) (zdt3_row n t Hn)). split; [apply wdom2; lra|]. intros Heq. injection Heq as Heq. lra. }
    exists t. split; auto. split; auto. intros s Hs. destruct (Rlt_dec (zdt3_phi t) (zdt3_phi s)); auto. exfalso.
    apply (Hu _ _ (Hb s ltac:(lra)) (zdt3_row n s Hn)). split; [apply wdom2; lra|]. intros Heq. injection Heq as Heq. lra.
  - intros (t & (Ht & Hmin) & ->). split; [exists (zrow n t); split; [apply Hb; auto|apply zdt3_row; auto]|].
    intros x w Hx E (Hw & Hne). destruct (zdt3_value n x Hn Hx) as (s & v & Hs & E' & Hv). rewrite E in E'. injection E' as ->. apply wdom2 in Hw.
    destruct (Rlt_dec s t); [specialize (Hmin s ltac:(lra)); lra|]. assert (s = t) by lra. subst. apply Hne. f_equal. f_equal. lra.
Qed.

(** ZDT6 *)
Definition zdt6_f (x0 : R) : R := 1 - exp (-4 * x0) * sin (6 * PI * x0) ^ 6.
Definition zdt6_dom (t : R) : Prop := exists x0, 0 <= x0 <= 1 /\ t = zdt6_f x0.
Lemma zdt6_f_unit x0 : 0 <= x0 -> 0 <= zdt6_f x0 <= 1.
Proof.
  intros H. unfold zdt6_f. assert (0 < exp (-4 * x0) <= 1).
  { split; [apply exp_pos|]. rewrite <- exp_0. destruct H as [H|<-]; [apply Rlt_le, exp_increasing; lra|rewrite Rmult_0_r; lra]. }
  assert (0 <= sin (6 * PI * x0) ^ 6 <= 1).
  { pose proof (SIN_bound (6 * PI * x0)) as Hs. set (a := sin (6 * PI * x0)) in *. assert (0 <= a * a <= 1) by nra. set (b := a * a) in *. replace (a ^ 6) with (b * b * b) by (unfold b; ring).
    assert (0 <= b * b <= 1) by nra. nra. }
  nra.
Qed.
Lemma eps_root : Rpower eps (/ 4) = / 1000.
Proof.
  unfold eps. replace (/ 10 ^ 12) with ((/ 1000) ^ 4) by (field_simplify; [reflexivity|lra..] || (cbn; field)).
  rewrite <- Rpower_pow by lra. rewrite Rpower_mult. replace (INR 4 * / 4) with 1 by (cbn; field). apply Rpower_1. lra.
Qed.
Definition zdt6_gamma : R := 1.009.
Definition zdt6_phi (t : R) : R := zdt6_gamma - sq t / zdt6_gamma.
Lemma zdt6_shape g t : 0 < g -> g * (1 - sq (t / g)) = g - sq t / g.
Proof. intros H. unfold sq. field. lra. Qed.
Lemma Rpower_mono a b : 0 < a -> a <= b -> Rpower a (/ 4) <= Rpower b (/ 4).
Proof. intros Ha [H| ->]; [|lra]. apply Rle_Rpower_l; lra. Qed.
Lemma zdt6_value n x : (2 <= n)%nat -> zdt_box n x -> exists x0 g, 0 <= x0 <= 1 /\ zdt6_gamma <= g /\ zdt6 x = Some [zdt6_f x0; g - sq (zdt6_f x0) / g].
Proof.
  intros Hn Hx. destruct (zdt_box_first n x ltac:(lia) Hx) as (x0 & r & -> & H0 & Hl & Hr). unfold zdt6. cbn [tl nth_error].
  destruct (mean_nonneg r) as (m & E & Hm); [intros ->; cbn [length] in Hl; lia|eapply Forall_impl; [|exact Hr]; cbn; intros; lra|]. rewrite E.
  exists x0, (1 + 9 * Rpower (Rmax m eps) (/ 4)). split; auto. pose proof eps_pos.
  assert (Hg : zdt6_gamma <= 1 + 9 * Rpower (Rmax m eps) (/ 4)).
  { unfold zdt6_gamma. assert (/ 1000 <= Rpower (Rmax m eps) (/ 4)); [|lra]. rewrite <- eps_root. apply Rpower_mono; auto. apply Rmax_r. }
  split; auto. rewrite zdt6_shape by (unfold zdt6_gamma in Hg; lra). reflexivity.
Qed.
Lemma zdt6_row n t : (2 <= n)%nat -> zdt6 (zrow n t) = Some [zdt6_f t; zdt6_phi (zdt6_f t)].
Proof.
  intros Hn. unfold zdt6. cbn [zrow tl nth_error]. rewrite mean_zero; [|destruct (n - 1)%nat eqn:E; [lia|cbn; congruence]|apply repeat_zero].
  pose proof eps_pos. rewrite Rmax_right by lra. rewrite eps_root. unfold zdt6_phi. rewrite zdt6_shape by lra.
  replace (1 + 9 * / 1000) with zdt6_gamma by (unfold zdt6_gamma; lra). reflexivity.
Qed.
Lemma g_mono g h t : 0 < g -> g <= h -> g - sq t / g <= h - sq t / h.
Proof.
  intros Hg H. assert (sq t / h <= sq t / g); [|lra]. apply Rmult_le_compat_l; [apply sq_nonneg|]. apply Rinv_le_contravar; auto.
Qed.
Lemma zdt6_front_spec n : (2 <= n)%nat -> front (zdt_box n) zdt6 (graph zdt6_dom zdt6_phi).
Proof.
  intros Hn. apply front_intro; [| |apply graph_antichain].
  - intros x Hx. destruct (zdt6_value n x Hn Hx) as (x0 & g & H0 & Hg & E). rewrite E. eexists. split; [reflexivity|].
    exists [zdt6_f x0; zdt6_phi (zdt6_f x0)]. split; [eexists; split; [exists x0; auto|reflexivity]|]. apply wdom2. split; [lra|]. apply g_mono; auto. unfold zdt6_gamma; lra.
  - intros u (t & (x0 & H0 & ->) & ->). exists (zrow n x0). split; [apply zrow_box; cbn; try lia; lra|]. apply zdt6_row; auto.
  - intros s t (a & Ha & ->) (b & Hb & ->) H. unfold zdt6_phi. pose proof (zdt6_f_unit a ltac:(lra)). pose proof (sq_strict _ _ (proj1 H0) H).
    assert (sq (zdt6_f a) / zdt6_gamma < sq (zdt6_f b) / zdt6_gamma); [|lra]. apply Rmult_lt_compat_r; auto. apply Rinv_0_lt_compat. unfold zdt6_gamma. lra.
Qed.
(** no reported vector belongs to a point: for a given first objective, the second of any point is larger *)
Lemma zdt6_above n x a b : (2 <= n)%nat -> zdt_box n x -> zdt6 x = Some [a; b] -> 1 - sq a < b.
Proof.
  intros Hn Hx E. destruct (zdt6_value n x Hn Hx) as (x0 & g & H0 & Hg & E'). rewrite E in E'. injection E' as -> ->.
  apply Rlt_le_trans with (zdt6_phi (zdt6_f x0)); [|apply g_mono; auto; unfold zdt6_gamma; lra].
  unfold zdt6_phi. pose proof (g_mono 1 zdt6_gamma (zdt6_f x0)). unfold zdt6_gamma in *. pose proof (sq_nonneg (zdt6_f x0)).
  assert (sq (zdt6_f x0) / 1.009 <= sq (zdt6_f x0)); [|lra]. apply Rmult_le_reg_r with 1.009; [lra|]. unfold Rdiv. rewrite Rmult_assoc, Rinv_l by lra. lra.
Qed.
