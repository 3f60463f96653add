From Coq Require Import List Arith Bool Lia Reals Lra Psatz.
From Verif Require Import ListAux ProbModel NewtonModel BenchModel BenchSpec BenchBase BenchTrig BenchUF BenchZDT BenchCF.
Import ListNotations.
Open Scope R_scope.

Definition cf_box (n : nat) : list R -> Prop := in_box n 1 0 1 (-2) 2.
(** CF4 *)
Definition cf4_f (i : nat) (a : R) : R := if (i =? 1)%nat then cf45_h (fun _ => 0.125) a else sq a.
Lemma cf4_h_take y idx : (forall i, In i idx -> (i < length y)%nat) -> take (cf4_h y) idx = Some (map (fun i => cf4_f i (nth i y 0)) idx).
Proof.
  intros H. unfold cf4_h. rewrite (take_some 0) by (rewrite map_length, enum_length; auto). f_equal. apply map_ext_in. intros i Hi.
  rewrite (nth_map_default _ _ _ (0%nat, 0)) by (rewrite enum_length; auto). rewrite enum_nth by auto. reflexivity.
Qed.
Lemma cf4_value n x : (4 <= n)%nat -> Nat.even n = true -> cf_box n x ->
  exists r, cf_J2 n = 1%nat :: 3%nat :: r /\ (forall i, In i r -> (5 <= i)%nat) /\
    let y := fun i => nth i x 0 - sine n (nth 0 x 0) i in
    cf4 n x = Some [nth 0 x 0 + vsum (map sq (map y (cf_J1 n))); 1 - nth 0 x 0 + (cf45_h (fun _ => 0.125) (y 1%nat) + (sq (y 3%nat) + vsum (map sq (map y r))))].
Proof.
  intros Hn He Hx. destruct (cf_J2_head n Hn) as (r & Er & Hr). exists r. split; auto. split; auto. cbn zeta.
  assert (Hl : length x = n) by apply Hx. unfold cf4. rewrite (clip_box n 1 0 1 (-2) 2) by (auto; lia). rewrite (nth_error_nth' x 0) by lia.
  rewrite !cf4_h_take by (rewrite minus_at_length; intros i Hi; first [apply cf_J1_in in Hi|apply cf_J2_in in Hi; auto]; lia).
  assert (E1 : map (fun i => cf4_f i (nth i (minus_at (sine n (nth 0 x 0)) x) 0)) (cf_J1 n) = map sq (map (fun i => nth i x 0 - sine n (nth 0 x 0) i) (cf_J1 n))).
  { rewrite map_map. apply map_ext_in. intros i Hi. apply cf_J1_in in Hi. rewrite minus_at_nth by lia. unfold cf4_f. destruct (Nat.eqb_spec i 1) as [->|]; auto. destruct Hi; discriminate. }
  assert (E2 : map (fun i => cf4_f i (nth i (minus_at (sine n (nth 0 x 0)) x) 0)) r = map sq (map (fun i => nth i x 0 - sine n (nth 0 x 0) i) r)).
  { rewrite map_map. apply map_ext_in. intros i Hi. assert (HJ : In i (cf_J2 n)) by (rewrite Er; right; right; auto). apply cf_J2_in in HJ; auto. specialize (Hr i Hi).
    rewrite minus_at_nth by lia. unfold cf4_f. destruct (Nat.eqb_spec i 1); auto. lia. }
  rewrite E1, Er. cbn [map]. rewrite E2. rewrite !minus_at_nth by lia. reflexivity.
Qed.
Lemma two_pi n : INR 2 * PI / INR n = 2 * PI / INR n.
Proof. replace (INR 2) with 2 by (cbn; ring). reflexivity. Qed.
Lemma four_pi n : INR 4 * PI / INR n = 4 * PI / INR n.
Proof. replace (INR 4) with 4 by (cbn; ring). reflexivity. Qed.
Lemma cf4_front_spec n : (4 <= n)%nat -> Nat.even n = true ->
  front (con_one (cf_box n) (cf4_con n)) (cf4 n) (graph unit_interval cf4_phi).
Proof.
  intros Hn He. apply front_curve; [| |apply cf4_phi_strict].
  - intros x (Hx & c & Ec & Hc). destruct (cf4_value n x Hn He Hx) as (r & _ & _ & E). cbn zeta in E.
    destruct (in_box_first _ _ _ _ _ _ x 0 Hx ltac:(lia) ltac:(lia)) as (_ & H0). do 3 eexists. split; [exact H0|]. split; [exact E|].
    assert (Hl : length x = n) by apply Hx. unfold cf4_con in Ec. rewrite !(nth_error_nth' x 0) in Ec by lia. injection Ec as <-. apply (proj1 (squash_sign _)) in Hc.
    split; [pose proof (vsum_map_nonneg sq (map (fun i => nth i x 0 - sine n (nth 0 x 0) i) (cf_J1 n)) sq_nonneg); lra|].
    eapply Rle_trans; [apply (cf45_bound (fun _ => 0.125) (nth 0 x 0) (nth 1 x 0 - sine n (nth 0 x 0) 1) H0)|].
    + intros. lra.
    + unfold sine. rewrite two_pi. exact Hc.
    + pose proof (sq_nonneg (nth 3 x 0 - sine n (nth 0 x 0) 3)). pose proof (vsum_map_nonneg sq (map (fun i => nth i x 0 - sine n (nth 0 x 0) i) r) sq_nonneg). lra.
  - intros t Ht. destruct (cf45_dist_spec (fun _ => 0.125) t Ht eq_refl) as (Hd & Hd2 & Hphi).
    exists (point2 n (sine n) (shifted (sine n) cf45_dist (fun _ => 0)) t). set (x := point2 n (sine n) (shifted (sine n) cf45_dist (fun _ => 0)) t).
    assert (Hb : cf_box n x). { apply shift_box with (b := 1); auto; try lra; apply sine_bound. }
    assert (Hl : length x = n) by apply Hb. split.
    + split; auto. eexists. split; [unfold cf4_con; rewrite !(nth_error_nth' x 0) by lia; reflexivity|]. refine (proj2 (squash_sign _) _). unfold x. rewrite shift_1 by auto. rewrite shift_0. unfold sine.
      rewrite two_pi. lra.
    + destruct (cf4_value n x Hn He Hb) as (r & Er & Hr & E). cbn zeta in E. rewrite E. f_equal. unfold x. rewrite shift_0, shift_1, shift_3 by auto.
      rewrite shift_J1 by auto using sq_zero. rewrite (shift_J2 n Hn He _ _ _ _ _ sq r sq_zero Er Hr).
      rewrite <- Hphi. f_equal; [lra|]. f_equal. replace (sine n t 1 + cf45_dist t - sine n t 1) with (cf45_dist t) by ring. replace (sine n t 3 + 0 - sine n t 3) with 0 by ring. rewrite sq_zero. lra.
Qed.

(** CF5 *)
Definition cf5_far (a : R) : R := 0.125 + sq (a - 1).
Lemma cf5_tgt_bound (trig : R -> R) n t i : (forall a, -1 <= trig a <= 1) -> 0 <= t <= 1 -> - (0.8) <= cf5_tgt trig n t i <= 0.8.
Proof. intros H Ht. unfold cf5_tgt. match goal with |- context [trig ?a] => specialize (H a); set (c := trig a) in * end. nra. Qed.
Lemma cf_take n x tgt : (4 <= n)%nat -> Nat.even n = true -> length x = n ->
  take (minus_at tgt x) (cf_J1 n) = Some (map (fun i => nth i x 0 - tgt i) (cf_J1 n)) /\ take (minus_at tgt x) (cf_J2 n) = Some (map (fun i => nth i x 0 - tgt i) (cf_J2 n)).
Proof. intros Hn He Hl. split; apply take_minus; intros i Hi; [apply cf_J1_in in Hi|apply cf_J2_in in Hi; auto]; lia. Qed.
Lemma cf5_front_spec n : (4 <= n)%nat -> Nat.even n = true ->
  front (con_one (cf_box n) (cf5_con n)) (cf5 n) (graph unit_interval cf4_phi).
Proof.
  intros Hn He. destruct (cf_J2_head n Hn) as (r & Er & Hr).
  assert (Hv : forall x, length x = n -> let x0 := nth 0 x 0 in let y := fun i => nth i x 0 - cf5_tgt sin n x0 i in
    cf5 n x = Some [x0 + vsum (map wave (map (fun i => nth i x 0 - cf5_tgt cos n x0 i) (cf_J1 n))); 1 - x0 + (wave (y 3%nat) + vsum (map wave (map y r))) + cf45_h cf5_far (y 1%nat)]).
  { intros x Hl. cbn zeta. unfold cf5. rewrite (nth_error_nth' x 0) by lia. destruct (cf_take n x (cf5_tgt cos n (nth 0 x 0)) Hn He Hl) as (-> & _). destruct (cf_take n x (cf5_tgt sin n (nth 0 x 0)) Hn He Hl) as (_ & ->).
    rewrite Er. reflexivity. }
  apply front_curve; [| |apply cf4_phi_strict].
  - intros x (Hx & c & Ec & Hc). assert (Hl : length x = n) by apply Hx. pose proof (Hv x Hl) as E. cbn zeta in E.
    destruct (in_box_first _ _ _ _ _ _ x 0 Hx ltac:(lia) ltac:(lia)) as (_ & H0). do 3 eexists. split; [exact H0|]. split; [exact E|].
    unfold cf5_con in Ec. rewrite !(nth_error_nth' x 0) in Ec by lia. injection Ec as <-.
    split; [pose proof (vsum_map_nonneg wave (map (fun i => nth i x 0 - cf5_tgt cos n (nth 0 x 0) i) (cf_J1 n)) wave_nonneg); lra|].
    eapply Rle_trans; [apply (cf45_bound cf5_far (nth 0 x 0) (nth 1 x 0 - cf5_tgt sin n (nth 0 x 0) 1) H0)|].
    + intros b. unfold cf5_far. pose proof (sq_nonneg (b - 1)). lra.
    + unfold cf5_tgt. change (1 + 1)%nat with 2%nat. rewrite two_pi. lra.
    + pose proof (wave_nonneg (nth 3 x 0 - cf5_tgt sin n (nth 0 x 0) 3)). pose proof (vsum_map_nonneg wave (map (fun i => nth i x 0 - cf5_tgt sin n (nth 0 x 0) i) r) wave_nonneg). lra.
  - intros t Ht. destruct (cf45_dist_spec cf5_far t Ht) as (Hd & Hd2 & Hphi); [unfold cf5_far, sq; lra|].
    exists (point2 n (cf5_tgt cos n) (shifted (cf5_tgt sin n) cf45_dist (fun _ => 0)) t). set (x := point2 n (cf5_tgt cos n) (shifted (cf5_tgt sin n) cf45_dist (fun _ => 0)) t).
    assert (Hb : cf_box n x). { apply shift_box with (b := 0.8); auto; try lra; intros i; apply cf5_tgt_bound; auto using COS_bound, SIN_bound. }
    assert (Hl : length x = n) by apply Hb. split.
    + split; auto. eexists. split; [unfold cf5_con; rewrite !(nth_error_nth' x 0) by lia; reflexivity|]. unfold x. rewrite shift_1 by auto. rewrite shift_0. unfold cf5_tgt. change (1 + 1)%nat with 2%nat.
      rewrite two_pi. lra.
    + pose proof (Hv x Hl) as E. cbn zeta in E. rewrite E. f_equal. unfold x. rewrite shift_0, shift_1, shift_3 by auto.
      rewrite shift_J1 by auto using wave_zero. rewrite (shift_J2 n Hn He _ _ _ _ _ wave r wave_zero Er Hr).
      rewrite <- Hphi. f_equal; [lra|]. f_equal. replace (cf5_tgt sin n t 1 + cf45_dist t - cf5_tgt sin n t 1) with (cf45_dist t) by ring. replace (cf5_tgt sin n t 3 + 0 - cf5_tgt sin n t 3) with 0 by ring. rewrite wave_zero. lra.
Qed.

(** CF6 and CF7: the squares of the first two distances of the second group *)
Lemma sroot_sq a b : sroot b <= a -> Rmax 0 b <= sq a.
Proof.
  unfold sroot, sign. intros H. destruct (rltb 0 b) eqn:E; [|destruct (rltb b 0) eqn:E2].
  - apply rltb_true in E. rewrite Rmax_right by lra. rewrite Rmult_1_l, Rabs_pos_eq in H by lra. assert (sqrt b * sqrt b = b) by (apply sqrt_sqrt; lra). pose proof (sqrt_pos b). unfold sq. nra.
  - apply rltb_true in E2. rewrite Rmax_left by lra. apply sq_nonneg.
  - apply rltb_false in E. rewrite Rmax_left by lra. apply sq_nonneg.
Qed.
Definition pos_root (b : R) : R := sqrt (Rmax 0 b).
Lemma sroot_le b : sroot b <= pos_root b.
Proof.
  unfold sroot, sign, pos_root. destruct (rltb 0 b) eqn:E; [|destruct (rltb b 0) eqn:E2].
  - apply rltb_true in E. rewrite Rmax_right, Rabs_pos_eq by lra. lra.
  - pose proof (sqrt_pos (Rabs b)). pose proof (sqrt_pos (Rmax 0 b)). lra.
  - pose proof (sqrt_pos (Rmax 0 b)). lra.
Qed.
Lemma pos_root_sq b : sq (pos_root b) = Rmax 0 b.
Proof. unfold sq, pos_root. apply sqrt_sqrt. apply Rmax_l. Qed.
Definition cf6_A (x0 : R) : R := 0.5 * (1 - x0) - sq (1 - x0).
Definition cf6_B (x0 : R) : R := 0.25 * sqrt (1 - x0) - 0.5 * (1 - x0).
Lemma cf6_sum t : 0 <= t <= 1 -> sq (1 - t) + Rmax 0 (cf6_A t) + Rmax 0 (cf6_B t) = cf6_phi t /\ Rmax 0 (cf6_A t) <= 1 /\ Rmax 0 (cf6_B t) <= 1.
Proof.
  intros Ht. unfold cf6_phi. set (q := sqrt (1 - t)). assert (Hq : q * q = 1 - t) by (apply sqrt_sqrt; lra). assert (Hq0 : 0 <= q) by apply sqrt_pos. unfold cf6_A, cf6_B. fold q.
  assert (Hq1 : q <= 1) by nra. unfold sq.
  destruct (rltb 0.75 t) eqn:E1; [|destruct (rltb 0.5 t) eqn:E2];
    repeat match goal with E : rltb _ _ = true |- _ => apply (proj1 (rltb_true _ _)) in E | E : rltb _ _ = false |- _ => apply (proj1 (rltb_false _ _)) in E end.
  - assert (q < 0.5) by nra. rewrite (Rmax_right 0 (0.5 * (1 - t) - (1 - t) * (1 - t))) by nra. rewrite Rmax_right by nra. repeat split; nra.
  - assert (0.5 <= q) by nra. rewrite (Rmax_right 0 (0.5 * (1 - t) - (1 - t) * (1 - t))) by nra. rewrite Rmax_left by nra. repeat split; nra.
  - assert (0.5 <= q) by nra. rewrite (Rmax_left 0 (0.5 * (1 - t) - (1 - t) * (1 - t))) by nra. rewrite Rmax_left by nra. repeat split; nra.
Qed.
Lemma cf6_phi_strict s t : 0 <= s -> t <= 1 -> s < t -> cf6_phi t < cf6_phi s.
Proof.
  intros Hs Ht H. unfold cf6_phi.
  assert (Hp : forall a, a <= 1 -> 0 <= sqrt (1 - a) /\ sqrt (1 - a) * sqrt (1 - a) = 1 - a) by (intros a Ha; split; [apply sqrt_pos|apply sqrt_sqrt; lra]).
  destruct (Hp s ltac:(lra)) as (Ps0 & Ps). destruct (Hp t Ht) as (Pt0 & Pt). set (p := sqrt (1 - s)) in *. set (q := sqrt (1 - t)) in *. unfold sq.
  assert (q < p) by nra.
  assert (Hh : forall a b, 0.75 < a -> 0 <= b -> b * b = 1 - a -> b < 0.5) by (intros; nra).
  destruct (rltb 0.75 t) eqn:E1; [|destruct (rltb 0.5 t) eqn:E2]; (destruct (rltb 0.75 s) eqn:E3; [|destruct (rltb 0.5 s) eqn:E4]);
    repeat match goal with E : rltb _ _ = true |- _ => apply (proj1 (rltb_true _ _)) in E | E : rltb _ _ = false |- _ => apply (proj1 (rltb_false _ _)) in E end; try lra;
    try (assert (q < 0.5) by (apply (Hh t); auto)); try lra; nra.
Qed.
Lemma pos_root_bound b : Rmax 0 b <= 1 -> 0 <= pos_root b <= 1.
Proof. intros H. split; [apply sqrt_pos|]. unfold pos_root. rewrite <- sqrt_1. apply sqrt_le_1_alt. auto. Qed.
Lemma cf67_front n f con tgt1 tgt2 g b : (4 <= n)%nat -> Nat.even n = true -> (forall a, 0 <= g a) -> g 0 = 0 ->
  (forall t i, 0 <= t <= 1 -> - b <= tgt1 t i <= b) -> (forall t i, 0 <= t <= 1 -> - b <= tgt2 t i <= b) -> 0 <= b <= 1 ->
  (exists h, (forall a, 0 <= h a) /\ h 0 = 0 /\ (forall r, cf_J2 n = 1%nat :: 3%nat :: r -> (forall x, length x = n -> let x0 := nth 0 x 0 in let y := fun i => nth i x 0 - tgt2 x0 i in
     f x = Some [x0 + vsum (map h (map (fun i => nth i x 0 - tgt1 x0 i) (cf_J1 n))); sq (1 - x0) + (sq (y 1%nat) + sq (y 3%nat) + vsum (map g (map y r)))]))) ->
  (forall x, length x = n -> con x = Some [- nth 1 x 0 + tgt2 (nth 0 x 0) 1%nat + cf6_a (nth 0 x 0); - nth 3 x 0 + tgt2 (nth 0 x 0) 3%nat + cf6_b (nth 0 x 0)]) ->
  front (con_all (cf_box n) con) f (graph unit_interval cf6_phi).
Proof.
  intros Hn He Hg Hg0 T1 T2 Hb (h & Hh & Hh0 & Hv) Hcon. destruct (cf_J2_head n Hn) as (r & Er & Hr). specialize (Hv r Er).
  apply front_curve; [| |apply cf6_phi_strict].
  - intros x (Hx & c & Ec & Hc). assert (Hl : length x = n) by apply Hx. pose proof (Hv x Hl) as E. cbn zeta in E.
    destruct (in_box_first _ _ _ _ _ _ x 0 Hx ltac:(lia) ltac:(lia)) as (_ & H0). do 3 eexists. split; [exact H0|]. split; [exact E|].
    rewrite Hcon in Ec by auto. injection Ec as <-. inversion Hc as [|? ? C1 C2]; subst. inversion C2 as [|? ? C3 _]; subst. clear Hc C2.
    split; [pose proof (vsum_map_nonneg h (map (fun i => nth i x 0 - tgt1 (nth 0 x 0) i) (cf_J1 (length x))) Hh); lra|].
    destruct (cf6_sum (nth 0 x 0) H0) as (<- & _ & _).
    assert (S1 : Rmax 0 (cf6_A (nth 0 x 0)) <= sq (nth 1 x 0 - tgt2 (nth 0 x 0) 1%nat)) by (apply sroot_sq; unfold cf6_a in C1; unfold cf6_A; lra).
    assert (S2 : Rmax 0 (cf6_B (nth 0 x 0)) <= sq (nth 3 x 0 - tgt2 (nth 0 x 0) 3%nat)) by (apply sroot_sq; unfold cf6_b in C3; unfold cf6_B; lra).
    pose proof (vsum_map_nonneg g (map (fun i => nth i x 0 - tgt2 (nth 0 x 0) i) r) Hg). lra.
  - intros t Ht. destruct (cf6_sum t Ht) as (Hphi & B1 & B2). set (d1 := fun t => pos_root (cf6_A t)). set (d3 := fun t => pos_root (cf6_B t)).
    pose proof (pos_root_bound _ B1) as D1. pose proof (pos_root_bound _ B2) as D3.
    exists (point2 n tgt1 (shifted tgt2 d1 d3) t). set (x := point2 n tgt1 (shifted tgt2 d1 d3) t).
    assert (Hbox : cf_box n x). { apply shift_box with (b := b); auto; unfold d1, d3; lra. }
    assert (Hl : length x = n) by apply Hbox. split.
    + split; auto. eexists. split; [apply Hcon; auto|]. unfold x. rewrite shift_1, shift_3 by auto. rewrite shift_0. pose proof (sroot_le (cf6_A t)) as L1. pose proof (sroot_le (cf6_B t)) as L2. fold (d1 t) in L1. fold (d3 t) in L2.
      constructor; [unfold cf6_a; unfold cf6_A in L1 at 1; lra|]. constructor; [unfold cf6_b; unfold cf6_B in L2 at 1; lra|constructor].
    + pose proof (Hv x Hl) as E. cbn zeta in E. rewrite E. f_equal. unfold x. rewrite shift_0, shift_1, shift_3 by auto.
      rewrite shift_J1 by auto. rewrite (shift_J2 n Hn He _ _ _ _ _ g r Hg0 Er Hr). rewrite <- Hphi. f_equal; [lra|]. f_equal.
      replace (tgt2 t 1%nat + d1 t - tgt2 t 1%nat) with (d1 t) by ring. replace (tgt2 t 3%nat + d3 t - tgt2 t 3%nat) with (d3 t) by ring. unfold d1, d3. rewrite !pos_root_sq. lra.
Qed.
Lemma cf6_front_spec n : (4 <= n)%nat -> Nat.even n = true -> front (con_all (cf_box n) (cf6_con n)) (cf6 n) (graph unit_interval cf6_phi).
Proof.
  intros Hn He. apply (cf67_front n _ _ (cf5_tgt cos n) (cf5_tgt sin n) sq 0.8); auto using sq_nonneg, sq_zero; try lra.
  - intros t i Ht. apply cf5_tgt_bound; auto using COS_bound.
  - intros t i Ht. apply cf5_tgt_bound; auto using SIN_bound.
  - exists sq. split; [apply sq_nonneg|]. split; [apply sq_zero|]. intros r Er x Hl. cbn zeta. unfold cf6. rewrite (nth_error_nth' x 0) by lia.
    destruct (cf_take n x (cf5_tgt cos n (nth 0 x 0)) Hn He Hl) as (-> & _). destruct (cf_take n x (cf5_tgt sin n (nth 0 x 0)) Hn He Hl) as (_ & ->). rewrite Er.
    f_equal. f_equal. f_equal. unfold vsum. cbn [map fold_right]. ring.
  - intros x Hl. unfold cf6_con. rewrite !(nth_error_nth' x 0) by lia. unfold cf5_tgt. change (1 + 1)%nat with 2%nat. change (3 + 1)%nat with 4%nat. rewrite four_pi. reflexivity.
Qed.
Lemma cf7_front_spec n : (4 <= n)%nat -> Nat.even n = true -> front (con_all (cf_box n) (cf7_con n)) (cf7 n) (graph unit_interval cf6_phi).
Proof.
  intros Hn He. apply (cf67_front n _ _ (cosine n) (sine n) wave 1); auto using wave_nonneg, wave_zero; try lra.
  - intros t i Ht. apply cosine_bound.
  - intros t i Ht. apply sine_bound.
  - exists wave. split; [apply wave_nonneg|]. split; [apply wave_zero|]. intros r Er x Hl. cbn zeta. unfold cf7. rewrite (nth_error_nth' x 0) by lia.
    destruct (cf_take n x (cosine n (nth 0 x 0)) Hn He Hl) as (-> & _). destruct (cf_take n x (sine n (nth 0 x 0)) Hn He Hl) as (_ & ->). rewrite Er.
    f_equal. f_equal. f_equal. unfold vsum. cbn [map skipn firstn fold_right]. ring.
  - intros x Hl. unfold cf7_con. rewrite !(nth_error_nth' x 0) by lia. unfold sine. change (1 + 1)%nat with 2%nat. change (3 + 1)%nat with 4%nat. rewrite four_pi. reflexivity.
Qed.
