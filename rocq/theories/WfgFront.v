From Coq Require Import List Arith Bool ZArith Lia Reals Lra Psatz.
From Verif Require Import ListAux ProbModel NewtonModel BenchModel BenchSpec BenchBase BenchMin BenchTrig WfgSpec WfgModel WfgBase WfgShape WfgStage WfgOnto.
Import ListNotations.
Open Scope R_scope.

(** ** scaling *)
Lemma scaled_length m u : length (scaled m u) = length u.
Proof. revert m. induction u; intros; cbn; auto. Qed.
Lemma scaled_zip u : forall m, zip_with Rmult (map (fun i => 2 * INR i) (seq m (length u))) u = scaled m u.
Proof. induction u as [|a u IH]; intros m; cbn [length seq map zip_with scaled]; auto. rewrite IH. reflexivity. Qed.
Lemma scaled_wdom u v m : (1 <= m)%nat -> wdom (scaled m u) (scaled m v) <-> wdom u v.
Proof.
  intros Hm. revert v m Hm. unfold wdom. induction u as [|a u IH]; intros [|b v] m Hm; cbn [scaled]; try (split; intros H; inversion H; subst; constructor; fail).
  assert (P : 0 < 2 * INR m) by (apply Rmult_lt_0_compat; [lra|]; apply lt_0_INR; lia).
  split; intros H; inversion H as [|? ? ? ? H1 H2]; subst; constructor.
  - eapply Rmult_le_reg_l; eauto.
  - apply IH in H2; auto.
  - apply Rmult_le_compat_l; lra.
  - apply IH; auto.
Qed.
Lemma scaled_inj u v m : (1 <= m)%nat -> scaled m u = scaled m v -> u = v.
Proof.
  intros Hm E. apply wdom_antisym; apply (scaled_wdom _ _ m Hm); rewrite E; apply wdom_refl.
Qed.
Lemma wdom_shift d u : 0 <= d -> wdom u (map (Rplus d) u).
Proof. intros Hd. unfold wdom. induction u; cbn; constructor; auto. lra. Qed.
Lemma wdom_app a b c d : wdom a b -> wdom c d -> wdom (a ++ c) (b ++ d).
Proof. unfold wdom. intros H1 H2. apply Forall2_app; auto. Qed.

(** ** variables and bounds *)
Definition positive (n : nat) (xu : list R) : Prop := length xu = n /\ Forall (fun b => 0 < b) xu.
Lemma below_good n xu x : positive n xu -> below xu x -> good n (zip_with Rdiv x xu) /\ existsb (fun b => reqb b 0) xu = false.
Proof.
  intros (Hl & Hp) H. unfold below in H. revert n Hl Hp. induction H as [|b a xu x Hab H IH]; intros n Hl Hp; [split; [split; cbn; auto|reflexivity]|]. inversion Hp as [|? ? Hb Hp']; subst.
  destruct (IH (length xu) eq_refl Hp') as ((L & U) & E). split.
  - split; [cbn; auto|]. cbn [zip_with]. constructor; auto. split; [apply Rmult_le_pos; [lra|]; left; apply Rinv_0_lt_compat; auto|].
    apply Rmult_le_reg_r with b; auto. unfold Rdiv. rewrite Rmult_assoc, Rinv_l by lra. lra.
  - cbn [existsb]. rewrite E, orb_false_r. apply reqb_false. lra.
Qed.
Lemma good_below n xu y : positive n xu -> good n y -> below xu (zip_with Rmult y xu) /\ zip_with Rdiv (zip_with Rmult y xu) xu = y.
Proof.
  intros (Hl & Hp) (Hy & Hu). revert n y Hl Hy Hu. induction Hp as [|b xu Hb Hp IH]; intros n y Hl Hy Hu; destruct y as [|a y]; cbn in Hl, Hy; try lia.
  - split; [constructor|reflexivity].
  - inversion Hu as [|? ? (A0 & A1) Hu']; subst. destruct (IH (length xu) y eq_refl) as (B & E); auto. cbn [zip_with]. split.
    + constructor; auto. split; nra.
    + rewrite E. f_equal. unfold Rdiv. rewrite Rmult_assoc, Rinv_r by lra. apply Rmult_1_r.
Qed.

(** ** shapes *)
Definition concave_up (a : R) : R := sin (/ 2 * a * PI).
Definition concave_dn (a : R) : R := cos (/ 2 * a * PI).
Lemma half_angle a : unit a -> 0 <= / 2 * a * PI <= PI / 2.
Proof. intros (H0 & H1). pose proof PI_RGT_0. split; nra. Qed.
Lemma concave_up_unit a : unit a -> unit (concave_up a).
Proof. intros H. apply half_angle in H. unfold concave_up. pose proof PI_RGT_0. split; [apply sin_ge_0; lra|apply SIN_bound]. Qed.
Lemma concave_dn_unit a : unit a -> unit (concave_dn a).
Proof. intros H. apply half_angle in H. unfold concave_dn. pose proof PI_RGT_0. split; [apply cos_ge_0; lra|apply COS_bound]. Qed.
Lemma concave_up_mono a b : unit a -> unit b -> a < b -> concave_up a < concave_up b.
Proof. intros Ha Hb H. apply half_angle in Ha, Hb. unfold concave_up. pose proof PI_RGT_0. apply sin_increasing_1; try lra. nra. Qed.
Lemma concave_dn_mono a b : unit a -> unit b -> a < b -> concave_dn b < concave_dn a.
Proof. intros Ha Hb H. apply half_angle in Ha, Hb. unfold concave_dn. pose proof PI_RGT_0. apply cos_decreasing_1; try lra. nra. Qed.
Lemma concave_up_0 : concave_up 0 = 0.
Proof. unfold concave_up. rewrite Rmult_0_r, Rmult_0_l. apply sin_0. Qed.
Lemma concave_dn_0 : concave_dn 0 = 1.
Proof. unfold concave_dn. rewrite Rmult_0_r, Rmult_0_l. apply cos_0. Qed.
Lemma convex_up_eq a : 1 - cos (/ 2 * a * PI) = convex_up a.
Proof. unfold convex_up. do 2 f_equal. field. Qed.
Lemma convex_dn_eq a : 1 - sin (/ 2 * a * PI) = convex_dn a.
Proof. unfold convex_dn. do 2 f_equal. field. Qed.
Lemma convex_up_unit a : unit a -> unit (convex_up a).
Proof. intros H. apply concave_dn_unit in H. unfold concave_dn in H. rewrite <- convex_up_eq. destruct H. split; lra. Qed.
Lemma convex_dn_unit a : unit a -> unit (convex_dn a).
Proof. intros H. apply concave_up_unit in H. unfold concave_up in H. rewrite <- convex_dn_eq. destruct H. split; lra. Qed.
Lemma convex_up_mono a b : unit a -> unit b -> a < b -> convex_up a < convex_up b.
Proof. intros Ha Hb H. pose proof (concave_dn_mono a b Ha Hb H) as E. unfold concave_dn in E. rewrite <- !convex_up_eq. lra. Qed.
Lemma convex_dn_mono a b : unit a -> unit b -> a < b -> convex_dn b < convex_dn a.
Proof. intros Ha Hb H. pose proof (concave_up_mono a b Ha Hb H) as E. unfold concave_up in E. rewrite <- !convex_dn_eq. lra. Qed.
Lemma convex_up_0 : convex_up 0 = 0.
Proof. unfold convex_up. replace (0 * PI / 2) with 0 by field. rewrite cos_0. lra. Qed.
Lemma convex_dn_0 : convex_dn 0 = 1.
Proof. unfold convex_dn. replace (0 * PI / 2) with 0 by field. rewrite sin_0. lra. Qed.
Lemma family_ext u u' d d' x m : (forall a, u a = u' a) -> (forall a, d a = d' a) -> family u d x m = family u' d' x m.
Proof.
  intros Hu Hd. unfold family. rewrite (map_ext u u') by auto. destruct (m =? 1)%nat; auto. destruct (m <=? length x)%nat.
  - destruct (nth_error x (length x - m + 1)); auto. rewrite (map_ext u u') by auto. rewrite Hd. auto.
  - destruct (nth_error x 0); auto. rewrite Hd. auto.
Qed.
Lemma mapo_ext {A B} (f g : A -> option B) l : (forall a, f a = g a) -> mapo f l = mapo g l.
Proof. intros H. induction l; cbn; auto. rewrite H, IHl. auto. Qed.

(** ** last entries of WFG1 and WFG2 *)
Lemma sin_contract a b : a < b -> sin b - sin a < b - a.
Proof.
  intros H. rewrite form4. set (h := (b - a) / 2). assert (Hh : 0 < h) by (unfold h; lra). pose proof (COS_bound ((b + a) / 2)) as (C0 & C1).
  replace (b - a) with (2 * h) by (unfold h; field). pose proof (sin_lt_x h Hh) as S1. destruct (Rle_dec 0 (sin h)) as [S0|S0].
  - nra.
  - destruct (Rle_dec h PI) as [Hpi|Hpi]; [pose proof (sin_ge_0 h ltac:(lra) Hpi); lra|]. pose proof (SIN_bound h) as (S2 & _). pose proof PI_gt_2. nra.
Qed.
Lemma wfg1_entry_sin a : wfg1_entry a = 1 - a + sin (10 * PI * a) / (10 * PI).
Proof. unfold wfg1_entry. rewrite cos_plus, cos_PI2, sin_PI2. unfold Rdiv. ring. Qed.
Lemma wfg1_entry_mono a b : a < b -> wfg1_entry b < wfg1_entry a.
Proof.
  intros H. rewrite !wfg1_entry_sin. pose proof PI_RGT_0 as HP. pose proof (sin_contract (10 * PI * a) (10 * PI * b) ltac:(nra)) as E.
  assert (Q : 0 < 10 * PI) by lra. apply (Rmult_lt_compat_r (/ (10 * PI))) in E; [|apply Rinv_0_lt_compat; auto].
  replace ((10 * PI * b - 10 * PI * a) * / (10 * PI)) with (b - a) in E by (field; lra). unfold Rdiv. lra.
Qed.
Lemma sin_10PI : sin (10 * PI * 1) = 0.
Proof. replace (10 * PI * 1) with (0 + 2 * INR 5 * PI) by (cbn; ring). rewrite sin_period. apply sin_0. Qed.
Lemma wfg1_entry_unit a : unit a -> unit (wfg1_entry a).
Proof.
  intros (H0 & H1). assert (E0 : wfg1_entry 0 = 1) by (rewrite wfg1_entry_sin, Rmult_0_r, sin_0; unfold Rdiv; ring).
  assert (E1 : wfg1_entry 1 = 0) by (rewrite wfg1_entry_sin, sin_10PI; unfold Rdiv; ring).
  split.
  - destruct H1 as [H1| ->]; [|lra]. rewrite <- E1. left. apply wfg1_entry_mono; auto.
  - destruct H0 as [H0| <-]; [|lra]. rewrite <- E0. left. apply wfg1_entry_mono; auto.
Qed.
Lemma mixed_eq a : unit a -> mixed a = wfg1_entry a.
Proof. intros H. unfold mixed. assert (E : 1 - a - cos (2 * 5 * PI * a + / 2 * PI) / (2 * 5 * PI) = wfg1_entry a). { unfold wfg1_entry. replace (2 * 5) with 10 by ring. replace (/ 2 * PI) with (PI / 2) by field. reflexivity. } rewrite E. apply correct01_id, wfg1_entry_unit; auto. Qed.
Lemma wfg2_entry_unit a : unit a -> unit (wfg2_entry a).
Proof. intros (H0 & H1). unfold wfg2_entry. pose proof (COS_bound (5 * PI * a)) as (C0 & C1). set (c := cos (5 * PI * a)) in *. assert (0 <= c * c <= 1) by nra. split; nra. Qed.
Lemma disconnected_eq a : unit a -> disconnected a = wfg2_entry a.
Proof. intros H. unfold disconnected. assert (E : 1 - a * cos (5 * PI * a) ^ 2 = wfg2_entry a) by (unfold wfg2_entry; ring). rewrite E. apply correct01_id, wfg2_entry_unit; auto. Qed.

Lemma wfg2_entry_cont c : continuity_pt wfg2_entry c.
Proof.
  unfold wfg2_entry. assert (H1 : continuity_pt (fun a => a) c) by (apply derivable_continuous_pt, derivable_pt_id).
  assert (K : forall r, continuity_pt (fun _ => r) c) by (intros; apply continuity_pt_const; intros ? ?; reflexivity).
  assert (H2 : continuity_pt (fun a => cos (5 * PI * a)) c).
  { apply (continuity_pt_comp (fun a => 5 * PI * a) cos); [exact (continuity_pt_mult (fun _ => 5 * PI) (fun a => a) c (K _) H1)|apply continuity_cos]. }
  exact (continuity_pt_minus (fun _ => 1) (fun a => a * (cos (5 * PI * a) * cos (5 * PI * a))) c (K 1) (continuity_pt_mult (fun a => a) _ c H1 (continuity_pt_mult _ _ c H2 H2))).
Qed.

(** ** surfaces with another last entry *)
Section Top.
  Variable d0 : R -> R.
  Lemma top_antichain a a' x x' : length x = length x' -> unit a -> unit a' -> Forall unit x -> Forall unit x' -> (a < a' -> d0 a' < d0 a) ->
    wdom (map (Rmult (convex_up a)) (fan convex_up convex_dn x) ++ [d0 a]) (map (Rmult (convex_up a')) (fan convex_up convex_dn x') ++ [d0 a']) ->
    map (Rmult (convex_up a)) (fan convex_up convex_dn x) ++ [d0 a] = map (Rmult (convex_up a')) (fan convex_up convex_dn x') ++ [d0 a'].
  Proof.
    intros Hl Ha Ha' Hx Hx' Hd H. apply wdom_last in H; [|rewrite !map_length, !fan_length; lia]. destruct H as (H & Hle).
    assert (Haa : a' <= a) by (destruct (Rle_dec a' a); auto; specialize (Hd ltac:(lra)); lra).
    pose proof (convex_up_unit a Ha) as (U0 & U1). pose proof (convex_up_unit a' Ha') as (V0 & V1).
    assert (Huu : convex_up a' <= convex_up a) by (destruct (Req_dec a' a) as [->|]; [lra|]; left; apply convex_up_mono; auto; lra).
    destruct (Req_dec (convex_up a') 0) as [Hz|Hz].
    - destruct (Req_dec (convex_up a) 0) as [Hz'|Hz'].
      + assert (a' = 0) by (eapply up_zero; eauto using convex_up_mono, convex_up_0). assert (a = 0) by (eapply up_zero; eauto using convex_up_mono, convex_up_0). subst. f_equal.
        rewrite Hz. assert (Z : forall l, map (Rmult 0) l = repeat 0 (length l)) by (induction l; cbn; auto; rewrite IHl, Rmult_0_l; auto). rewrite !Z, !fan_length, Hl. auto.
      + exfalso. destruct (fan_pos convex_up convex_dn) with (x := x) as (b & Hb & Pb); auto using convex_up_unit, convex_dn_unit, convex_up_mono, convex_dn_mono, convex_up_0. { rewrite convex_dn_0. lra. }
        apply (in_map (Rmult (convex_up a))) in Hb. destruct (wdom_in _ _ H _ Hb) as (b' & Hb' & Hle'). apply in_map_iff in Hb'. destruct Hb' as (q & <- & _). rewrite Hz in Hle'. assert (0 < convex_up a * b) by (apply Rmult_lt_0_compat; lra). lra.
    - destruct (fan_antichain convex_up convex_dn) with (x := x) (x' := x') (c := convex_up a) (c' := convex_up a') as (E1 & E2); auto using convex_up_unit, convex_dn_unit, convex_up_mono, convex_dn_mono, convex_up_0. { rewrite convex_dn_0. lra. } { lra. }
      assert (a = a'). { destruct (Req_dec a a'); auto. exfalso. pose proof (convex_up_mono a' a Ha' Ha ltac:(lra)). lra. }
      subst. rewrite E2. auto.
  Qed.
End Top.

(** ** the sphere *)
Lemma sum_squares_app a b : sum_squares (a ++ b) = sum_squares a + sum_squares b.
Proof. induction a; cbn; [ring|]. rewrite IHa. ring. Qed.
Lemma sum_squares_map r a : sum_squares (map (Rmult r) a) = r * r * sum_squares a.
Proof. induction a; cbn; [ring|]. rewrite IHa. ring. Qed.
Lemma sum_squares_nonneg a : 0 <= sum_squares a.
Proof. induction a; cbn; [lra|]. pose proof (Rle_0_sqr a). unfold Rsqr in *. lra. Qed.
Lemma sum_squares_zero a : sum_squares a = 0 -> a = repeat 0 (length a).
Proof. induction a as [|b a IH]; cbn; auto. intros H. pose proof (sum_squares_nonneg a). assert (b = 0) by nra. subst. f_equal. apply IH. lra. Qed.
Lemma fan_sphere x : Forall unit x -> sum_squares (fan concave_up concave_dn x) = 1.
Proof.
  induction 1 as [|a x Ha Hx IH]; cbn [fan]; [cbn; ring|]. rewrite sum_squares_app, sum_squares_map, IH. cbn. unfold concave_up, concave_dn. pose proof (sin2_cos2 (/ 2 * a * PI)) as H. unfold Rsqr in H. lra.
Qed.
Lemma sphere_onto m : forall v r, length v = S m -> Forall (Rle 0) v -> 0 <= r -> sum_squares v = r * r ->
  exists x, length x = m /\ Forall unit x /\ v = map (Rmult r) (fan concave_up concave_dn x).
Proof.
  induction m as [|m IH]; intros v r Hl Hv Hr E.
  - destruct v as [|c [|]]; try discriminate. exists []. split; auto. split; auto. cbn. cbn in E. inversion Hv; subst. assert (c = r) by nra. subst. f_equal. ring.
  - destruct (exists_last (l := v)) as (w & c & ->); [destruct v; discriminate|]. rewrite app_length in Hl. cbn in Hl. apply Forall_app in Hv. destruct Hv as (Hw & Hc). inversion Hc as [|? ? Hc0 _]; subst.
    rewrite sum_squares_app in E. cbn in E. pose proof (sum_squares_nonneg w) as Hs. destruct (Req_dec r 0) as [->|Hr0].
    + assert (c = 0) by nra. subst. assert (Ew : sum_squares w = 0) by nra. apply sum_squares_zero in Ew. exists (repeat 0 (S m)). split; [apply repeat_length|]. split; [apply forall_repeat, unit_0|].
      assert (Z : forall l, map (Rmult 0) l = repeat 0 (length l)) by (induction l; cbn; auto; rewrite IHl, Rmult_0_l; auto). rewrite Z, fan_length, repeat_length, Ew.
      replace (length w) with (S m) by lia. rewrite <- repeat_cons. reflexivity.
    + assert (Hq : 0 <= c / r <= 1). { split; [apply Rmult_le_pos; auto; left; apply Rinv_0_lt_compat; lra|]. apply Rmult_le_reg_r with r; [lra|]. unfold Rdiv. rewrite Rmult_assoc, Rinv_l by lra. nra. }
      set (th := acos (c / r)). assert (Cth : cos th = c / r) by (apply cos_acos; lra). pose proof (acos_bound (c / r)) as (T0 & T1). fold th in T0, T1. pose proof PI_RGT_0 as HP.
      assert (T2 : th <= PI / 2). { destruct (Rle_dec th (PI / 2)); auto. exfalso. pose proof (cos_lt_0 th ltac:(lra) ltac:(lra)). lra. }
      set (a := 2 * th / PI). assert (Ea : / 2 * a * PI = th) by (unfold a; field; lra). assert (Ha : unit a). { unfold a. split; [apply Rmult_le_pos; [lra|]; left; apply Rinv_0_lt_compat; auto|]. apply Rmult_le_reg_r with PI; auto. unfold Rdiv. rewrite Rmult_assoc, Rinv_l by lra. lra. }
      assert (S0 : 0 <= sin th) by (apply sin_ge_0; lra). destruct (IH w (r * sin th)) as (x & X1 & X2 & X3); auto; [lia|nra| |].
      { pose proof (sin2_cos2 th) as H2. unfold Rsqr in H2. rewrite Cth in H2. assert (r * r * (sin th * sin th) = r * r - c * c). { replace (sin th * sin th) with (1 - c / r * (c / r)) by lra. field; auto. } lra. }
      exists (a :: x). split; [cbn; auto|]. split; [constructor; auto|]. cbn [fan]. unfold concave_up at 1, concave_dn at 2. rewrite Ea, map_app, map_mult, <- X3, Cth. cbn. do 2 f_equal. field; auto.
Qed.
