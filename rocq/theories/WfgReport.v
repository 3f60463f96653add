From Coq Require Import List Arith Bool ZArith Lia Reals Lra Psatz.
From Verif Require Import ListAux Exn ProbModel NewtonModel BenchModel BenchSpec BenchBase BenchTrig WfgSpec WfgModel WfgBase WfgShape WfgStage WfgOnto WfgFront WfgMain.
Import ListNotations.
Open Scope R_scope.

(** ** the last number after a reduction *)
Section Zero.
  Variables (n M k l : nat).
  Hypothesis HM : (2 <= M)%nat.
  Hypothesis Hk : (1 <= k)%nat.
  Hypothesis Hg : (k mod (M - 1) = 0)%nat.
  Hypothesis Hn : n = (k + l)%nat.
  Hypothesis Hl : (1 <= l)%nat.
  Lemma snoc_inj (p q : list R) a b : p ++ [a] = q ++ [b] -> a = b.
  Proof. intros H. apply app_inj_tail in H. apply H. Qed.
  Definition reduced0 (t : option (list R)) : Prop := exists p, t = Some (p ++ [0]) /\ length p = (M - 1)%nat /\ Forall unit p.
  Lemma reduced_zero t : reduced M t -> (forall p d, t = Some (p ++ [d]) -> d = 0) -> reduced0 t.
  Proof. intros (p & d & E & Lp & Up & Ud) H. pose proof (H p d E); subst. exists p. auto. Qed.
  Lemma good_zero q : good k q -> good n (q ++ repeat 0 l).
  Proof. intros (A & B). split; [rewrite app_length, repeat_length; lia|apply Forall_app; split; auto; apply forall_repeat, unit_0]. Qed.
  Lemma t4_zero q : good k q -> reduced0 (wfg4_t2 M k (q ++ repeat 0 l)).
  Proof.
    intros Hq. apply reduced_zero; [apply (t4_good n M k l); auto; apply good_zero; auto|]. intros p d. unfold wfg4_t2. destruct (mapo _ _); [|discriminate]. rewrite skipn_exact by apply Hq. rewrite uniform_const by (auto; apply unit_0). intros E. injection E as E. symmetry. eapply snoc_inj; eauto.
  Qed.
  Lemma t6_zero q : good k q -> reduced0 (wfg6_t2 n M k (q ++ repeat 0 l)).
  Proof.
    intros Hq. apply reduced_zero; [apply (t6_good n M k l); auto; apply good_zero; auto|]. intros p d. unfold wfg6_t2. destruct (mapo _ _); [|discriminate]. rewrite skipn_exact by apply Hq. replace (n - k)%nat with l by lia. rewrite non_separable_zero by auto. intros E. injection E as E. symmetry. eapply snoc_inj; eauto.
  Qed.
  Lemma t1_zero q : good k q -> reduced0 (wfg1_t4 n M k (q ++ repeat 0 l)).
  Proof.
    intros Hq. apply reduced_zero; [apply (t1_good n M k l); auto; apply good_zero; auto|]. intros p d. unfold wfg1_t4. destruct (mapo _ _); [|discriminate]. rewrite (slice_end n M k l HM Hk Hg Hn Hl) by (try apply Hq; apply repeat_length).
    destruct (weights_pos n M k l) as (W1 & W2); auto. assert (Hsl : length (slice k n (weights n)) = l) by (rewrite slice_length; lia).
    pose proof (weighted_const 0 (slice k n (weights n))) as E0. rewrite Hsl in E0. rewrite E0; [|apply nonnil; lia|apply unit_0|apply slice_forall; auto]. intros E. injection E as E. symmetry. eapply snoc_inj; eauto.
  Qed.
  Lemma t2_const q c b : non_separable 2 [c; c] = Some b -> length q = k -> wfg2_t2 n k (q ++ repeat c l) = Some (q ++ repeat b (l / 2)).
  Proof.
    intros Eb Lq. unfold wfg2_t2. replace (n - k)%nat with l by lia. set (h := (l / 2)%nat). assert (Hh : (2 * h <= l)%nat) by (apply Nat.mul_div_le; lia).
    rewrite (mapo_ok _ (fun _ => b)).
    2:{ intros i Hi. apply in_seq in Hi. assert (E : slice (k + 2 * (i - k)) (k + 2 * (i - k) + 2) (q ++ repeat c l) = repeat c 2).
        { unfold slice. rewrite skipn_app, skipn_all2 by lia. cbn [app]. replace (k + 2 * (i - k) - length q)%nat with (2 * (i - k))%nat by lia.
          replace l with (2 * (i - k) + (2 + (l - 2 * (i - k) - 2)))%nat by lia. rewrite repeat_app, skipn_exact by apply repeat_length. replace (k + 2 * (i - k) + 2 - (k + 2 * (i - k)))%nat with 2%nat by lia. rewrite repeat_app. apply firstn_exact. reflexivity. }
        cbv zeta. rewrite E. exact Eb. }
    assert (Em : map (fun _ : nat => b) (seq k h) = repeat b h). { clear. generalize k. induction h; intros j; cbn; f_equal; auto. }
    rewrite Em, firstn_exact by auto. reflexivity.
  Qed.
  Lemma t3_const q b : (2 <= l)%nat -> unit b -> good k q -> exists p, wfg2_t3 n M k (q ++ repeat b (l / 2)) = Some (p ++ [b]) /\ mapo uniform_sum (groups M k (q ++ repeat b (l / 2))) = Some p /\ length p = (M - 1)%nat /\ Forall unit p.
  Proof.
    intros Hl2 Hb (Lq & Uq). unfold wfg2_t3. destruct (groups_unit M k HM Hk Hg uniform_sum (q ++ repeat b (l / 2))) as (p & -> & Lp & Up).
    - rewrite app_length; lia.
    - apply Forall_app. split; auto. apply forall_repeat; auto.
    - intros g G1 G2. destruct (uniform_unit g) as (m & _ & E & U); auto. { apply nonnil. pose proof (gap_pos M k HM Hk Hg). lia. } exists m. auto.
    - exists p. replace (n - k)%nat with l by lia. unfold slice. rewrite skipn_exact by auto. replace (k + l / 2 - k)%nat with (l / 2)%nat by lia. rewrite firstn_all2 by (rewrite repeat_length; lia).
      assert (1 <= l / 2)%nat by (apply Nat.div_le_lower_bound; lia). rewrite uniform_const by auto. auto.
  Qed.
  Lemma t23_zero q : (2 <= l)%nat -> good k q -> reduced0 (let? z := wfg2_t2 n k (q ++ repeat 0 l) in wfg2_t3 n M k z).
  Proof.
    intros Hl2 Hq. rewrite (t2_const q 0 0); [|apply (non_separable_zero 2); lia|apply Hq]. destruct (t3_const q 0 Hl2 unit_0 Hq) as (p & E & _ & Lp & Up). exists p. auto.
  Qed.
End Zero.

(** ** chains *)
Lemma chain_keep q : forall t m t', t <> [] -> Forall unit q -> Forall unit t -> chain m t = Some t' -> exists c, good (length q) c /\ chain (length q + m) (q ++ t) = Some (c ++ t').
Proof.
  induction q as [|a q IH]; intros t m t' Ht Hq Hu E; cbn [length app plus chain]; [exists []; split; [split; auto|auto]|]. inversion Hq as [|? ? Ha Hq']; subst. destruct (IH t m t' Ht Hq' Hu E) as (c & (C1 & C2) & Ec).
  destruct (uniform_unit (q ++ t)) as (u & _ & -> & Uu); [destruct q; [auto|discriminate]|apply Forall_app; auto|]. destruct (param_dependent_unit a u Ha Uu) as (b & -> & Ub). rewrite Ec. exists (b :: c). split; [split; cbn; auto|reflexivity].
Qed.
Lemma root_35 e : root 0.35 e = Rpower 0.35 (/ e).
Proof. unfold root. destruct (Rlt_dec 0 0.35); auto. lra. Qed.
Lemma suffix8 m : forall v, v <> [] -> Forall unit v -> exists r, good m r /\ wfg8_suffix m v = Some (v ++ r) /\ grow v r = Some (repeat 0.35 m).
Proof.
  induction m as [|m IH]; intros v Hv Hu; cbn [wfg8_suffix]; [exists []; rewrite app_nil_r; split; [split; auto|auto]|]. destruct (uniform_unit v Hv Hu) as (u & -> & Eu & Uu). pose proof (pd_exponent_pos u Uu) as He.
  assert (Ee : 0.02 + 49.98 * (0.98 / 49.98 - (1 - 2 * u) * Rabs (flr (/ 2 - u) + 0.98 / 49.98)) = pd_exponent u) by (unfold pd_exponent; replace (50 - 0.02) with 49.98 by lra; reflexivity).
  cbv zeta. rewrite Ee, div_some by lra. rewrite pow_some by lra. set (a := root 0.35 (pd_exponent u)). assert (Ea : Rpower 0.35 (1 / pd_exponent u) = a) by (unfold a; rewrite root_35; f_equal; unfold Rdiv; ring). rewrite Ea.
  assert (Ua : unit a) by (apply root_unit; [apply unit_35|lra]). destruct (IH (v ++ [a])) as (r & (R1 & R2) & E1 & E2); [destruct v; discriminate|apply Forall_app; auto|].
  exists (a :: r). split; [split; cbn; auto|]. split; [rewrite E1, <- app_assoc; reflexivity|]. cbn [grow repeat]. rewrite Eu. unfold a at 1. rewrite param_dependent_root by (auto; apply unit_35). rewrite E2. reflexivity.
Qed.
Lemma suffix9 m : exists s, wfg9_suffix (S m) = Some s /\ length s = S m /\ Forall (fun a => 0 <= a <= 0.35) s /\ chain m s = Some (repeat 0.35 (S m)).
Proof.
  induction m as [|m (r & E & Lr & Ur & Cr)]; [exists [0.35]; repeat split; auto; constructor; auto; lra|].
  assert (Ur' : Forall unit r) by (eapply Forall_impl; [|exact Ur]; intros a Ha; unfold unit; lra). assert (Hr : r <> []) by (apply nonnil; lia).
  change (wfg9_suffix (S (S m))) with (let? r := wfg9_suffix (S m) in let? d := mean r in let? e := div 1 (0.02 + 1.96 * d) in let? s := pow_pos 0.35 e in Some (s :: r)). rewrite E. destruct (uniform_unit r Hr Ur') as (u & Em & Eu & Uu).
  destruct (mean_le r 0.35 Hr) as (u' & Em' & Hle); [eapply Forall_impl; [|exact Ur]; cbn; intros; lra|]. rewrite Em in Em'. injection Em' as <-. rewrite Em. destruct Uu as (U0 & U1). pose proof (pd_exponent_low u ltac:(lra)) as Ee.
  rewrite div_some by lra. rewrite pow_some by lra. set (a := root 0.35 (pd_exponent u)). assert (Ea : Rpower 0.35 (1 / (0.02 + 1.96 * u)) = a) by (unfold a; rewrite root_35, Ee; f_equal; unfold Rdiv; ring). rewrite Ea.
  assert (Ha : 0 <= a <= 0.35).
  { split; [apply root_unit; [apply unit_35|lra]|]. unfold a. rewrite root_35, Ee. rewrite <- (Rpower_1 0.35) at 2 by lra. unfold Rpower. assert (Hln : ln 0.35 < 0) by (rewrite <- ln_1; apply ln_increasing; lra).
    assert (Hi : 1 <= / (0.02 + 1.96 * u)). { rewrite <- Rinv_1 at 1. apply Rinv_le_contravar; lra. }
    assert (Hm : / (0.02 + 1.96 * u) * ln 0.35 <= 1 * ln 0.35) by nra. destruct Hm as [Hm|Hm]; [left; apply exp_increasing; auto|rewrite Hm; lra]. }
  exists (a :: r). split; auto. split; [cbn; lia|]. split; [constructor; auto|]. cbn [chain]. rewrite Eu. unfold a. rewrite param_dependent_root by (try apply unit_35; split; auto). rewrite Cr. reflexivity.
Qed.

(** ** the reported set *)
Section Report.
  Variables (number n M k l : nat) (xu : list R).
  Hypothesis Hnum : (1 <= number <= 9)%nat.
  Hypothesis HV : wfg_valid number n M k l.
  Hypothesis Hxu : positive n xu.
  Lemma report_y p : good k p -> exists y, good n y /\ optimal_position number l xu p = Some (zip_with Rmult y xu) /\ reduced0 M (wfg_t number n M k y).
  Proof.
    pose proof (HM _ _ _ _ _ HV) as HM. pose proof (Hk _ _ _ _ _ Hnum HV) as Hk. pose proof (Hg _ _ _ _ _ Hnum HV) as Hg. pose proof (Hn _ _ _ _ _ HV) as Hn. pose proof (Hl _ _ _ _ _ HV) as Hl. intros (Lp & Up).
    assert (HC : number = 1%nat \/ (number = 2%nat \/ number = 3%nat) \/ number = 4%nat \/ number = 5%nat \/ number = 6%nat \/ number = 7%nat \/ number = 8%nat \/ number = 9%nat) by lia.
    pose proof unit_35 as U35. pose proof unit_0 as U0.
    assert (SL : forall q, length q = k -> from_k k (shift_linear 0.35) (q ++ repeat 0.35 l) = Some (q ++ repeat 0 l)) by (intros; apply (from_k_opt k l); auto; apply shift_linear_opt).
    assert (GA : forall q r, good k q -> good l r -> good n (q ++ r)) by (intros q r (A & B) (C & D); split; [rewrite app_length; lia|apply Forall_app; auto]).
    assert (G35 : good l (repeat 0.35 l)) by (split; [apply repeat_length|apply forall_repeat; auto]).
    assert (Hp : good k p) by (split; auto).
    assert (HD : forall a, unit a -> exists b, shift_deceptive 0.35 0.001 0.05 a = Some b /\ unit b) by (intros a Ha; exists (dec_val a); split; [apply shift_deceptive_spec; auto|apply dec_val_unit; auto]).
    destruct (Nat.le_gt_cases number 7) as [H7|H7].
    - exists (p ++ repeat 0.35 l). split; auto. split; [destruct number as [|[|[|[|[|[|[|[|]]]]]]]]; try lia; reflexivity|].
      destruct HC as [E|[E|[E|[E|[E|[E|[E|E]]]]]]]; try lia.
      + rewrite E. cbn [wfg_t]. rewrite SL by auto. rewrite (from_k_opt k l _ _ 0 0) by (auto; apply bias_flat_opt). rewrite mapo_app, (mapo_repeat _ 0 0) by apply bias_poly_0.
        destruct (mapo_good (bias_poly 0.02) p k bias_poly_unit Hp) as (q & -> & Hq). apply (t1_zero n M k l); auto.
      + assert (E' : forall y, wfg_t number n M k y = let? y := from_k k (shift_linear 0.35) y in let? y := wfg2_t2 n k y in wfg2_t3 n M k y) by (intros; destruct E as [-> | ->]; reflexivity).
        rewrite E', SL by auto. apply (t23_zero n M k l); auto. apply (Hl2 _ _ _ _ _ Hnum HV E).
      + rewrite E. cbn [wfg_t]. rewrite mapo_app, (mapo_repeat _ 0.35 0) by (apply shift_multi_opt; lra). destruct (mapo_good (shift_multi_modal 30 10 0.35) p k) as (q & -> & Hq); auto; [intros; apply shift_multi_unit; auto; lra|]. apply (t4_zero n M k l); auto.
      + rewrite E. cbn [wfg_t]. rewrite mapo_app, (mapo_repeat _ 0.35 0) by apply deceptive_opt. destruct (mapo_good (shift_deceptive 0.35 0.001 0.05) p k HD Hp) as (q & -> & Hq). apply (t4_zero n M k l); auto.
      + rewrite E. cbn [wfg_t]. rewrite SL by auto. apply (t6_zero n M k l); auto.
      + rewrite E. cbn [wfg_t]. pose proof (loop_chain k [] (p ++ repeat 0.35 l)) as EL. cbn [app length] in EL. rewrite EL by (rewrite app_length; lia).
        destruct (chain_keep p (repeat 0.35 l) 0 (repeat 0.35 l)) as (c & Hc & Ec); auto; [apply nonnil; rewrite repeat_length; auto|apply G35|]. rewrite Nat.add_0_r, Lp in *. rewrite Ec, SL by apply Hc. apply (t4_zero n M k l); auto.
    - destruct HC as [E|[E|[E|[E|[E|[E|[E|E]]]]]]]; try lia.
      + destruct (suffix8 l p) as (r & Hr & E1 & E2); auto; [apply nonnil; lia|]. exists (p ++ r). split; auto. rewrite E. unfold optimal_position. cbn [wfg_t]. rewrite E1. split; auto. rewrite (t8_eq n M k l) by (auto; apply Hr). rewrite E2, SL by auto. apply (t4_zero n M k l); auto.
      + destruct (suffix9 (l - 1)) as (s & Es & Ls & Us & Cs). replace (S (l - 1)) with l in * by lia. assert (Hs : good l s) by (split; auto; eapply Forall_impl; [|exact Us]; intros a Ha; unfold unit; lra).
        exists (p ++ s). split; auto. rewrite E. unfold optimal_position. cbn [wfg_t]. rewrite Es. split; auto. rewrite (t9_eq n M k l) by auto.
        destruct (chain_keep p s (l - 1) (repeat 0.35 l)) as (c & Hc & Ec); auto; [apply nonnil; lia|apply Hs|]. rewrite Lp in *. replace (k + (l - 1))%nat with (n - 1)%nat in Ec by lia. rewrite Ec. rewrite (t92_eq n M k l) by (auto; try apply Hc; apply G35).
        rewrite (mapo_repeat _ 0.35 0) by (apply shift_multi_opt; lra). destruct (mapo_good (shift_deceptive 0.35 0.001 0.05) c k HD Hc) as (q & -> & Hq). apply (t6_zero n M k l); auto.
  Qed.
  Definition row (p : list R) : Prop := good k p.
  Lemma report_one p : good k p -> exists x q, optimal_position number l xu p = Some x /\ below xu x /\ length q = (M - 1)%nat /\ Forall unit q /\
    wfg_t number n M k (zip_with Rdiv x xu) = Some (q ++ [0]) /\ wfg number n M k xu x = Some (scaled 1 (shape number (coords number q 0))).
  Proof.
    intros Hp. destruct (report_y p Hp) as (y & Hy & E & q & Eq & Lq & Uq). destruct (good_below n xu y Hxu Hy) as (Hb & Ey). exists (zip_with Rmult y xu), q. rewrite Ey. split; auto. split; auto. split; auto. split; auto. split; auto.
    rewrite (wfg_of_t number n M k l xu Hnum HV Hxu _ q 0); auto; [|apply unit_0|rewrite Ey; auto]. f_equal. rewrite <- (map_id (scaled _ _)) at 2. apply map_ext. intros; ring.
  Qed.
  Lemma extremes_good : Forall (good k) (extremes k) /\ length (extremes k) = (2 ^ k)%nat.
  Proof.
    unfold extremes. split; [|rewrite map_length, seq_length; auto]. apply Forall_map, Forall_forall. intros r _. split; [rewrite map_length, seq_length; auto|]. apply Forall_map, Forall_forall. intros c _. destruct (Nat.testbit r c); split; lra.
  Qed.
  Lemma pow50_good p : good k p -> good k (map (fun a => a ^ 50) p).
  Proof.
    intros (A & B). split; [rewrite map_length; auto|]. apply Forall_map. eapply Forall_impl; [|exact B]. intros a (A0 & A1). split; [apply pow_le; auto|]. rewrite <- (pow1 50). apply pow_incr. auto.
  Qed.
  Lemma report interior : Forall (good k) interior ->
    exists X fr, wfg_set number k l xu interior = Some X /\ wfg_front number n M k l xu interior = Some fr /\ length fr = (2 ^ k + length interior)%nat /\ Forall (below xu) X /\
      (forall u, In u fr -> exists q, length q = (M - 1)%nat /\ Forall unit q /\ u = scaled 1 (shape number (coords number q 0))).
  Proof.
    intros Hi. destruct extremes_good as (HE & LE). unfold wfg_front, wfg_set. set (int := if (number =? 1)%nat then map (map (fun a => a ^ 50)) interior else interior).
    assert (Hint : Forall (good k) int /\ length int = length interior). { unfold int. destruct (number =? 1)%nat; auto. split; [|apply map_length]. apply Forall_map. eapply Forall_impl; [|exact Hi]. intros; apply pow50_good; auto. }
    destruct Hint as (Hint & Lint). assert (HR : Forall (good k) (extremes k ++ int)) by (apply Forall_app; auto). rewrite <- Lint, <- LE, <- app_length. clear - HR Hnum HV Hxu. induction HR as [|p rows Hp HR (X & fr & E1 & E2 & Lf & B & U)].
    - exists [], []. cbn. repeat split; auto. intros u [].
    - destruct (report_one p Hp) as (x & q & O1 & O2 & O3 & O4 & _ & O5). cbn [mapo]. rewrite O1. rewrite E1 in *. exists (x :: X), (scaled 1 (shape number (coords number q 0)) :: fr). cbn [mapo]. rewrite O5, E2. split; auto. split; auto. split; [cbn; auto|]. split; auto.
      intros u [<-|Hu]; auto. exists q. auto.
  Qed.
  (** every reported vector of WFG1, WFG3 to WFG9 is optimal *)
  Lemma report_optimal interior : number <> 2%nat -> Forall (good k) interior -> exists fr, wfg_front number n M k l xu interior = Some fr /\ length fr = (2 ^ k + length interior)%nat /\ forall u, In u fr -> optimal (below xu) (wfg number n M k xu) u.
  Proof.
    pose proof (HM _ _ _ _ _ HV) as HM. intros H2 Hi. destruct (report interior Hi) as (X & fr & _ & E & L & _ & U). exists fr. split; auto. split; auto. intros u Hu. destruct (U u Hu) as (q & Lq & Uq & ->).
    destruct (Nat.eq_dec number 3) as [H3|H3].
    - apply wfg3_curve_optimal with (l := l); auto. destruct q as [|a q]; [cbn in Lq; lia|]. rewrite half_coords by auto. pose proof (Forall_inv Uq) as Ha. exists a. split; auto. replace (M - 2)%nat with (length q) by (cbn in Lq; lia). rewrite H3. reflexivity.
    - assert (Ec : coords number q 0 = q) by (unfold coords; destruct (Nat.eqb_spec number 3); auto; lia). rewrite Ec. destruct (Nat.eq_dec number 1) as [H1|H1].
      + apply (proj1 (wfg_convex_front number n M k l xu Hnum HV Hxu ltac:(lia))). destruct q as [|a q]; [cbn in Lq; lia|]. inversion Uq as [|? ? Ha Uq']; subst. rewrite shape_top by auto. unfold entry. cbn [Nat.eqb]. exists a, q. split; auto. split; [intros b (_ & Hb); apply wfg1_entry_mono; auto|]. split; [cbn in Lq; lia|]. auto.
      + apply (proj1 (wfg_concave_front number n M k l xu Hnum HV Hxu ltac:(lia))). assert (Es : shape number q = fan concave_up concave_dn q) by (unfold shape; destruct number as [|[|[|[|]]]]; auto; lia). rewrite Es.
        exists (fan concave_up concave_dn q). split; [rewrite fan_length; lia|]. split; [|split; auto; apply fan_sphere; auto]. eapply Forall_impl; [|apply (fan_unit concave_up concave_dn concave_up_unit concave_dn_unit q Uq)]. intros a (? & ?); auto.
  Qed.

  (** *** WFG2: a reported vector that is not optimal *)
  Lemma half_row h : (2 * h <= k)%nat -> In (repeat 1 h ++ repeat 0 (k - h)) (extremes k).
  Proof.
    intros Hh. unfold extremes. apply in_map_iff. exists (Nat.ones h). split.
    - replace k with (h + (k - h))%nat at 1 by lia. rewrite seq_app, map_app. f_equal.
      + rewrite (map_ext_in _ (fun _ => 1)). 2:{ intros c Hc. apply in_seq in Hc. rewrite Nat.ones_spec_low by lia. auto. } clear. generalize 0%nat. induction h; intros j; cbn; f_equal; auto.
      + rewrite (map_ext_in _ (fun _ => 0)). 2:{ intros c Hc. apply in_seq in Hc. rewrite Nat.ones_spec_high by lia. auto. } generalize (0 + h)%nat. generalize (k - h)%nat. clear. intros m. induction m; intros j; cbn; f_equal; auto.
    - apply in_seq. split; [lia|]. rewrite Nat.ones_equiv. assert (2 ^ h <= 2 ^ k)%nat by (apply Nat.pow_le_mono_r; lia). assert (0 < 2 ^ h)%nat by (apply Nat.neq_0_lt_0, Nat.pow_nonzero; lia). lia.
  Qed.
  Lemma mapo_in {A B} (f : A -> option B) rows X : mapo f rows = Some X -> forall p, In p rows -> exists x, f p = Some x /\ In x X.
  Proof.
    revert X. induction rows as [|r rows IH]; intros X E p Hp; [destruct Hp|]. cbn [mapo] in E. destruct (f r) as [b|] eqn:Eb; [|discriminate]. destruct (mapo f rows) as [s|] eqn:Es; [|discriminate]. injection E as <-. destruct Hp as [->|Hp]; [exists b; split; auto; left; auto|].
    destruct (IH s eq_refl p Hp) as (x & ? & ?). exists x. split; auto. right; auto.
  Qed.
  Lemma reported_dominated interior : number = 2%nat -> Nat.Even (k / (M - 1)) -> Forall (good k) interior ->
    exists fr u, wfg_front number n M k l xu interior = Some fr /\ In u fr /\ ~ undominated (below xu) (wfg number n M k xu) u.
  Proof.
    pose proof (HM _ _ _ _ _ HV) as HM. pose proof (Hk _ _ _ _ _ Hnum HV) as Hk. pose proof (Hg _ _ _ _ _ Hnum HV) as Hg. pose proof (Hn _ _ _ _ _ HV) as Hn. pose proof (Hl _ _ _ _ _ HV) as Hl. intros H2 (h & Hh) Hi.
    destruct (report interior Hi) as (X & fr & EX & Efr & _). pose proof (gap_eq M k HM Hk Hg) as Hge. pose proof (gap_pos M k HM Hk Hg) as Hgp. rewrite Hh in Hge, Hgp.
    set (p := repeat 1 h ++ repeat 0 (k - h)). assert (Hpin : In p (extremes k)) by (apply half_row; nia). assert (Hp : good k p) by (destruct extremes_good as (HE & _); rewrite Forall_forall in HE; auto).
    destruct (report_one p Hp) as (x & q & O1 & O2 & O3 & O4 & O5 & O6). exists fr, (scaled 1 (shape number (coords number q 0))). split; auto. split.
    - unfold wfg_set in EX. rewrite H2 in EX. cbn [Nat.eqb] in EX. rewrite <- H2 in EX. destruct (mapo_in _ _ _ EX p) as (x' & Ex' & Hx'); [apply in_app_iff; auto|]. rewrite O1 in Ex'. injection Ex' as <-. unfold wfg_front in Efr. unfold wfg_set in Efr. rewrite H2 in Efr. cbn [Nat.eqb] in Efr. rewrite <- H2, EX in Efr.
      destruct (mapo_in _ _ _ Efr x Hx') as (u & Eu & Hu). rewrite O6 in Eu. injection Eu as <-. auto.
    - assert (Ec : forall q, coords number q 0 = q) by (intros; unfold coords; rewrite H2; reflexivity). rewrite Ec.
      assert (Hq : exists q', q = / 2 :: q').
      { pose proof O1 as O1'. unfold optimal_position in O1'. rewrite H2 in O1'. injection O1' as <-. destruct (good_below n xu (p ++ repeat 0.35 l) Hxu) as (_ & Ey). { destruct Hp. split; [rewrite app_length, repeat_length; lia|apply Forall_app; split; auto; apply forall_repeat, unit_35]. }
        rewrite Ey in O5. rewrite H2 in O5. cbn [wfg_t] in O5. rewrite (from_k_opt k l _ _ 0.35 0) in O5 by (try apply Hp; apply shift_linear_opt). rewrite (t2_const n M k l HM Hk Hg Hn Hl p 0 0) in O5 by (try apply Hp; apply (non_separable_zero 2); lia).
        destruct (t3_const n M k l HM Hk Hg Hn Hl p 0) as (q0 & T1 & T2 & _); [apply (Hl2 _ _ _ _ _ Hnum HV); auto|apply unit_0|auto|]. rewrite T1 in O5. injection O5 as O5. apply app_inj_tail in O5. destruct O5 as (-> & _).
        unfold groups in T2. assert (ES : seq 1 (M - 1) = 1%nat :: seq 2 (M - 2)) by (replace (M - 1)%nat with (S (M - 2)) by lia; reflexivity). cbv zeta in T2. rewrite ES in T2. cbn [map mapo] in T2. replace ((1 - 1) * (k / (M - 1)))%nat with 0%nat in T2 by lia. rewrite Nat.mul_1_l, Hh in T2.
        assert (Esl : slice 0 (2 * h) (p ++ repeat 0 (l / 2)) = repeat 1 h ++ repeat 0 h). { unfold slice, p. cbn [skipn]. rewrite Nat.sub_0_r. replace (k - h)%nat with (h + (k - 2 * h))%nat by nia. rewrite repeat_app, !app_assoc, <- (app_assoc _ _ (repeat 0 (l / 2))). apply firstn_exact. rewrite app_length, !repeat_length. lia. }
        rewrite Esl in T2. assert (Em : uniform_sum (repeat 1 h ++ repeat 0 h) = Some (/ 2)).
        { unfold uniform_sum, mean. destruct h as [|h']; [lia|]. cbn [repeat app]. change (1 :: repeat 1 h' ++ 0 :: repeat 0 h') with (repeat 1 (S h') ++ repeat 0 (S h')). rewrite vsum_app, !vsum_repeat, app_length, !repeat_length, plus_INR. set (z := INR (S h')). assert (0 < z) by (apply lt_0_INR; lia). replace ((z * 1 + z * 0) / (z + z)) with (/ 2) by (field; lra). rewrite correct01_id; auto. split; lra. }
        rewrite Em in T2. destruct (mapo uniform_sum _) as [s|]; [|discriminate]. injection T2 as <-. exists s. auto. }
      destruct Hq as (q' & ->). pose proof (Forall_inv O4) as Hhalf. pose proof (Forall_inv_tail O4) as Uq'. intros Hund. destruct (wfg_attain number n M k l xu Hnum HV Hxu (0 :: q')) as (x0 & Hx0 & E0); [cbn in *; lia|constructor; auto; apply unit_0|]. rewrite Ec in E0.
      apply (Hund x0 _ Hx0 E0). rewrite !shape_top by auto. rewrite H2. cbn [Nat.eqb].
      assert (E1 : wfg2_entry (/ 2) = 1). { unfold wfg2_entry. replace (5 * PI * / 2) with (PI / 2 + 2 * INR 1 * PI) by (cbn; field). rewrite cos_period, cos_PI2. ring. }
      assert (E2 : wfg2_entry 0 = 1) by (unfold wfg2_entry; ring). rewrite E1, E2. split.
      + apply scaled_wdom; [lia|]. apply wdom_app; [|apply wdom_refl]. apply wdom_scale; [apply convex_up_le; auto; [apply unit_0|lra]|]. apply fan_unit; auto using convex_up_unit, convex_dn_unit.
      + intros Heq. apply scaled_inj in Heq; [|lia]. apply app_inj_tail in Heq. destruct Heq as (Heq & _). destruct (fan_pos convex_up convex_dn) with (x := q') as (b & Hb & Pb); auto using convex_up_unit, convex_dn_unit, convex_up_mono, convex_dn_mono, convex_up_0. { rewrite convex_dn_0. lra. }
        apply (in_map (Rmult (convex_up (/ 2)))) in Hb. rewrite <- Heq in Hb. apply in_map_iff in Hb. destruct Hb as (c & Hc & _). rewrite convex_up_0 in Hc. assert (0 < convex_up (/ 2)). { rewrite <- convex_up_0. apply convex_up_mono; auto; [apply unit_0|lra]. } assert (0 < convex_up (/ 2) * b) by (apply Rmult_lt_0_compat; auto). lra.
  Qed.

  (** *** WFG3: with three or more objectives the curve is not the whole front *)
  Lemma wfg3_not_covered : number = 3%nat -> (3 <= M)%nat -> exists x v, below xu x /\ wfg number n M k xu x = Some v /\ forall u, wfg3_curve M u -> ~ wdom u v.
  Proof.
    pose proof (HM _ _ _ _ _ HV) as HM. pose proof (Hk _ _ _ _ _ Hnum HV) as Hk. pose proof (Hg _ _ _ _ _ Hnum HV) as Hg. pose proof (Hn _ _ _ _ _ HV) as Hn. pose proof (Hl _ _ _ _ _ HV) as Hl. intros H3 HM3.
    assert (U1 : unit 1) by (split; lra). assert (U23 : unit (2 / 3)) by (split; lra).
    set (y := repeat 1 k ++ repeat 1 l). assert (Hy : good n y) by (split; [unfold y; rewrite app_length, !repeat_length; lia|apply Forall_app; split; apply forall_repeat; auto]).
    destruct (good_below n xu y Hxu Hy) as (Hb & Ey).
    assert (Et : wfg_t number n M k y = Some (repeat 1 (M - 1) ++ [2 / 3])).
    { rewrite H3. cbn [wfg_t]. unfold y. assert (Hk1 : good k (repeat 1 k)) by (split; [apply repeat_length|apply forall_repeat; auto]).
      assert (S1 : shift_linear 0.35 1 = Some 1). { rewrite shift_linear_spec by auto. destruct (Rle_dec 1 0.35); [lra|]. f_equal. lra. }
      rewrite (from_k_opt k l _ _ 1 1) by (try apply Hk1; auto).
      assert (N1 : non_separable 2 [1; 1] = Some (2 / 3)). { pose proof (non_separable_eq [1; 1] ltac:(discriminate)) as (_ & E). change (length [1; 1]) with 2%nat in E. change ((2 + 1) / 2)%nat with 1%nat in E. rewrite E. assert (Esp : spread [1; 1] = 2) by (unfold spread; cbn; unfold vsum; cbn; rewrite Rminus_diag_eq, Rabs_R0 by auto; ring). rewrite Esp. rewrite correct01_id; [f_equal; cbn; lra|cbn; split; lra]. }
      rewrite (t2_const n M k l HM Hk Hg Hn Hl _ 1 (2 / 3)) by (try apply Hk1; auto).
      destruct (t3_const n M k l HM Hk Hg Hn Hl (repeat 1 k) (2 / 3)) as (q & T1 & T2 & T3 & T4); auto; [apply (Hl2 _ _ _ _ _ Hnum HV); auto|]. rewrite T1. do 2 f_equal.
      assert (Eg : mapo uniform_sum (groups M k (repeat 1 k ++ repeat (2 / 3) (l / 2))) = Some (repeat 1 (M - 1))).
      { replace (repeat 1 k) with (concat (map (fun c => repeat c (k / (M - 1))) (repeat 1 (M - 1)))).
        - rewrite (groups_const M k) by (auto; apply repeat_length). pose proof (gap_pos M k HM Hk Hg) as Hgp. generalize (M - 1)%nat at 2 3. intros m. rewrite map_rep. apply mapo_repeat. apply uniform_const; auto.
        - pose proof (gap_eq M k HM Hk Hg) as Hge. transitivity (repeat 1 (k / (M - 1) * (M - 1))); [|rewrite <- Hge; auto]. generalize (k / (M - 1))%nat. intros g. generalize (M - 1)%nat. intros m. induction m as [|m IH]; cbn [repeat map concat]; [rewrite Nat.mul_0_r; auto|]. rewrite IH, <- repeat_app. f_equal. lia. }
      rewrite T2 in Eg. injection Eg as ->. auto. }
    assert (Up : Forall unit (repeat 1 (M - 1))) by (apply forall_repeat; auto).
    exists (zip_with Rmult y xu), (map (Rplus (2 / 3)) (scaled 1 (shape number (coords number (repeat 1 (M - 1)) (2 / 3))))). split; auto. split.
    { apply (wfg_of_t number n M k l xu Hnum HV Hxu); auto; [apply repeat_length|rewrite Ey; auto]. }
    intros u (a & (A0 & A1) & ->) Hw.
    assert (Ea : repeat (1 / 2) (M - 2) = 1 / 2 :: repeat (1 / 2) (M - 3)) by (replace (M - 2)%nat with (S (M - 3)) by lia; reflexivity).
    assert (Eb : coords number (repeat 1 (M - 1)) (2 / 3) = 1 :: 5 / 6 :: repeat (5 / 6) (M - 3)).
    { unfold coords. rewrite H3. cbn [Nat.eqb]. replace (M - 1)%nat with (S (S (M - 3))) by lia. cbn [repeat map]. rewrite map_rep. replace (2 / 3 * (1 - / 2) + / 2) with (5 / 6) by lra. reflexivity. }
    rewrite Ea, Eb, H3 in Hw. cbn [shape fan] in Hw. rewrite !map_app, <- !app_assoc in Hw. cbn [map app] in Hw.
    assert (SC : forall r b c m, scaled m (r ++ [b; c]) = (scaled m r ++ [2 * INR (m + length r) * b]) ++ [2 * INR (S (m + length r)) * c]).
    { induction r as [|e r IH]; intros b c m; cbn [scaled app length]; [rewrite !Nat.add_0_r; auto|]. rewrite IH. cbn [app]. replace (S m + length r)%nat with (m + S (length r))%nat by lia. auto. }
    rewrite !SC, !map_app in Hw. cbn [map] in Hw. rewrite !map_length, !fan_length, !repeat_length in Hw.
    apply wdom_last in Hw; [|rewrite !app_length, !map_length, !scaled_length, !map_length, !fan_length, !repeat_length; reflexivity]. destruct Hw as (Hw & H1).
    apply wdom_last in Hw; [|rewrite !map_length, !scaled_length, !map_length, !fan_length, !repeat_length; reflexivity]. destruct Hw as (_ & Hw2). unfold lin_up, lin_dn in *.
    replace (S (1 + S (M - 3)))%nat with M in H1 by lia. replace (1 + S (M - 3))%nat with (M - 1)%nat in Hw2 by lia. rewrite minus_INR in Hw2 by lia. assert (HI : 3 <= INR M) by (replace 3 with (INR 3) by (cbn; lra); apply le_INR; auto). change (INR 1) with 1 in Hw2. set (z := INR M) in *.
    assert (Q1 : z * (1 - a) <= / 3) by lra. assert (Q2 : (z - 1) * a <= 2 / 3 + (z - 1) / 3) by lra. nra.
  Qed.
End Report.

(** ** parameters *)
Lemma params_ok number n M k l : wfg_params number (Z.of_nat n) (Z.of_nat M) (Some (Z.of_nat k)) (Some (Z.of_nat l)) = Ok (Z.of_nat k, Z.of_nat l) <-> wfg_valid number n M k l.
Proof.
  unfold wfg_params, wfg_valid. destruct (Z.ltb_spec (Z.of_nat M) 2); [split; [discriminate|lia]|]. destruct (Z.ltb_spec (Z.of_nat k) 4); [split; [discriminate|lia]|].
  assert (E1 : (Z.of_nat k mod (Z.of_nat M - 1) = Z.of_nat (k mod (M - 1)))%Z) by (rewrite Nat2Z.inj_mod, Nat2Z.inj_sub by lia; reflexivity). rewrite E1.
  assert (E2 : (Z.of_nat l mod 2 = Z.of_nat (l mod 2))%Z) by (rewrite Nat2Z.inj_mod; reflexivity). rewrite E2.
  destruct (Z.eqb_spec (Z.of_nat (k mod (M - 1))) 0) as [D|D]; cbn [negb]. 2:{ split; [discriminate|]. intros (_ & _ & D' & _). apply (proj2 (Nat.mod_divide k (M - 1) ltac:(lia))) in D'. lia. }
  assert (D' : Nat.divide (M - 1) k) by (apply Nat.mod_divide; lia). assert (Hkm : (M - 1 <= k)%nat) by (apply Nat.divide_pos_le; auto; lia).
  destruct (Z.eqb_spec (Z.of_nat k + Z.of_nat l) (Z.of_nat n)) as [S|S]; cbn [negb orb]; [|split; [discriminate|lia]]. destruct (Z.ltb_spec (Z.of_nat l) 1) as [L|L]; cbn [orb]; [split; [discriminate|lia]|]. destruct (Z.ltb_spec (Z.of_nat k + Z.of_nat l) (Z.of_nat M)) as [W|W]; [lia|].
  assert (Ev : Nat.Even l <-> (Z.of_nat (l mod 2) = 0)%Z). { rewrite <- Nat.even_spec, <- Nat.negb_odd, <- Nat.bit0_odd, Nat.bit0_eqb. destruct (Nat.eqb_spec (l mod 2) 1) as [e|e]; cbn [negb]; [split; [discriminate|lia]|]. pose proof (Nat.mod_upper_bound l 2 ltac:(lia)). split; [lia|auto]. }
  destruct ((number =? 2)%nat || (number =? 3)%nat) eqn:En; cbn [andb].
  - destruct (Z.eqb_spec (Z.of_nat (l mod 2)) 0) as [P|P]; cbn [negb].
    + split; auto. intros _. repeat split; auto; try lia. intros _. apply Ev; auto.
    + split; [discriminate|]. intros (_ & _ & _ & _ & _ & He). exfalso. apply P, Ev, He. apply orb_true_iff in En. destruct En as [En|En]; apply Nat.eqb_eq in En; auto.
  - split; auto. intros _. apply orb_false_iff in En. destruct En as (E3 & E4). apply Nat.eqb_neq in E3, E4. repeat split; auto; try lia.
Qed.
Lemma params_default number M : (exists r, wfg_params number 24 M None None = Ok r) <-> (2 <= M <= 12)%Z.
Proof.
  unfold wfg_params. split.
  - intros (r & E). destruct (Z.eqb_spec M 2); [lia|]. destruct (Z.ltb_spec M 2); [discriminate|]. destruct (Z.ltb_spec (2 * (M - 1)) 4); [discriminate|]. destruct (negb _); [discriminate|]. destruct (Z.ltb_spec (24 - 2 * (M - 1)) 1); [|lia]. rewrite orb_true_r in E. discriminate.
  - intros H. assert (HC : (M = 2 \/ M = 3 \/ M = 4 \/ M = 5 \/ M = 6 \/ M = 7 \/ M = 8 \/ M = 9 \/ M = 10 \/ M = 11 \/ M = 12)%Z) by lia.
    repeat (destruct HC as [HC|HC]; [subst M; cbn; rewrite ?andb_false_r; eexists; reflexivity|]). subst M; cbn; rewrite ?andb_false_r; eexists; reflexivity.
Qed.
