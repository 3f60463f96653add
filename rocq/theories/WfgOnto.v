From Coq Require Import List Arith Bool ZArith Lia Reals Lra Psatz.
From Verif Require Import ListAux ProbModel NewtonModel BenchModel BenchSpec BenchBase BenchTrig WfgSpec WfgModel WfgBase WfgShape WfgStage.
Import ListNotations.
Open Scope R_scope.

Section Onto.
  Variables (number n M k l : nat).
  Hypothesis Hnum : (1 <= number <= 9)%nat.
  Hypothesis HV : wfg_valid number n M k l.
  Lemma HM : (2 <= M)%nat. Proof. apply HV. Qed.
  Lemma Hk : (1 <= k)%nat. Proof. destruct HV as (_ & H & _). lia. Qed.
  Lemma Hg : (k mod (M - 1) = 0)%nat. Proof. pose proof HM as HM0. destruct HV as (_ & _ & H & _). apply Nat.mod_divide; auto. lia. Qed.
  Lemma Hn : n = (k + l)%nat. Proof. apply HV. Qed.
  Lemma Hl : (1 <= l)%nat. Proof. apply HV. Qed.
  Lemma Hl2 : number = 2%nat \/ number = 3%nat -> (2 <= l)%nat.
  Proof. intros H. destruct HV as (_ & _ & _ & _ & H1 & H2). destruct (H2 H) as (m & ->). lia. Qed.
  Lemma wfg_t_good y : good n y -> reduced M (wfg_t number n M k y).
  Proof.
    pose proof HM as HM. pose proof Hk as Hk. pose proof Hg as Hg. pose proof Hn as Hn. pose proof Hl as Hl. intros Hy.
    assert (HC : number = 1%nat \/ (number = 2%nat \/ number = 3%nat) \/ number = 4%nat \/ number = 5%nat \/ number = 6%nat \/ number = 7%nat \/ number = 8%nat \/ number = 9%nat) by lia.
    assert (SL : forall y, good n y -> exists z, from_k k (shift_linear 0.35) y = Some z /\ good n z) by (intros; apply (from_k_good n M k l); auto; apply shift_linear_unit).
    destruct HC as [E|[E|[E|[E|[E|[E|[E|E]]]]]]].
    - rewrite E. cbn [wfg_t]. destruct (SL y Hy) as (z & -> & Hz). destruct (from_k_good n M k l HM Hk Hg Hn Hl (bias_flat 0.8 0.75 0.85) z) as (w & -> & Hw); auto.
      { intros a Ha. destruct (bias_flat_unit a Ha) as (r & ? & ? & _). exists r; auto. }
      destruct (mapo_good (bias_poly 0.02) w n) as (v & -> & Hv); auto; [apply bias_poly_unit|]. apply t1_good with (l := l); auto.
    - assert (E' : wfg_t number n M k y = let? y := from_k k (shift_linear 0.35) y in let? y := wfg2_t2 n k y in wfg2_t3 n M k y) by (destruct E as [-> | ->]; reflexivity). rewrite E'.
      destruct (SL y Hy) as (z & -> & Hz). apply (w2_good n M k l); auto. apply Hl2; auto.
    - rewrite E. cbn [wfg_t]. destruct (mapo_good (shift_multi_modal 30 10 0.35) y n) as (v & -> & Hv); auto; [intros; apply shift_multi_unit; auto; lra|]. apply (t4_good n M k l); auto.
    - rewrite E. cbn [wfg_t]. destruct (mapo_good (shift_deceptive 0.35 0.001 0.05) y n) as (v & -> & Hv); auto; [intros a Ha; exists (dec_val a); split; [apply shift_deceptive_spec; auto|apply dec_val_unit; auto]|]. apply (t4_good n M k l); auto.
    - rewrite E. cbn [wfg_t]. destruct (SL y Hy) as (z & -> & Hz). apply (t6_good n M k l); auto.
    - rewrite E. cbn [wfg_t]. pose proof (loop_chain k [] y) as EL. cbn [app length] in EL. destruct Hy as (Y1 & Y2). rewrite EL by lia. destruct (chain_good k y) as (c & -> & Hc); auto; [lia|]. rewrite Y1 in Hc.
      destruct (SL c Hc) as (z & -> & Hz). apply (t4_good n M k l); auto.
    - rewrite E. cbn [wfg_t]. destruct Hy as (Y1 & Y2). rewrite <- (firstn_skipn k y). rewrite (t8_eq n M k l) by (auto; rewrite ?firstn_length, ?skipn_length; lia).
      destruct (grow_good (skipn k y) (firstn k y)) as (g & -> & G1 & G2); [apply nonnil; rewrite firstn_length; lia|apply forall_firstn; auto|apply forall_skipn; auto|].
      assert (Hc : good n (firstn k y ++ g)). { split; [rewrite app_length, G1, firstn_length, skipn_length; lia|]. apply Forall_app; split; auto. apply forall_firstn; auto. }
      destruct (SL _ Hc) as (z & -> & Hz). apply (t4_good n M k l); auto.
    - rewrite E. cbn [wfg_t]. rewrite (t9_eq n M k l) by auto. destruct Hy as (Y1 & Y2). destruct (chain_good (n - 1) y) as (c & -> & C1 & C2); auto; [lia|].
      rewrite <- (firstn_skipn k c). rewrite (t92_eq n M k l) by (auto; rewrite ?firstn_length, ?skipn_length; lia).
      destruct (mapo_good (shift_deceptive 0.35 0.001 0.05) (firstn k c) k) as (v & -> & V1 & V2); [intros a Ha; exists (dec_val a); split; [apply shift_deceptive_spec; auto|apply dec_val_unit; auto]|split; [rewrite firstn_length; lia|apply forall_firstn; auto]|].
      destruct (mapo_good (shift_multi_modal 30 95 0.35) (skipn k c) l) as (w & -> & W1 & W2); [intros; apply shift_multi_unit; auto; lra|split; [rewrite skipn_length; lia|apply forall_skipn; auto]|].
      apply (t6_good n M k l); auto. split; [rewrite app_length; lia|apply Forall_app; auto].
  Qed.
  Lemma good_app q r : good k q -> good l r -> good n (q ++ r).
  Proof. pose proof Hn as Hn0. intros (A & B) (C & D). split; [rewrite app_length; lia|apply Forall_app; auto]. Qed.
  Lemma good_repeat a m : unit a -> good m (repeat a m).
  Proof. split; [apply repeat_length|apply forall_repeat; auto]. Qed.
  (** distances of WFG8, WFG9 that become 0.35 *)
  Lemma grow_onto m : forall pre, pre <> [] -> Forall unit pre -> exists r, good m r /\ grow pre r = Some (repeat 0.35 m).
  Proof.
    induction m as [|m IH]; intros pre Hp Hu; [exists []; split; [split; auto|reflexivity]|]. destruct (uniform_unit pre Hp Hu) as (u & _ & Eu & Uu). pose proof (pd_exponent_pos u Uu).
    set (a := root 0.35 (pd_exponent u)). assert (Ha : unit a) by (apply root_unit; [apply unit_35|lra]). destruct (IH (pre ++ [a])) as (r & (R1 & R2) & E); [destruct pre; discriminate|apply Forall_app; auto|].
    exists (a :: r). split; [split; cbn; auto|]. cbn [grow repeat]. rewrite Eu. unfold a at 1. rewrite param_dependent_root by (auto; apply unit_35). rewrite E. reflexivity.
  Qed.
  Lemma wfg_t_onto p : length p = (M - 1)%nat -> Forall unit p -> exists y, good n y /\ wfg_t number n M k y = Some (p ++ [0]).
  Proof.
    pose proof HM as HM. pose proof Hk as Hk. pose proof Hg as Hg. pose proof Hn as Hn. pose proof Hl as Hl. intros Lp Up.
    assert (HC : number = 1%nat \/ (number = 2%nat \/ number = 3%nat) \/ number = 4%nat \/ number = 5%nat \/ number = 6%nat \/ number = 7%nat \/ number = 8%nat \/ number = 9%nat) by lia.
    assert (SL : forall q, length q = k -> from_k k (shift_linear 0.35) (q ++ repeat 0.35 l) = Some (q ++ repeat 0 l)) by (intros; apply (from_k_opt k l); auto; apply shift_linear_opt).
    pose proof unit_35 as U35. pose proof unit_0 as U0.
    destruct HC as [E|[E|[E|[E|[E|[E|[E|E]]]]]]].
    - rewrite E. cbn [wfg_t]. destruct (t1_onto n M k l HM Hk Hg Hn Hl p Lp Up) as (q & (Q1 & Q2) & Eq).
      exists (map (fun a => root a 0.02) q ++ repeat 0.35 l). assert (Lr : length (map (fun a => root a 0.02) q) = k) by (rewrite map_length; auto).
      split; [apply good_app; [split; auto|apply good_repeat; auto]|].
      + apply Forall_map. eapply Forall_impl; [|exact Q2]. intros; apply root_unit; auto; lra.
      + rewrite SL by auto. rewrite (from_k_opt k l _ _ 0 0) by (auto; apply bias_flat_opt). rewrite mapo_app, (mapo_repeat _ 0 0) by apply bias_poly_0.
        replace (mapo (bias_poly 0.02) (map (fun a => root a 0.02) q)) with (Some q); auto. clear - Q2. induction Q2 as [|a q Ha Hq IH]; cbn; auto. rewrite bias_poly_root, <- IH by auto. reflexivity.
    - assert (E' : forall y, wfg_t number n M k y = let? y := from_k k (shift_linear 0.35) y in let? y := wfg2_t2 n k y in wfg2_t3 n M k y) by (intros; destruct E as [-> | ->]; reflexivity).
      destruct (w2_onto n M k l HM Hk Hg Hn Hl p (Hl2 E) Lp Up) as (q & (Q1 & Q2) & Eq). exists (q ++ repeat 0.35 l). split; [apply good_app; [split; auto|apply good_repeat; auto]|]. rewrite E', SL by auto. exact Eq.
    - rewrite E. cbn [wfg_t]. destruct (t4_onto M k l HM Hk Hg Hl p Lp Up) as (q & (Q1 & Q2) & Eq). destruct (mapo_onto unit unit (shift_multi_modal 30 10 0.35)) with (l := q) as (q' & L' & U' & E'); auto; [intros; apply multi_onto; auto; lra|].
      exists (q' ++ repeat 0.35 l). split; [apply good_app; [split; auto; lia|apply good_repeat; auto]|]. rewrite mapo_app, E', (mapo_repeat _ 0.35 0) by (apply shift_multi_opt; lra). auto.
    - rewrite E. cbn [wfg_t]. destruct (t4_onto M k l HM Hk Hg Hl p Lp Up) as (q & (Q1 & Q2) & Eq). destruct (mapo_onto unit unit (shift_deceptive 0.35 0.001 0.05)) with (l := q) as (q' & L' & U' & E'); auto; [intros; apply deceptive_onto; auto|].
      exists (q' ++ repeat 0.35 l). split; [apply good_app; [split; auto; lia|apply good_repeat; auto]|]. rewrite mapo_app, E', (mapo_repeat _ 0.35 0) by apply deceptive_opt. auto.
    - rewrite E. cbn [wfg_t]. destruct (t6_onto n M k l HM Hk Hg Hn Hl p Lp Up) as (q & (Q1 & Q2) & Eq). exists (q ++ repeat 0.35 l). split; [apply good_app; [split; auto|apply good_repeat; auto]|]. rewrite SL by auto. exact Eq.
    - rewrite E. cbn [wfg_t]. destruct (t4_onto M k l HM Hk Hg Hl p Lp Up) as (q & (Q1 & Q2) & Eq). destruct (chain_onto q (repeat 0.35 l)) as (y & (Y1 & Y2) & Ec); auto; [apply nonnil; rewrite repeat_length; auto|apply forall_repeat; auto|]. rewrite Q1 in *.
      exists (y ++ repeat 0.35 l). split; [apply good_app; [split; auto|apply good_repeat; auto]|]. pose proof (loop_chain k [] (y ++ repeat 0.35 l)) as EL. cbn [app length] in EL. rewrite EL by (rewrite app_length; lia). rewrite Ec, SL by auto. exact Eq.
    - rewrite E. cbn [wfg_t]. destruct (t4_onto M k l HM Hk Hg Hl p Lp Up) as (q & (Q1 & Q2) & Eq). destruct (grow_onto l q) as (r & (R1 & R2) & Er); auto; [apply nonnil; lia|].
      exists (q ++ r). split; [apply good_app; split; auto|]. rewrite (t8_eq n M k l) by auto. rewrite Er, SL by auto. exact Eq.
    - rewrite E. cbn [wfg_t]. destruct (t6_onto n M k l HM Hk Hg Hn Hl p Lp Up) as (q & (Q1 & Q2) & Eq). destruct (mapo_onto unit unit (shift_deceptive 0.35 0.001 0.05)) with (l := q) as (q' & L' & U' & E'); auto; [intros; apply deceptive_onto; auto|].
      destruct (chain_onto (q' ++ repeat 0.35 (l - 1)) [0.35]) as (y & (Y1 & Y2) & Ec); [discriminate|apply Forall_app; split; auto; apply forall_repeat; auto|constructor; auto|].
      rewrite app_length, repeat_length in *. replace (length q' + (l - 1))%nat with (n - 1)%nat in * by lia.
      assert (Hy : good n (y ++ [0.35])). { split; [rewrite app_length; cbn; lia|]. apply Forall_app; split; auto. }
      exists (y ++ [0.35]). split; auto. rewrite (t9_eq n M k l) by auto. rewrite Ec, <- app_assoc. replace (repeat 0.35 (l - 1) ++ [0.35]) with (repeat 0.35 l). 2:{ replace l with (l - 1 + 1)%nat at 1 by lia. rewrite repeat_app. reflexivity. }
      rewrite (t92_eq n M k l) by (auto; rewrite ?repeat_length; lia). rewrite E', (mapo_repeat _ 0.35 0) by (apply shift_multi_opt; lra). exact Eq.
  Qed.
End Onto.
