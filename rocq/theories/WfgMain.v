From Coq Require Import List Arith Bool ZArith Lia Reals Lra Psatz.
From Verif Require Import ListAux ProbModel NewtonModel BenchModel BenchSpec BenchBase BenchMin BenchTrig WfgSpec WfgModel WfgBase WfgShape WfgStage WfgOnto WfgFront.
Import ListNotations.
Open Scope R_scope.

Definition lin_up (a : R) : R := a.
Definition lin_dn (a : R) : R := 1 - a.
(** the shape vector of a problem over the position coordinates *)
Definition shape (number : nat) (p : list R) : list R :=
  match number with
  | 1%nat => removelast (fan convex_up convex_dn p) ++ [wfg1_entry (hd 0 p)]
  | 2%nat => removelast (fan convex_up convex_dn p) ++ [wfg2_entry (hd 0 p)]
  | 3%nat => fan lin_up lin_dn p
  | _ => fan concave_up concave_dn p
  end.
Lemma removelast_snoc {A} (l : list A) a : removelast (l ++ [a]) = l.
Proof. apply removelast_last. Qed.
Lemma mapo_prefix {A B} (f : A -> option B) l m r : mapo f (l ++ [m]) = Some r -> mapo f l = Some (removelast r).
Proof. rewrite mapo_app. destruct (mapo f l) as [s|]; [|discriminate]. cbn [mapo]. destruct (f m); [|discriminate]. intros E. injection E as <-. rewrite removelast_last. auto. Qed.
Lemma lin_up_unit a : unit a -> unit (lin_up a).
Proof. auto. Qed.
Lemma lin_dn_unit a : unit a -> unit (lin_dn a).
Proof. unfold lin_dn, unit. lra. Qed.
Lemma convex_shapes p M : (2 <= M)%nat -> length p = (M - 1)%nat -> Forall unit p -> mapo (convex p) (seq 1 M) = Some (fan convex_up convex_dn p).
Proof.
  intros HM Hl Hp. replace M with (S (length p)) by lia. rewrite <- (family_fan convex_up convex_dn convex_up_unit convex_dn_unit p Hp). apply mapo_ext. intros m. apply family_ext; intros; [apply convex_up_eq|apply convex_dn_eq].
Qed.
Lemma shapes_eq number M p : (2 <= M)%nat -> (1 <= number <= 9)%nat -> length p = (M - 1)%nat -> Forall unit p -> wfg_shapes number M p = Some (shape number p).
Proof.
  intros HM Hnum Hl Hp. pose proof (convex_shapes p M HM Hl Hp) as EC. assert (EK : mapo (concave p) (seq 1 M) = Some (fan concave_up concave_dn p)).
  { replace M with (S (length p)) by lia. exact (family_fan concave_up concave_dn concave_up_unit concave_dn_unit p Hp). }
  assert (EL : mapo (linear p) (seq 1 M) = Some (fan lin_up lin_dn p)).
  { replace M with (S (length p)) by lia. exact (family_fan lin_up lin_dn lin_up_unit lin_dn_unit p Hp). }
  destruct p as [|a q]; [cbn in Hl; lia|]. inversion Hp; subst.
  destruct number as [|[|[|[|number]]]]; [lia| | | |]; cbn [wfg_shapes shape hd].
  - rewrite (mapo_prefix (convex (a :: q)) (seq 1 (M - 1)) M (fan convex_up convex_dn (a :: q))). 2:{ rewrite <- EC. f_equal. pose proof (seq_S (M - 1) 1) as ES. replace (S (M - 1)) with M in ES by lia. replace (1 + (M - 1))%nat with M in ES by lia. auto. }
    cbn [nth_error]. rewrite mixed_eq by auto. reflexivity.
  - rewrite EC. cbn [nth_error]. rewrite disconnected_eq by auto. reflexivity.
  - exact EL.
  - exact EK.
Qed.
Lemma shape_top number a q : (number = 1 \/ number = 2)%nat ->
  shape number (a :: q) = map (Rmult (convex_up a)) (fan convex_up convex_dn q) ++ [(if (number =? 1)%nat then wfg1_entry else wfg2_entry) a].
Proof. intros [-> | ->]; cbn [shape fan hd Nat.eqb]; rewrite removelast_last; reflexivity. Qed.
Lemma shape_length number p : p <> [] -> length (shape number p) = S (length p).
Proof.
  intros Hp. destruct p as [|a q]; [contradiction|]. destruct (Nat.eq_dec number 1) as [->|]; [rewrite shape_top, app_length, map_length, fan_length by auto; cbn; lia|]. destruct (Nat.eq_dec number 2) as [->|]; [rewrite shape_top, app_length, map_length, fan_length by auto; cbn; lia|].
  destruct number as [|[|[|[|]]]]; try lia; cbn [shape]; apply fan_length.
Qed.

Section Value.
  Variables (number n M k l : nat) (xu : list R).
  Hypothesis Hnum : (1 <= number <= 9)%nat.
  Hypothesis HV : wfg_valid number n M k l.
  Hypothesis Hxu : positive n xu.
  (** the coordinates after [_post] *)
  Definition coords (p : list R) (d : R) : list R :=
    if (number =? 3)%nat then match p with [] => [] | a :: q => a :: map (fun b => d * (b - / 2) + / 2) q end else p.
  Lemma coords_unit p d : Forall unit p -> unit d -> Forall unit (coords p d) /\ length (coords p d) = length p.
  Proof.
    intros Hp (D0 & D1). unfold coords. destruct (number =? 3)%nat; auto. destruct Hp as [|a q Ha Hq]; auto. split; [|cbn; rewrite map_length; auto]. constructor; auto.
    apply Forall_map. eapply Forall_impl; [|exact Hq]. intros b (B0 & B1). split; nra.
  Qed.
  Lemma zip_repeat (f : R -> R -> R) q c m : length q = m -> zip_with f q (repeat c m) = map (fun b => f b c) q.
  Proof. intros <-. induction q; cbn; auto. rewrite IHq. auto. Qed.
  Lemma post_eq p d : length p = (M - 1)%nat -> unit d -> number <> 9%nat -> post (p ++ [d]) (degeneracy number M) = coords p d ++ [d].
  Proof.
    pose proof (HM number n M k l HV) as HM. intros Hl (D0 & D1) H9. unfold post. rewrite last_last, removelast_last. f_equal. unfold degeneracy, coords. destruct (Nat.eqb_spec number 3).
    - destruct p as [|a q]; [cbn in Hl; lia|]. cbn [zip_with]. rewrite Rmax_right by lra. f_equal; [lra|]. rewrite zip_repeat by (cbn in Hl; lia). apply map_ext. intros b. rewrite Rmax_left by lra. reflexivity.
    - rewrite zip_repeat by lia. rewrite <- (map_id p) at 2. apply map_ext. intros b. rewrite Rmax_right by lra. lra.
  Qed.
  Lemma wfg_of_t x p d : below xu x -> length p = (M - 1)%nat -> Forall unit p -> unit d -> wfg_t number n M k (zip_with Rdiv x xu) = Some (p ++ [d]) ->
    wfg number n M k xu x = Some (map (Rplus d) (scaled 1 (shape number (coords p d)))).
  Proof.
    pose proof (HM number n M k l HV) as HM. intros Hx Lp Up Ud E. destruct (below_good n xu x Hxu Hx) as (_ & Ex). unfold wfg, wfg_eval. rewrite Ex, E. destruct (coords_unit p d Up Ud) as (Uc & Lc).
    assert (Ey : (if (number =? 9)%nat then p ++ [d] else post (p ++ [d]) (degeneracy number M)) = coords p d ++ [d]).
    { destruct (Nat.eqb_spec number 9) as [H9|H9]; [unfold coords; rewrite H9; reflexivity|]. apply post_eq; auto. }
    cbv zeta. rewrite Ey, removelast_last. rewrite shapes_eq; auto; [|lia]. unfold calculate. rewrite last_last. f_equal. f_equal.
    assert (Lc' : length (shape number (coords p d)) = M). { rewrite shape_length; [lia|]. intros e. rewrite e in Lc. cbn in Lc. lia. }
    unfold scales. rewrite <- Lc' at 1. apply scaled_zip.
  Qed.
  Lemma wfg_value x : below xu x -> exists p d, length p = (M - 1)%nat /\ Forall unit p /\ unit d /\ wfg number n M k xu x = Some (map (Rplus d) (scaled 1 (shape number (coords p d)))).
  Proof.
    intros Hx. destruct (below_good n xu x Hxu Hx) as (Hy & _). destruct (wfg_t_good number n M k l Hnum HV _ Hy) as (p & d & E & Lp & Up & Ud). exists p, d. split; auto. split; auto. split; auto. apply wfg_of_t; auto.
  Qed.
  Lemma wfg_attain p : length p = (M - 1)%nat -> Forall unit p -> exists x, below xu x /\ wfg number n M k xu x = Some (scaled 1 (shape number (coords p 0))).
  Proof.
    intros Lp Up. destruct (wfg_t_onto number n M k l Hnum HV p Lp Up) as (y & Hy & E). destruct (good_below n xu y Hxu Hy) as (Hb & Ey). exists (zip_with Rmult y xu). split; auto.
    rewrite (wfg_of_t _ p 0); auto; [|apply unit_0|rewrite Ey; auto]. f_equal. rewrite <- (map_id (scaled _ _)) at 2. apply map_ext. intros; ring.
  Qed.

  (** *** WFG4 to WFG9 *)
  Lemma wfg_concave_front : (4 <= number)%nat -> front (below xu) (wfg number n M k xu) (ellipsoid M).
  Proof.
    pose proof (HM number n M k l HV) as HM. intros H4. assert (Ec : forall p d, coords p d = p) by (intros; unfold coords; destruct (Nat.eqb_spec number 3); auto; lia).
    assert (Es : forall p, shape number p = fan concave_up concave_dn p) by (intros; unfold shape; destruct number as [|[|[|[|]]]]; auto; lia).
    assert (El : forall p, length p = (M - 1)%nat -> Forall unit p -> ellipsoid M (scaled 1 (fan concave_up concave_dn p))).
    { intros p Lp Up. exists (fan concave_up concave_dn p). split; [rewrite fan_length; lia|]. split; [|split; auto; apply fan_sphere; auto]. eapply Forall_impl; [|apply (fan_unit concave_up concave_dn concave_up_unit concave_dn_unit p Up)]. intros a (? & ?); auto. }
    assert (Em : forall u, ellipsoid M u -> exists p, length p = (M - 1)%nat /\ Forall unit p /\ u = scaled 1 (fan concave_up concave_dn p)).
    { intros u (v & Lv & Pv & Sv & ->). destruct (sphere_onto (M - 1) v 1) as (p & Lp & Up & E); auto; [lia|lra|lra|]. exists p. split; auto. split; auto. rewrite E. f_equal. rewrite <- (map_id (fan _ _ _)) at 2. apply map_ext. intros; ring. }
    apply front_intro.
    - intros x Hx. destruct (wfg_value x Hx) as (p & d & Lp & Up & (D0 & D1) & E). rewrite Ec, Es in E. eexists. split; [exact E|]. exists (scaled 1 (fan concave_up concave_dn p)). split; [auto|apply wdom_shift; auto].
    - intros u Hu. destruct (Em u Hu) as (p & Lp & Up & ->). destruct (wfg_attain p Lp Up) as (x & Hx & E). rewrite Ec, Es in E. exists x. auto.
    - intros u w Hu Hw H. destruct (Em u Hu) as (p & Lp & Up & ->). destruct (Em w Hw) as (q & Lq & Uq & ->). apply scaled_wdom in H; [|lia]. f_equal.
      assert (M1 : forall z, map (Rmult 1) z = z) by (intros; rewrite <- (map_id z) at 2; apply map_ext; intros; ring).
      destruct (fan_antichain concave_up concave_dn) with (x := q) (x' := p) (c := 1) (c' := 1) as (_ & E); auto using concave_up_unit, concave_dn_unit, concave_up_mono, concave_dn_mono, concave_up_0.
      + rewrite concave_dn_0. lra.
      + lia.
      + lra.
      + rewrite !M1. auto.
  Qed.

  (** *** WFG1, WFG2 *)
  Definition entry := if (number =? 1)%nat then wfg1_entry else wfg2_entry.
  Lemma entry_best a : unit a -> exists s, 0 <= s <= a /\ entry s <= entry a /\ record entry s.
  Proof.
    intros (A0 & A1). unfold entry. destruct (number =? 1)%nat.
    - exists a. split; [lra|]. split; [lra|]. intros b (_ & Hb). apply wfg1_entry_mono; auto.
    - apply earliest_min; auto. intros; apply wfg2_entry_cont.
  Qed.
  Lemma wdom_scale c c' v : 0 <= c <= c' -> Forall unit v -> wdom (map (Rmult c) v) (map (Rmult c') v).
  Proof. intros Hc Hv. unfold wdom. induction Hv as [|a v (A0 & A1) Hv IH]; cbn; constructor; auto. nra. Qed.
  Lemma convex_up_le a b : unit a -> unit b -> a <= b -> 0 <= convex_up a <= convex_up b.
  Proof. intros Ha Hb H. split; [apply convex_up_unit; auto|]. destruct (Req_dec a b) as [->|]; [lra|]. left. apply convex_up_mono; auto. lra. Qed.
  Lemma wfg_convex_front : (number <= 2)%nat -> front (below xu) (wfg number n M k xu) (convex_surface (record entry) entry M).
  Proof.
    pose proof (HM number n M k l HV) as HM. intros H2. assert (Ec : forall p d, coords p d = p) by (intros; unfold coords; destruct (Nat.eqb_spec number 3); auto; lia).
    assert (Es : forall a q, shape number (a :: q) = map (Rmult (convex_up a)) (fan convex_up convex_dn q) ++ [entry a]) by (intros; apply shape_top; lia).
    apply front_intro.
    - intros x Hx. destruct (wfg_value x Hx) as ([|a q] & d & Lp & Up & (D0 & D1) & E); [cbn in Lp; lia|]. rewrite Ec, Es in E. eexists. split; [exact E|]. inversion Up as [|? ? Ha Uq]; subst. destruct (entry_best a Ha) as (s & Hs & Hle & Hrec).
      assert (Us : unit s) by (destruct Ha; split; lra).
      exists (scaled 1 (map (Rmult (convex_up s)) (fan convex_up convex_dn q) ++ [entry s])). split; [exists s, q; split; auto; split; auto; split; [cbn in Lp; lia|split; auto]|].
      eapply wdom_trans; [|apply wdom_shift; auto]. apply scaled_wdom; [lia|]. apply wdom_app; [|constructor; auto; constructor]. apply wdom_scale; [apply convex_up_le; auto; lra|]. apply fan_unit; auto using convex_up_unit, convex_dn_unit.
    - intros u (a & q & Ha & Hr & Lq & Uq & ->). destruct (wfg_attain (a :: q)) as (x & Hx & E); [cbn; lia|constructor; auto|]. rewrite Ec, Es in E. exists x. auto.
    - intros u w (a & q & Ha & Hr & Lq & Uq & ->) (a' & q' & Ha' & Hr' & Lq' & Uq' & ->) H. apply scaled_wdom in H; [|lia]. f_equal. apply top_antichain; auto; [lia|].
      intros Hlt. apply Hr. destruct Ha'; lra.
  Qed.

  (** *** WFG3 *)
  Fixpoint wsum (m : nat) (u : list R) : R := match u with [] => 0 | a :: t => a / (2 * INR m) + wsum (S m) t end.
  Lemma wsum_scaled u : forall m, (1 <= m)%nat -> wsum m (scaled m u) = vsum u.
  Proof.
    induction u as [|a u IH]; intros m Hm; cbn [scaled wsum]; auto. rewrite IH by lia. unfold vsum. cbn. f_equal. assert (0 < INR m) by (apply lt_0_INR; lia). field. lra.
  Qed.
  Lemma wsum_shift d u : forall m, (1 <= m)%nat -> exists c, 0 <= c /\ (u <> [] -> 0 < c) /\ wsum m (map (Rplus d) u) = c * d + wsum m u.
  Proof.
    induction u as [|a u IH]; intros m Hm; [exists 0; split; [lra|]; split; [congruence|cbn; ring]|]. destruct (IH (S m)) as (c & C0 & _ & E); [lia|]. assert (0 < INR m) by (apply lt_0_INR; lia).
    assert (0 < / (2 * INR m)) by (apply Rinv_0_lt_compat; lra). exists (/ (2 * INR m) + c). split; [lra|]. split; [lra|]. cbn [map wsum]. rewrite E. unfold Rdiv. ring.
  Qed.
  Lemma wsum_wdom u v : wdom u v -> forall m, (1 <= m)%nat -> wsum m u <= wsum m v /\ (wsum m v <= wsum m u -> u = v).
  Proof.
    induction 1 as [|a b u v Hab H IH]; intros m Hm; cbn [wsum]; [split; auto; lra|]. destruct (IH (S m)) as (I1 & I2); [lia|]. assert (0 < INR m) by (apply lt_0_INR; lia). assert (P : 0 < / (2 * INR m)) by (apply Rinv_0_lt_compat; lra).
    assert (a / (2 * INR m) <= b / (2 * INR m)) by (apply Rmult_le_compat_r; lra). split; [lra|]. intros Hle. f_equal; [|apply I2; lra]. assert (Q : b / (2 * INR m) <= a / (2 * INR m)) by lra. apply Rmult_le_reg_r in Q; lra.
  Qed.
  Lemma vsum_map_mult r u : vsum (map (Rmult r) u) = r * vsum u.
  Proof. unfold vsum. induction u; cbn; [ring|]. rewrite IHu. ring. Qed.
  Lemma lin_sum p : vsum (fan lin_up lin_dn p) = 1.
  Proof. induction p as [|a p IH]; cbn [fan]; [unfold vsum; cbn; ring|]. rewrite vsum_app, vsum_map_mult, IH. unfold vsum, lin_up, lin_dn. cbn. ring. Qed.
  Lemma half_coords a q : number = 3%nat -> coords (a :: q) 0 = a :: repeat (1 / 2) (length q).
  Proof. intros H3. unfold coords. rewrite H3. cbn [Nat.eqb].
f_equal. induction q as [|b q IH]; [reflexivity|]. cbn [map length repeat]. rewrite IH. f_equal. lra. Qed.
  Lemma wfg3_curve_optimal u : number = 3%nat -> wfg3_curve M u -> optimal (below xu) (wfg number n M k xu) u.
  Proof.
    pose proof (HM number n M k l HV) as HM. intros H3 (a & Ha & ->). split.
    - destruct (wfg_attain (a :: repeat (1 / 2) (M - 2))) as (x & Hx & E).
      + cbn. rewrite repeat_length. lia.
      + constructor; auto. apply forall_repeat. split; lra.
      + rewrite half_coords, repeat_length in E by auto. exists x. split; auto. rewrite E. rewrite H3. reflexivity.
    - intros x v Hx E (H & Hne). destruct (wfg_value x Hx) as (p & d & Lp & Up & (D0 & D1) & E'). rewrite E in E'. injection E' as ->. rewrite H3 in H, Hne at 1. cbn [shape] in H, Hne.
      destruct (wsum_wdom _ _ H 1%nat ltac:(lia)) as (W1 & W2). destruct (wsum_shift d (scaled 1 (fan lin_up lin_dn (coords p d))) 1 ltac:(lia)) as (c & C0 & C1 & C2). rewrite C2 in W1, W2. rewrite !wsum_scaled in W1, W2 by lia.
      change (fun a0 : R => a0) with lin_up in *. change (fun a0 : R => 1 - a0) with lin_dn in *. rewrite !lin_sum in W1, W2.
      assert (Hc : 0 < c). { apply C1. intros e. apply (f_equal (@length R)) in e. rewrite scaled_length, fan_length in e. discriminate. }
      apply Hne, W2. nra.
  Qed.
  Lemma wfg3_two : number = 3%nat -> M = 2%nat -> front (below xu) (wfg number n M k xu) (wfg3_curve M).
  Proof.
    intros H3 HM2. apply front_intro.
    - intros x Hx. destruct (wfg_value x Hx) as (p & d & Lp & Up & (D0 & D1) & E). eexists. split; [exact E|]. destruct p as [|a [|]]; cbn in Lp; try lia. inversion Up; subst. exists (scaled 1 (fan lin_up lin_dn [a])). split; [exists a; auto|].
      rewrite H3. unfold coords. rewrite H3. cbn [Nat.eqb map shape]. apply wdom_shift; auto.
    - intros u Hu. apply (wfg3_curve_optimal u H3 Hu).
    - intros u w Hu Hw H. destruct (list_eq_dec Req_EM_T w u) as [|Hne]; auto. exfalso. destruct (wfg3_curve_optimal u H3 Hu) as (_ & Hund). destruct (wfg3_curve_optimal w H3 Hw) as ((x & Hx & E) & _). apply (Hund x w Hx E). split; auto.
  Qed.
End Value.
