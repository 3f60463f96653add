(** Property theorems: the analytical front of examples/HVSS/components.py. *)
From Coq Require Import Reals Lra Lia ZArith.
From Coq Require Import List.
From Verif Require Import Exn ExModel CompModel ExProof CompProof.
Import ListNotations.
Open Scope R_scope.

(** [p] is at least as good in both objectives and better in one *)
Definition beats2 (p q : list R) : Prop :=
  exists p1 p2 q1 q2, p = [p1; p2] /\ q = [q1; q2] /\ p1 <= q1 /\ p2 <= q2 /\ (p1 < q1 \/ p2 < q2).
(** along the curve the first objective grows and the second one falls *)
Definition trade_off (f : R -> list R) (a b : R) : Prop := forall t u, a <= t -> t < u -> u <= b ->
  nth 0 (f t) 0 < nth 0 (f u) 0 /\ nth 1 (f u) 0 < nth 1 (f t) 0.

(** * C180 *)
Theorem C180_flat : trade_off flat_convex 0 1.
Proof.
  intros t u Ht Htu Hu. rewrite !flat_eq. cbn [nth]. split; apply exp_increasing, ge_incr; unfold sc; lra.
Qed.
Print Assumptions C180_flat.
(** nothing on the first piece is dominated by a point of the first piece *)
Lemma trade_not_beats f t u : (forall x, exists a b, f x = [a; b]) -> trade_off f 0 1 -> 0 <= t <= 1 -> 0 <= u <= 1 -> ~ beats2 (f t) (f u).
Proof.
  intros Hf HT Ht Hu (p1 & p2 & q1 & q2 & Ep & Eq & H1 & H2 & H3).
  destruct (Rtotal_order t u) as [L|[E|G]].
  - destruct (HT t u ltac:(lra) L ltac:(lra)) as [_ B]. rewrite Ep, Eq in B. cbn in B. lra.
  - subst u. rewrite Ep in Eq. injection Eq as -> ->. lra.
  - destruct (HT u t ltac:(lra) G ltac:(lra)) as [B _]. rewrite Ep, Eq in B. cbn in B. lra.
Qed.
Theorem C180_flat_front : forall t u, 0 <= t <= 1 -> 0 <= u <= 1 -> ~ beats2 (flat_convex t) (flat_convex u).
Proof. intros t u. apply trade_not_beats; [|apply C180_flat]. intros x. do 2 eexists. reflexivity. Qed.
Print Assumptions C180_flat_front.

Theorem C180_linear : (forall a b, trade_off linear a b) /\
  forall t, nth 0 (linear t) 0 + nth 1 (linear t) 0 = 42713359 / 100000000.
Proof. split; [intros a b t u Ha Htu Hb|intros t]; cbn; [split; lra|lra]. Qed.
Print Assumptions C180_linear.

Lemma first_half J1 H1 J2 H2 t : 0 <= t < 1 / 2 -> pw_objective get_index (components J1 H1 J2 H2) t = Ok (flat_convex (2 * t)).
Proof.
  intros Ht. unfold pw_objective. rewrite (call_inside (components J1 H1 J2 H2) p_obj 0 (mkPiece flat_convex J1 H1) t eq_refl).
  - cbn [length components p_obj]. f_equal. f_equal. simpl. lra.
  - unfold components. simpl. lra.
Qed.
Lemma second_half J1 H1 J2 H2 t : 1 / 2 <= t <= 1 -> pw_objective get_index (components J1 H1 J2 H2) t = Ok (linear (2 * t - 1)).
Proof.
  intros Ht. destruct (call_in (components J1 H1 J2 H2) p_obj t) as (k & p & Hk & En & HB & HC & _ & E); [discriminate|lra|].
  assert (E2 : INR (length (components J1 H1 J2 H2)) = 2) by (simpl; lra). rewrite E2 in *. cbn [length components] in Hk.
  assert (k = 1%nat) as ->.
  { destruct k as [|[|k]]; [|auto|lia]. exfalso. simpl (INR 0) in *. destruct (Rlt_dec t 1) as [L|N]; [specialize (HC L); lra|lra]. }
  cbn in En. injection En as <-. unfold pw_objective. rewrite E. reflexivity.
Qed.
(** the whole curve *)
Theorem C180_curve : forall J1 H1 J2 H2 t, 0 <= t <= 1 ->
  pw_objective get_index (components J1 H1 J2 H2) t = Ok (if Rlt_dec t (1 / 2) then flat_convex (2 * t) else linear (2 * t - 1)).
Proof.
  intros J1 H1 J2 H2 t Ht. destruct (Rlt_dec t (1 / 2)); [apply first_half|apply second_half]; lra.
Qed.
Print Assumptions C180_curve.

(** every point of the curve is below the reference point in both objectives *)
Theorem C180_reference : forall J1 H1 J2 H2 t, 0 <= t <= 1 ->
  exists y, pw_objective get_index (components J1 H1 J2 H2) t = Ok y /\ nth 0 y 0 < nth 0 comp_ref 0 /\ nth 1 y 0 < nth 1 comp_ref 0.
Proof.
  intros J1 H1 J2 H2 t Ht. rewrite C180_curve by auto. eexists. split; [reflexivity|]. destruct (Rlt_dec t (1 / 2)) as [L|N].
  - rewrite flat_eq. cbn [nth comp_ref].
    assert (Hg : forall s, 0 < s < 1 -> exp (ge s) < 1).
    { intros s Hs. rewrite <- exp_0. apply exp_increasing. unfold ge.
      assert (Hl : ln s < 0) by (rewrite <- ln_1; apply ln_increasing; lra). assert (0 < 1 + 10 * (s - s ^ 2)) by nra. nra. }
    assert (E1 := Hg (sc (2 * t)) ltac:(unfold sc; lra)). assert (E2 := Hg (1 - sc (2 * t)) ltac:(unfold sc; lra)). lra.
  - cbn. lra.
Qed.
Print Assumptions C180_reference.

(** a point can be dominated only if its parameter is in the first half and its first objective is at least that of the
    beginning of the second half, which it exceeds by less than 0.000000005 *)
Theorem C180_overlap : forall J1 H1 J2 H2 t u y z, 0 <= t <= 1 -> 0 <= u <= 1 ->
  pw_objective get_index (components J1 H1 J2 H2) t = Ok y -> pw_objective get_index (components J1 H1 J2 H2) u = Ok z ->
  beats2 z y -> t < 1 / 2 <= u /\ 92713359 / 100000000 <= nth 0 y 0 < 92713359 / 100000000 + 5 / 1000000000.
Proof.
  intros J1 H1 J2 H2 t u y z Ht Hu Ey Ez HB. rewrite C180_curve in Ey, Ez by auto.
  injection Ey as <-. injection Ez as <-. destruct (Rlt_dec t (1 / 2)) as [Lt|Nt], (Rlt_dec u (1 / 2)) as [Lu|Nu].
  - exfalso. revert HB. apply C180_flat_front; lra.
  - split; [lra|]. destruct HB as (p1 & p2 & q1 & q2 & Ep & Eq & B1 & B2 & _).
    assert (Hp : nth 0 (linear (2 * u - 1)) 0 = p1) by (rewrite Ep; reflexivity). cbn in Hp.
    assert (Hq : nth 0 (flat_convex (2 * t)) 0 = q1) by (rewrite Eq; reflexivity). rewrite Hq. split; [lra|].
    rewrite <- Hq, flat_eq. cbn [nth].
    assert (G : ge (sc (2 * t)) < ge (95 / 100)) by (apply ge_incr; unfold sc; lra). apply exp_increasing in G.
    pose proof end_below. lra.
  - exfalso. destruct HB as (p1 & p2 & q1 & q2 & Ep & Eq & B1 & B2 & _).
    assert (Hq : nth 1 (linear (2 * t - 1)) 0 = q2) by (rewrite Eq; reflexivity). cbn in Hq.
    assert (Hp : nth 1 (flat_convex (2 * u)) 0 = p2) by (rewrite Ep; reflexivity). rewrite flat_eq in Hp. cbn [nth] in Hp.
    pose proof (exp_pos (ge (1 - sc (2 * u)))). lra.
  - exfalso. revert HB. apply trade_not_beats; [intros x; do 2 eexists; reflexivity|apply C180_linear|lra|lra].
Qed.
Print Assumptions C180_overlap.

(** the two pieces overlap by a few billionths: the end of the first piece is dominated *)
Theorem C180_front_refuted : exists t u, 0 <= t <= 1 /\ 0 <= u <= 1 /\ forall J1 H1 J2 H2, exists y z,
  pw_objective get_index (components J1 H1 J2 H2) t = Ok y /\ pw_objective get_index (components J1 H1 J2 H2) u = Ok z /\ beats2 z y.
Proof.
  destruct near_end as (s & Hs & He). exists ((s - 5 / 100) * (10 / 9) / 2), (1 / 2). split; [lra|]. split; [lra|].
  intros J1 H1 J2 H2. do 2 eexists. split; [apply first_half; lra|]. split; [apply second_half; lra|].
  rewrite flat_eq. replace (sc (2 * ((s - 5 / 100) * (10 / 9) / 2))) with s by (unfold sc; field).
  do 4 eexists. split; [reflexivity|]. split; [reflexivity|]. pose proof (exp_pos (ge (1 - s))). split; [lra|]. split; [lra|]. right. lra.
Qed.
Print Assumptions C180_front_refuted.

Example C180_example : 0 <= 0 /\ 0 < 1 / 2 /\ 1 / 2 <= 1 /\ nth 0 (flat_convex 0) 0 < nth 0 (flat_convex (1 / 2)) 0 /\
  linear (1 / 2) = [92713359 / 100000000 + 1 / 2 * (3 / 10); - (5 / 10) - 1 / 2 * (3 / 10)].
Proof. split; [lra|]. split; [lra|]. split; [lra|]. split; [apply C180_flat; lra|reflexivity]. Qed.
(** the hypotheses of [C180_overlap] can be met *)
Example C180_overlap_example : exists t u y z, 0 <= t <= 1 /\ 0 <= u <= 1 /\
  pw_objective get_index (components linear linear linear linear) t = Ok y /\
  pw_objective get_index (components linear linear linear linear) u = Ok z /\ beats2 z y.
Proof.
  destruct C180_front_refuted as (t & u & Ht & Hu & H). destruct (H linear linear linear linear) as (y & z & E1 & E2 & B).
  exists t, u, y, z. auto.
Qed.
