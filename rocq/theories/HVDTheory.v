(** Theory of the partial derivatives of the hypervolume: it is exactly affine in every
    coordinate between neighbouring coordinate values, with a slope that is an exclusive
    volume one dimension lower. *)
From Coq Require Import List Arith Lia Reals Lra Permutation Bool.
From Verif Require Import ListAux NDSSpec HVSpec HVTheory HVExtra.
Import ListNotations.
Open Scope R_scope.

Implicit Types (r p q : pt) (P Q : list pt).

(** the volume of the box of [q] not dominated by [P] *)
Definition exc (d : nat) (r : pt) (P : list pt) (q : pt) : R := box d r q - hvs d r P q.

Lemma exc_cons d r p P q : exc d r (p :: P) q = exc d r P q - exc d r P (pjoin p q).
Proof. unfold exc. simpl. ring. Qed.
Lemma hv_exc d r P q : hv d r (q :: P) = hv d r P + exc d r P q.
Proof. unfold exc. simpl. ring. Qed.
Lemma exc_ext_q d r P q q' : (forall k, (k < d)%nat -> q k = q' k) -> exc d r P q = exc d r P q'.
Proof.
  intros E. unfold exc. rewrite (box_ext d r r q q') by auto. rewrite (hvs_ext_c d r P q q') by auto. reflexivity.
Qed.
Lemma exc_ext_r d r r' P q : (forall k, (k < d)%nat -> r k = r' k) -> exc d r P q = exc d r' P q.
Proof.
  intros E. unfold exc. rewrite (box_ext d r r' q q) by auto. rewrite (hvs_ext_r d r r' P q) by auto. reflexivity.
Qed.
Lemma exc_same d r P Q q : hv d r (q :: P) = hv d r (q :: Q) -> hv d r P = hv d r Q -> exc d r P q = exc d r Q q.
Proof. rewrite !hv_exc. lra. Qed.
Lemma exc_nonneg d r P q : 0 <= exc d r P q.
Proof.
  assert (hv d r P <= hv d r (q :: P)) by (apply hv_incl; simpl; auto). rewrite hv_exc in H. lra.
Qed.
Lemma exc_dominated d r P q p : In p P -> (forall k, (k < d)%nat -> p k <= q k) -> exc d r P q = 0.
Proof. intros Hp Hle. pose proof (hv_dominated d r P q p Hp Hle) as E. rewrite hv_exc in E. lra. Qed.
Lemma exc_ext_P d r P Q q :
  Forall2 (fun p p' : pt => forall k, (k < d)%nat -> p k = p' k) P Q -> exc d r P q = exc d r Q q.
Proof.
  intros HF. revert q. induction HF as [|p p' P Q Hp HF IH]; intros q; auto.
  rewrite !exc_cons, !IH. f_equal. apply exc_ext_q. intros k Hk. unfold pjoin. rewrite Hp; auto.
Qed.
(** two lists covering each other (below the reference point) have equal exclusive volumes *)
Lemma exc_cover d r P Q q :
  (forall p, In p P -> exists p', In p' Q /\ forall k, (k < d)%nat -> p' k <= p k) ->
  (forall p, In p Q -> exists p', In p' P /\ forall k, (k < d)%nat -> p' k <= p k) ->
  exc d r P q = exc d r Q q.
Proof.
  intros H1 H2. apply exc_same; apply Rle_antisym; apply hv_mono; auto; intros p [<-|Hp];
    try (exists q; split; [simpl; auto|intros; lra]).
  - destruct (H1 p Hp) as (p' & Hp' & Hk). exists p'. simpl; auto.
  - destruct (H2 p Hp) as (p' & Hp' & Hk). exists p'. simpl; auto.
Qed.

(** * Dropping and setting a coordinate *)
Definition drop (k : nat) (p : pt) : pt := fun j => if (j <? k)%nat then p j else p (S j).
Definition setk (k : nat) (a : R) (p : pt) : pt := fun j => if (j =? k)%nat then a else p j.

Lemma drop_setk k a p j : drop k (setk k a p) j = drop k p j.
Proof.
  unfold drop, setk. destruct (Nat.ltb_spec j k).
  - destruct (Nat.eqb_spec j k); [lia|auto].
  - destruct (Nat.eqb_spec (S j) k); [lia|auto].
Qed.
Lemma setk_same k p j : setk k (p k) p j = p j.
Proof. unfold setk. destruct (Nat.eqb_spec j k); subst; auto. Qed.
Lemma drop_pjoin k p q j : drop k (pjoin p q) j = pjoin (drop k p) (drop k q) j.
Proof. unfold drop, pjoin. destruct (j <? k)%nat; auto. Qed.

Lemma prodn_drop d a k : (k <= d)%nat -> prodn (S d) a = a k * prodn d (drop k a).
Proof.
  induction d as [|d IH]; intros Hk.
  - replace k with 0%nat by lia. simpl. ring.
  - destruct (Nat.eq_dec k (S d)) as [->|Hne].
    + change (prodn (S (S d)) a) with (prodn (S d) a * a (S d)). rewrite Rmult_comm. f_equal.
      apply prodn_ext. intros j Hj. unfold drop. destruct (Nat.ltb_spec j (S d)); [auto|lia].
    + change (prodn (S (S d)) a) with (prodn (S d) a * a (S d)). rewrite IH by lia.
      change (prodn (S d) (drop k a)) with (prodn d (drop k a) * drop k a d).
      assert (E : drop k a d = a (S d)) by (unfold drop; destruct (Nat.ltb_spec d k); [lia|auto]).
      rewrite E. ring.
Qed.
Lemma box_drop d r q k : (k <= d)%nat -> box (S d) r q = Rmax 0 (r k - q k) * box d (drop k r) (drop k q).
Proof.
  intros Hk. unfold box. rewrite (prodn_drop d _ k Hk). f_equal.
  apply prodn_ext. intros j Hj. unfold drop. destruct (j <? k)%nat; auto.
Qed.

(** * The slab lemma *)
Definition leb (x y : R) : bool := if Rle_dec x y then true else false.
Definition ltb (x y : R) : bool := if Rlt_dec x y then true else false.
Lemma leb_true x y : leb x y = true <-> x <= y.
Proof. unfold leb. destruct (Rle_dec x y); split; auto; discriminate. Qed.
Lemma ltb_true x y : ltb x y = true <-> x < y.
Proof. unfold ltb. destruct (Rlt_dec x y); split; auto; discriminate. Qed.

Lemma exc_slab d r P q k a b : (k <= d)%nat -> a <= b -> b <= r k ->
  (forall p, In p P -> p k <= a \/ b <= p k) ->
  exc (S d) r P (setk k a q) - exc (S d) r P (setk k b q) =
  (b - a) * exc d (drop k r) (map (drop k) (filter (fun p => leb (p k) a) P)) (drop k q).
Proof.
  intros Hk Hab Hbr. revert q. induction P as [|p P IH]; intros q Hp.
  - simpl. unfold exc. simpl. rewrite !(box_drop d _ _ k Hk).
    assert (E : forall c, setk k c q k = c) by (intros c; unfold setk; rewrite Nat.eqb_refl; auto).
    rewrite !E. rewrite (box_ext d (drop k r) (drop k r) (drop k (setk k a q)) (drop k q)) by (auto using drop_setk).
    rewrite (box_ext d (drop k r) (drop k r) (drop k (setk k b q)) (drop k q)) by (auto using drop_setk).
    rewrite !Rmax_right by lra. ring.
  - rewrite !exc_cons. cbn [filter].
    assert (Hp' : forall p, In p P -> p k <= a \/ b <= p k) by (intros; apply Hp; simpl; auto).
    destruct (Hp p (or_introl eq_refl)) as [Ha|Hb].
    + assert (E : leb (p k) a = true) by (apply leb_true; auto). rewrite E. cbn [map]. rewrite exc_cons.
      assert (Ej : forall c, a <= c -> forall j, pjoin p (setk k c q) j = setk k c (pjoin p q) j).
      { intros c Hc j. unfold pjoin, setk. destruct (Nat.eqb_spec j k); subst; auto. apply Rmax_right. lra. }
      rewrite (exc_ext_q (S d) r P (pjoin p (setk k a q)) (setk k a (pjoin p q))) by (intros; apply Ej; lra).
      rewrite (exc_ext_q (S d) r P (pjoin p (setk k b q)) (setk k b (pjoin p q))) by (intros; apply Ej; lra).
      rewrite (exc_ext_q d _ _ (pjoin (drop k p) (drop k q)) (drop k (pjoin p q))) by (intros; symmetry; apply drop_pjoin).
      pose proof (IH q Hp') as I1. pose proof (IH (pjoin p q) Hp') as I2. lra.
    + destruct (Req_dec a b) as [->|Hne].
      { rewrite !Rminus_eq_0, Rmult_0_l. ring. }
      assert (E : leb (p k) a = false) by (destruct (leb (p k) a) eqn:E; auto; apply leb_true in E; lra).
      rewrite E.
      rewrite (exc_ext_q (S d) r P (pjoin p (setk k a q)) (pjoin p (setk k b q))).
      * rewrite <- IH by auto. ring.
      * intros j Hj. unfold pjoin, setk. destruct (Nat.eqb_spec j k); subst; auto. rewrite !Rmax_left; lra.
Qed.

(** * Gaps between coordinate values *)
Lemma gap_below (l : list R) b : exists e, 0 < e /\ forall x, In x l -> x < b -> x <= b - e.
Proof.
  induction l as [|x l (e & He & IH)]; [exists 1; split; [lra|intros ? []]|].
  destruct (Rlt_le_dec x b) as [Hlt|Hge].
  - exists (Rmin e (b - x)). split; [apply Rmin_glb_lt; lra|]. intros y [<-|Hy] Hyb.
    + pose proof (Rmin_r e (b - x)). lra.
    + specialize (IH y Hy Hyb). pose proof (Rmin_l e (b - x)). lra.
  - exists e. split; auto. intros y [<-|Hy] Hyb; [lra|auto].
Qed.
Lemma gap_above (l : list R) b : exists e, 0 < e /\ forall x, In x l -> b < x -> b + e <= x.
Proof.
  destruct (gap_below (map Ropp l) (- b)) as (e & He & Hg). exists e. split; auto.
  intros x Hx Hb. specialize (Hg (- x) (in_map _ _ _ Hx) ltac:(lra)). lra.
Qed.
Lemma gap_both (l : list R) b : exists e, 0 < e /\ forall x, In x l -> x <> b -> x <= b - e \/ b + e <= x.
Proof.
  destruct (gap_below l b) as (e1 & He1 & G1), (gap_above l b) as (e2 & He2 & G2).
  exists (Rmin e1 e2). split; [apply Rmin_glb_lt; auto|]. intros x Hx Hne.
  pose proof (Rmin_l e1 e2). pose proof (Rmin_r e1 e2).
  destruct (Rtotal_order x b) as [Hl|[|Hg]]; [|contradiction|].
  - left. specialize (G1 x Hx Hl). lra.
  - right. specialize (G2 x Hx ltac:(lra)). lra.
Qed.

(** * Local affinity in one coordinate *)
Definition slope_lt (d : nat) (r : pt) (P : list pt) (q : pt) (k : nat) : R :=
  exc d (drop k r) (map (drop k) (filter (fun p => ltb (p k) (q k)) P)) (drop k q).
Definition slope_le (d : nat) (r : pt) (P : list pt) (q : pt) (k : nat) : R :=
  exc d (drop k r) (map (drop k) (filter (fun p => leb (p k) (q k)) P)) (drop k q).

Lemma filter_ext_in' {A} (f g : A -> bool) l : (forall x, In x l -> f x = g x) -> filter f l = filter g l.
Proof. apply filter_ext_in. Qed.

Lemma exc_left d r P q k : (k <= d)%nat -> q k <= r k ->
  exists e, 0 < e /\ forall t, q k - e <= t <= q k ->
    exc (S d) r P (setk k t q) = exc (S d) r P q + (q k - t) * slope_lt d r P q k.
Proof.
  intros Hk Hr. destruct (gap_below (map (fun p : pt => p k) P) (q k)) as (e & He & Hg).
  exists e. split; auto. intros t Ht.
  assert (Hg' : forall p, In p P -> p k < q k -> p k <= q k - e).
  { intros p Hp. apply Hg. apply (in_map (fun p : pt => p k)); auto. }
  destruct (Req_dec t (q k)) as [->|Hne].
  { rewrite (exc_ext_q (S d) r P (setk k (q k) q) q) by (intros; apply setk_same). ring. }
  pose proof (exc_slab d r P q k t (q k) Hk ltac:(lra) Hr) as E.
  rewrite (exc_ext_q (S d) r P (setk k (q k) q) q) in E by (intros; apply setk_same).
  assert (Hf : filter (fun p : pt => leb (p k) t) P = filter (fun p : pt => ltb (p k) (q k)) P).
  { apply filter_ext_in. intros p Hp. specialize (Hg' p Hp).
    destruct (Rlt_le_dec (p k) (q k)) as [Hl|Hl].
    - rewrite (proj2 (ltb_true _ _) Hl). apply leb_true. specialize (Hg' Hl). lra.
    - assert (E1 : ltb (p k) (q k) = false) by (destruct (ltb (p k) (q k)) eqn:E1; auto; apply ltb_true in E1; lra).
      rewrite E1. destruct (leb (p k) t) eqn:E2; auto. apply leb_true in E2. lra. }
  rewrite Hf in E. unfold slope_lt. rewrite <- E; [ring|].
  intros p Hp. destruct (Rlt_le_dec (p k) (q k)) as [Hl|Hl]; [left; specialize (Hg' p Hp Hl); lra|right; auto].
Qed.

Lemma exc_right d r P q k : (k <= d)%nat -> q k < r k ->
  exists e, 0 < e /\ forall t, q k <= t <= q k + e ->
    exc (S d) r P (setk k t q) = exc (S d) r P q - (t - q k) * slope_le d r P q k.
Proof.
  intros Hk Hr. destruct (gap_above (map (fun p : pt => p k) P) (q k)) as (e & He & Hg).
  exists (Rmin e (r k - q k)). split; [apply Rmin_glb_lt; lra|]. intros t Ht.
  pose proof (Rmin_l e (r k - q k)). pose proof (Rmin_r e (r k - q k)).
  pose proof (exc_slab d r P q k (q k) t Hk ltac:(lra) ltac:(lra)) as E.
  rewrite (exc_ext_q (S d) r P (setk k (q k) q) q) in E by (intros; apply setk_same).
  unfold slope_le. rewrite <- E; [ring|].
  intros p Hp. destruct (Rle_lt_dec (p k) (q k)) as [Hl|Hl]; [left; auto|right].
  specialize (Hg (p k) (in_map (fun p : pt => p k) P p Hp) Hl). lra.
Qed.

Lemma slope_le_lt d r P q k : (forall p, In p P -> p k <> q k) -> slope_le d r P q k = slope_lt d r P q k.
Proof.
  intros Hne. unfold slope_le, slope_lt. f_equal. f_equal. apply filter_ext_in. intros p Hp. specialize (Hne p Hp).
  destruct (leb (p k) (q k)) eqn:E1, (ltb (p k) (q k)) eqn:E2; auto.
  - apply leb_true in E1. assert (~ p k < q k) by (intros Hl; apply ltb_true in Hl; congruence). lra.
  - apply ltb_true in E2. assert (~ p k <= q k) by (intros Hl; apply leb_true in Hl; congruence). lra.
Qed.

Lemma exc_two_sided d r P q k : (k <= d)%nat -> q k < r k -> (forall p, In p P -> p k <> q k) ->
  exists e, 0 < e /\ forall t, q k - e <= t <= q k + e ->
    exc (S d) r P (setk k t q) = exc (S d) r P q - (t - q k) * slope_lt d r P q k.
Proof.
  intros Hk Hr Hne. destruct (exc_left d r P q k Hk ltac:(lra)) as (e1 & He1 & H1).
  destruct (exc_right d r P q k Hk Hr) as (e2 & He2 & H2).
  rewrite (slope_le_lt d r P q k Hne) in H2.
  exists (Rmin e1 e2). split; [apply Rmin_glb_lt; auto|]. intros t Ht.
  pose proof (Rmin_l e1 e2). pose proof (Rmin_r e1 e2).
  destruct (Rle_lt_dec t (q k)); [rewrite H1 by lra; ring|apply H2; lra].
Qed.
