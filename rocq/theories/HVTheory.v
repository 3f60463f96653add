(** Theory of the hypervolume: iterated integrals, inclusion-exclusion, slabs. *)
From Coq Require Import List Arith Reals Bool Lra Lia Permutation.
From Coquelicot Require Import Coquelicot.
From Verif Require Import ListAux NDSSpec HVSpec.
Import ListNotations.
Open Scope R_scope.

(** * Iterated integrals *)
Definition in_box (lo hi y : list R) : Prop :=
  length y = length lo /\
  forall k, (k < length lo)%nat -> nth k lo 0 <= nth k y 0 <= nth k hi 0.
Definition box_ok (lo hi : list R) : Prop :=
  length lo = length hi /\ forall k, (k < length lo)%nat -> nth k lo 0 <= nth k hi 0.

Lemma box_ok_cons l lo h hi : box_ok (l :: lo) (h :: hi) -> l <= h /\ box_ok lo hi.
Proof.
  intros [Hl Hle]. simpl in *. split; [apply (Hle 0%nat); lia|]. split; [lia|].
  intros k Hk. apply (Hle (S k)). lia.
Qed.
Lemma in_box_cons l lo h hi t y :
  l <= t <= h -> in_box lo hi y -> in_box (l :: lo) (h :: hi) (t :: y).
Proof.
  intros Ht [Hl Hk]. split; [simpl; lia|]. intros [|k] Hlt; simpl in *; [auto|]. apply Hk. lia.
Qed.

Lemma is_vol_ext lo hi f g v : box_ok lo hi ->
  (forall y, in_box lo hi y -> f y = g y) -> is_vol lo hi f v -> is_vol lo hi g v.
Proof.
  revert hi f g v; induction lo as [|l lo IH]; intros [|h hi] f g v Hb Hfg Hv; simpl in *;
    try (destruct Hb; discriminate).
  - rewrite <- Hfg; auto. split; auto. simpl; intros; lia.
  - destruct Hv as (q & Hq & HI). exists q. split; auto. intros t Ht.
    apply (IH hi (fun y => f (t :: y))); [apply (box_ok_cons l lo h hi Hb)| |auto].
    intros y Hy. apply Hfg. apply in_box_cons; auto.
Qed.

Lemma is_vol_unique lo hi f v w : box_ok lo hi -> is_vol lo hi f v -> is_vol lo hi f w -> v = w.
Proof.
  revert hi f v w; induction lo as [|l lo IH]; intros [|h hi] f v w Hb Hv Hw; simpl in *;
    try (destruct Hb; discriminate); try congruence.
  destruct Hv as (g & Hg & HI), Hw as (g' & Hg' & HI').
  apply box_ok_cons in Hb as [Hlh Hb].
  assert (HI2 : is_RInt g l h w).
  { apply (is_RInt_ext g'); auto. rewrite Rmin_left, Rmax_right by lra. intros x Hx.
    apply (IH hi (fun y => f (x :: y))); auto; [apply Hg'|apply Hg]; lra. }
  rewrite <- (is_RInt_unique (V := R_CompleteNormedModule) _ _ _ _ HI). symmetry. rewrite <- (is_RInt_unique (V := R_CompleteNormedModule) _ _ _ _ HI2). reflexivity.
Qed.

Lemma is_vol_lin lo hi f g v w a b :
  is_vol lo hi f v -> is_vol lo hi g w -> is_vol lo hi (fun y => a * f y + b * g y) (a * v + b * w).
Proof.
  revert hi f g v w; induction lo as [|l lo IH]; intros [|h hi] f g v w Hv Hw; simpl in *;
    try (rewrite Hv, Hw; reflexivity).
  destruct Hv as (q & Hq & HI), Hw as (q' & Hq' & HI').
  exists (fun t => a * q t + b * q' t). split; [intros t Ht; apply IH; auto|].
  apply (is_RInt_plus (V := R_NormedModule)); apply (is_RInt_scal (V := R_NormedModule)); auto.
Qed.

Lemma is_vol_le lo hi f g v w : box_ok lo hi ->
  (forall y, in_box lo hi y -> f y <= g y) -> is_vol lo hi f v -> is_vol lo hi g w -> v <= w.
Proof.
  revert hi f g v w; induction lo as [|l lo IH]; intros [|h hi] f g v w Hb Hfg Hv Hw; simpl in *;
    try (destruct Hb; discriminate).
  - subst. apply Hfg. split; auto. simpl; intros; lia.
  - destruct Hv as (q & Hq & HI), Hw as (q' & Hq' & HI').
    apply box_ok_cons in Hb as [Hlh Hb].
    apply (is_RInt_le q q' l h); auto. intros x Hx.
    apply (IH hi (fun y => f (x :: y)) (fun y => g (x :: y))); auto; [|apply Hq; lra|apply Hq'; lra].
    intros y Hy. apply Hfg. apply in_box_cons; [lra|auto].
Qed.

(** Products of one-dimensional functions. *)
Fixpoint prodn (d : nat) (a : nat -> R) : R :=
  match d with O => 1 | S d' => prodn d' a * a d' end.
Lemma prodn_ext d a b : (forall k, (k < d)%nat -> a k = b k) -> prodn d a = prodn d b.
Proof. induction d as [|d IH]; simpl; intros E; auto. rewrite IH, E; auto. Qed.
Lemma prodn_shift d a : prodn (S d) a = a 0%nat * prodn d (fun k => a (S k)).
Proof. induction d as [|d IH]; simpl in *; [ring|]. rewrite IH. ring. Qed.

Lemma is_vol_prod lo hi (g : nat -> R -> R) (v : nat -> R) :
  length lo = length hi ->
  (forall k, (k < length lo)%nat -> is_RInt (g k) (nth k lo 0) (nth k hi 0) (v k)) ->
  is_vol lo hi (fun y => prodn (length lo) (fun k => g k (nth k y 0))) (prodn (length lo) v).
Proof.
  revert hi g v; induction lo as [|l lo IH]; intros [|h hi] g v Hl Hk; try discriminate; [reflexivity|].
  cbn [is_vol]. exists (fun t => g 0%nat t * prodn (length lo) (fun k => v (S k))). split.
  - intros t Ht.
    assert (H1 : is_vol lo hi (fun y => g 0%nat t * prodn (length lo) (fun k => g (S k) (nth k y 0)) + 0 * 0)
                  (g 0%nat t * prodn (length lo) (fun k => v (S k)) + 0 * 0)).
    { apply (is_vol_lin lo hi (fun y => prodn (length lo) (fun k => g (S k) (nth k y 0))) (fun _ => 0)).
      - apply (IH hi (fun k => g (S k)) (fun k => v (S k))); [simpl in Hl; lia|].
        intros k Hlt. apply (Hk (S k)). simpl. lia.
      - clear. revert hi; induction lo as [|l lo IH]; intros [|h hi]; simpl; auto.
        exists (fun _ => 0). split; auto.
        pose proof (is_RInt_const (V := R_NormedModule) l h 0) as HC.
        rewrite (scal_zero_r (V := R_NormedModule)) in HC. exact HC. }
    replace (g 0%nat t * prodn (length lo) (fun k => v (S k)))
      with (g 0%nat t * prodn (length lo) (fun k => v (S k)) + 0 * 0) by ring.
    revert H1. generalize (g 0%nat t * prodn (length lo) (fun k => v (S k)) + 0 * 0). intros z Hz.
    cbn [length].
    assert (Hpt : forall y, g 0%nat t * prodn (length lo) (fun k => g (S k) (nth k y 0)) + 0 * 0 =
                  prodn (S (length lo)) (fun k => g k (nth k (t :: y) 0))).
    { intros y. rewrite prodn_shift. simpl. ring. }
    clear -Hpt Hz Hl. simpl in Hl.
    assert (Hgen : forall lo hi (f1 f2 : list R -> R) z, length lo = length hi -> (forall y, f1 y = f2 y) ->
              is_vol lo hi f1 z -> is_vol lo hi f2 z).
    { clear. induction lo as [|l lo IH]; intros [|h hi] f1 f2 z Hl E Hz; try discriminate; simpl in *.
      - rewrite <- E; auto.
      - destruct Hz as (q & Hq & HI). exists q. split; auto. intros t Ht. 
        apply (IH hi (fun y => f1 (t :: y))); auto. }
    eapply Hgen; [lia|exact Hpt|exact Hz].
  - cbn [length]. rewrite prodn_shift.
    replace (v 0%nat * prodn (length lo) (fun k => v (S k)))
      with (scal (prodn (length lo) (fun k => v (S k))) (v 0%nat)) by (unfold scal; simpl; unfold mult; simpl; ring).
    apply (is_RInt_ext (fun t => scal (prodn (length lo) (fun k => v (S k))) (g 0%nat t))).
    { intros x _. unfold scal; simpl; unfold mult; simpl. ring. }
    apply (is_RInt_scal (V := R_NormedModule)). apply (Hk 0%nat). simpl; lia.
Qed.

(** Step functions. *)
Definition step (q t : R) : R := if Rle_dec q t then 1 else 0.
Lemma is_RInt_step l h q : l <= q -> l <= h -> is_RInt (step q) l h (Rmax 0 (h - q)).
Proof.
  intros Hlq Hlh. destruct (Rle_lt_dec q h) as [Hqh|Hqh].
  - rewrite Rmax_right by lra. replace (h - q) with (plus (scal (q - l) 0) (scal (h - q) 1))
      by (unfold plus, scal; simpl; unfold mult; simpl; ring).
    apply (is_RInt_Chasles (V := R_NormedModule) (step q) l q h).
    + apply (is_RInt_ext (fun _ => 0)); [|apply (is_RInt_const (V := R_NormedModule))].
      rewrite Rmin_left, Rmax_right by lra. intros x Hx. unfold step. destruct (Rle_dec q x); lra.
    + apply (is_RInt_ext (fun _ => 1)); [|apply (is_RInt_const (V := R_NormedModule))].
      rewrite Rmin_left, Rmax_right by lra. intros x Hx. unfold step. destruct (Rle_dec q x); lra.
  - rewrite Rmax_left by lra. replace 0 with (scal (h - l) 0) by (unfold scal; simpl; unfold mult; simpl; ring).
    apply (is_RInt_ext (fun _ => 0)); [|apply (is_RInt_const (V := R_NormedModule))].
    rewrite Rmin_left, Rmax_right by lra. intros x Hx. unfold step. destruct (Rle_dec q x); lra.
Qed.

(** * Points as functions, inclusion-exclusion *)
Definition pt := nat -> R.
Definition pjoin (p c : pt) : pt := fun k => Rmax (p k) (c k).
Definition box (d : nat) (r q : pt) : R := prodn d (fun k => Rmax 0 (r k - q k)).

(** [hvs d r P c]: volume of the part of the region dominated by [P] above [c]. *)
Fixpoint hvs (d : nat) (r : pt) (P : list pt) (c : pt) : R :=
  match P with
  | [] => 0
  | p :: P' => box d r (pjoin p c) + hvs d r P' c - hvs d r P' (pjoin p c)
  end.
Fixpoint hv (d : nat) (r : pt) (P : list pt) : R :=
  match P with
  | [] => 0
  | p :: P' => box d r p + hv d r P' - hvs d r P' p
  end.

Definition pleb (d : nat) (p : pt) (y : list R) : bool :=
  forallb (fun k => if Rle_dec (p k) (nth k y 0) then true else false) (seq 0 d).
Lemma pleb_spec d p y : pleb d p y = true <-> forall k, (k < d)%nat -> p k <= nth k y 0.
Proof.
  unfold pleb. rewrite forallb_forall. split.
  - intros Hall k Hk. specialize (Hall k). destruct (Rle_dec (p k) (nth k y 0)); auto.
    exfalso. assert (false = true) by (apply Hall, in_seq; lia). discriminate.
  - intros Hall k Hk. apply in_seq in Hk. destruct (Rle_dec (p k) (nth k y 0)); auto.
    exfalso. apply n, Hall. lia.
Qed.
Definition b2R (b : bool) : R := if b then 1 else 0.
Definition cov (d : nat) (P : list pt) (y : list R) : bool := existsb (fun p => pleb d p y) P.
Lemma cov_spec d P y : cov d P y = true <-> exists p, In p P /\ forall k, (k < d)%nat -> p k <= nth k y 0.
Proof.
  unfold cov. rewrite existsb_exists. split; intros (p & Hp & Hl); exists p; split; auto; apply pleb_spec; auto.
Qed.

Lemma pleb_prod d p y : b2R (pleb d p y) = prodn d (fun k => step (p k) (nth k y 0)).
Proof.
  induction d as [|d IH]; [reflexivity|]. simpl. rewrite <- IH. unfold pleb.
  rewrite seq_S, forallb_app. simpl. unfold step. destruct (forallb _ _); destruct (Rle_dec _ _); simpl; ring.
Qed.

Definition co (p : list R) : pt := fun k => nth k p 0.

Lemma vol_box lo hi c : box_ok lo hi -> (forall k, (k < length lo)%nat -> nth k lo 0 <= c k) ->
  is_vol lo hi (fun y => b2R (pleb (length lo) c y)) (box (length lo) (co hi) c).
Proof.
  intros Hb Hc. destruct Hb as [Hl Hle].
  apply (is_vol_ext lo hi (fun y => prodn (length lo) (fun k => step (c k) (nth k y 0)))); [split; auto| |].
  - intros y _. symmetry. apply pleb_prod.
  - unfold box. apply (is_vol_prod lo hi (fun k => step (c k)) (fun k => Rmax 0 (co hi k - c k))); auto.
    intros k Hk. unfold co. apply is_RInt_step; auto.
Qed.

Lemma pleb_join d p c y : pleb d (pjoin p c) y = pleb d p y && pleb d c y.
Proof.
  apply eq_true_iff_eq. rewrite andb_true_iff, !pleb_spec. unfold pjoin. split.
  - intros Hall. split; intros k Hk; specialize (Hall k Hk); [pose proof (Rmax_l (p k) (c k))|pose proof (Rmax_r (p k) (c k))]; lra.
  - intros [H1 H2] k Hk. apply Rmax_lub; auto.
Qed.

Lemma vol_hvs lo hi P c : box_ok lo hi -> (forall k, (k < length lo)%nat -> nth k lo 0 <= c k) ->
  is_vol lo hi (fun y => b2R (pleb (length lo) c y && cov (length lo) P y)) (hvs (length lo) (co hi) P c).
Proof.
  intros Hb. revert c; induction P as [|p P IH]; intros c Hc.
  - simpl hvs. apply (is_vol_ext lo hi (fun y => 0 * b2R (pleb (length lo) c y) + 0 * b2R (pleb (length lo) c y))); auto.
    + intros y _. simpl. rewrite andb_false_r. simpl. ring.
    + pose proof (is_vol_lin _ _ _ _ _ _ 0 0 (vol_box lo hi c Hb Hc) (vol_box lo hi c Hb Hc)) as HH.
      replace (0 * box (length lo) (co hi) c + 0 * box (length lo) (co hi) c) with 0 in HH by ring. exact HH.
  - set (j := pjoin p c).
    assert (Hj : forall k, (k < length lo)%nat -> nth k lo 0 <= j k).
    { intros k Hk. unfold j, pjoin. eapply Rle_trans; [apply Hc; auto|apply Rmax_r]. }
    cbn [hvs]. fold j.
    apply (is_vol_ext lo hi (fun y =>
       1 * (1 * b2R (pleb (length lo) j y) + 1 * b2R (pleb (length lo) c y && cov (length lo) P y))
       + (-1) * b2R (pleb (length lo) j y && cov (length lo) P y))); auto.
    + intros y _. unfold j. rewrite pleb_join. cbn [cov existsb]. fold (cov (length lo) P y).
      destruct (pleb (length lo) p y), (pleb (length lo) c y), (cov (length lo) P y); simpl; ring.
    + replace (box (length lo) (co hi) j + hvs (length lo) (co hi) P c - hvs (length lo) (co hi) P j)
        with (1 * (1 * box (length lo) (co hi) j + 1 * hvs (length lo) (co hi) P c) + (-1) * hvs (length lo) (co hi) P j) by ring.
      exact (is_vol_lin _ _ _ _ _ _ 1 (-1) (is_vol_lin _ _ _ _ _ _ 1 1 (vol_box lo hi j Hb Hj) (IH c Hc)) (IH j Hj)).
Qed.

Lemma box_ext d r r' q q' : (forall k, (k < d)%nat -> r k = r' k) -> (forall k, (k < d)%nat -> q k = q' k) ->
  box d r q = box d r' q'.
Proof. intros E1 E2. unfold box. apply prodn_ext. intros k Hk. rewrite E1, E2; auto. Qed.
Lemma hvs_ext_c d r P c c' : (forall k, (k < d)%nat -> c k = c' k) -> hvs d r P c = hvs d r P c'.
Proof.
  revert c c'; induction P as [|p P IH]; intros c c' E; simpl; auto.
  assert (Ej : forall k, (k < d)%nat -> pjoin p c k = pjoin p c' k) by (intros k Hk; unfold pjoin; rewrite E; auto).
  rewrite (box_ext d r r (pjoin p c) (pjoin p c')) by auto. rewrite (IH c c') by auto.
  rewrite (IH (pjoin p c) (pjoin p c')) by auto. reflexivity.
Qed.

(** clipping below everything changes nothing *)
Lemma hvs_hv d r P c : (forall p k, In p P -> (k < d)%nat -> c k <= p k) -> hvs d r P c = hv d r P.
Proof.
  induction P as [|p P IH]; simpl; intros Hc; auto.
  assert (E : forall k, (k < d)%nat -> pjoin p c k = p k).
  { intros k Hk. unfold pjoin. apply Rmax_left. apply Hc; auto. }
  rewrite (box_ext d r r (pjoin p c) p), (hvs_ext_c d r P (pjoin p c) p), IH; auto.
Qed.

Lemma vol_hv lo hi P : box_ok lo hi -> (forall p k, In p P -> (k < length lo)%nat -> nth k lo 0 <= p k) ->
  is_vol lo hi (fun y => b2R (cov (length lo) P y)) (hv (length lo) (co hi) P).
Proof.
  intros Hb HP. rewrite <- (hvs_hv (length lo) (co hi) P (co lo)) by auto.
  apply (is_vol_ext lo hi (fun y => b2R (pleb (length lo) (co lo) y && cov (length lo) P y))); auto.
  - intros y [Hl Hy]. assert (E : pleb (length lo) (co lo) y = true).
    { apply pleb_spec. intros k Hk. unfold co. apply Hy. auto. }
    rewrite E. reflexivity.
  - apply vol_hvs; auto. intros k Hk. unfold co. lra.
Qed.

(** * Comparison through regions *)
Definition list_of (d : nat) (p : pt) : list R := map p (seq 0 d).
Lemma list_of_length d p : length (list_of d p) = d.
Proof. unfold list_of. rewrite map_length, seq_length. reflexivity. Qed.
Lemma list_of_nth d p k : (k < d)%nat -> nth k (list_of d p) 0 = p k.
Proof.
  intros Hk. unfold list_of. rewrite (nth_map_default p (seq 0 d) k 0%nat 0) by (rewrite seq_length; auto).
  rewrite seq_nth; auto.
Qed.

(** a common lower corner *)
Fixpoint lower (r : pt) (P : list pt) : pt :=
  match P with [] => r | p :: P' => fun k => Rmin (p k) (lower r P' k) end.
Lemma lower_le r P p k : In p P -> lower r P k <= p k.
Proof.
  induction P as [|q P IH]; simpl; [tauto|]. intros [->|Hp]; [apply Rmin_l|].
  eapply Rle_trans; [apply Rmin_r|auto].
Qed.
Lemma lower_ref r P k : lower r P k <= r k.
Proof. induction P as [|q P IH]; simpl; [lra|]. eapply Rle_trans; [apply Rmin_r|auto]. Qed.

Lemma hvs_ext_r d r r' P c : (forall k, (k < d)%nat -> r k = r' k) -> hvs d r P c = hvs d r' P c.
Proof.
  intros E. revert c; induction P as [|p P IH]; intros c; simpl; auto.
  rewrite (box_ext d r r' _ (pjoin p c)) by auto. rewrite !IH. reflexivity.
Qed.
Lemma hv_ext_r d r r' P : (forall k, (k < d)%nat -> r k = r' k) -> hv d r P = hv d r' P.
Proof.
  intros E. induction P as [|p P IH]; simpl; auto.
  rewrite (box_ext d r r' p p) by auto. rewrite IH, (hvs_ext_r d r r' P p); auto.
Qed.

Lemma box_ok_of d lo r : (forall k, (k < d)%nat -> lo k <= r k) -> box_ok (list_of d lo) (list_of d r).
Proof.
  intros Hle. split; [rewrite !list_of_length; auto|]. rewrite list_of_length. intros k Hk.
  rewrite !list_of_nth by auto. auto.
Qed.

Lemma vol_hv_fun d r P lo : (forall k, (k < d)%nat -> lo k <= r k) ->
  (forall p k, In p P -> (k < d)%nat -> lo k <= p k) ->
  is_vol (list_of d lo) (list_of d r) (fun y => b2R (cov d P y)) (hv d r P).
Proof.
  intros Hlo HP. pose proof (vol_hv (list_of d lo) (list_of d r) P (box_ok_of d lo r Hlo)) as Hv.
  rewrite list_of_length in Hv.
  rewrite (hv_ext_r d r (co (list_of d r))) by (intros k Hk; unfold co; rewrite list_of_nth; auto).
  apply Hv. intros p k Hp Hk. rewrite list_of_nth by auto. auto.
Qed.
Lemma vol_hvs_fun d r P c lo : (forall k, (k < d)%nat -> lo k <= r k) ->
  (forall k, (k < d)%nat -> lo k <= c k) ->
  is_vol (list_of d lo) (list_of d r) (fun y => b2R (pleb d c y && cov d P y)) (hvs d r P c).
Proof.
  intros Hlo Hc. pose proof (vol_hvs (list_of d lo) (list_of d r) P c (box_ok_of d lo r Hlo)) as Hv.
  rewrite list_of_length in Hv.
  rewrite (hvs_ext_r d r (co (list_of d r))) by (intros k Hk; unfold co; rewrite list_of_nth; auto).
  apply Hv. intros k Hk. rewrite list_of_nth by auto. auto.
Qed.
Lemma vol_box_fun d r c lo : (forall k, (k < d)%nat -> lo k <= r k) ->
  (forall k, (k < d)%nat -> lo k <= c k) ->
  is_vol (list_of d lo) (list_of d r) (fun y => b2R (pleb d c y)) (box d r c).
Proof.
  intros Hlo Hc. pose proof (vol_box (list_of d lo) (list_of d r) c (box_ok_of d lo r Hlo)) as Hv.
  rewrite list_of_length in Hv.
  rewrite (box_ext d r (co (list_of d r)) c c) by (auto; intros k Hk; unfold co; rewrite list_of_nth; auto).
  apply Hv. intros k Hk. rewrite list_of_nth by auto. auto.
Qed.

(** dominated region inclusion => comparison of volumes *)
Lemma hv_le d r P Q :
  (forall y, length y = d -> (forall k, (k < d)%nat -> nth k y 0 <= r k) ->
     cov d P y = true -> cov d Q y = true) -> hv d r P <= hv d r Q.
Proof.
  intros Hpq. set (lo := lower r (P ++ Q)).
  assert (H0 : forall k, (k < d)%nat -> lo k <= r k) by (intros; apply lower_ref).
  assert (HP : forall p k, In p P -> (k < d)%nat -> lo k <= p k) by (intros; apply lower_le, in_or_app; auto).
  assert (HQ : forall p k, In p Q -> (k < d)%nat -> lo k <= p k) by (intros; apply lower_le, in_or_app; auto).
  apply (is_vol_le (list_of d lo) (list_of d r) (fun y => b2R (cov d P y)) (fun y => b2R (cov d Q y))).
  - apply box_ok_of; auto.
  - intros y [Hl Hy]. rewrite list_of_length in Hl, Hy.
    destruct (cov d P y) eqn:E; [|destruct (cov d Q y); simpl; lra].
    rewrite (Hpq y); simpl; try lra; auto. intros k Hk. specialize (Hy k Hk).
    rewrite !list_of_nth in Hy by auto. lra.
  - apply vol_hv_fun; auto.
  - apply vol_hv_fun; auto.
Qed.
Lemma hv_eq d r P Q :
  (forall y, length y = d -> (forall k, (k < d)%nat -> nth k y 0 <= r k) ->
     cov d P y = cov d Q y) -> hv d r P = hv d r Q.
Proof. intros E. apply Rle_antisym; apply hv_le; intros y Hl Hy Hc; [rewrite <- E|rewrite E]; auto. Qed.

Lemma hv_nonneg d r P : 0 <= hv d r P.
Proof. change 0 with (hv d r []). apply hv_le. intros y _ _ Hc. discriminate. Qed.

Lemma cov_incl d P Q y : (forall p, In p P -> exists q, In q Q /\ forall k, (k < d)%nat -> q k <= p k) ->
  cov d P y = true -> cov d Q y = true.
Proof.
  intros Hpq Hc. apply cov_spec in Hc as (p & Hp & Hle). destruct (Hpq p Hp) as (q & Hq & Hqp).
  apply cov_spec. exists q. split; auto. intros k Hk. specialize (Hle k Hk). specialize (Hqp k Hk). lra.
Qed.
Lemma hv_mono d r P Q : (forall p, In p P -> exists q, In q Q /\ forall k, (k < d)%nat -> q k <= p k) ->
  hv d r P <= hv d r Q.
Proof. intros Hpq. apply hv_le. intros y _ _. apply cov_incl; auto. Qed.
Lemma hv_incl d r P Q : (forall p, In p P -> In p Q) -> hv d r P <= hv d r Q.
Proof. intros Hpq. apply hv_mono. intros p Hp. exists p. split; auto. intros; lra. Qed.
Lemma hv_perm d r P Q : Permutation P Q -> hv d r P = hv d r Q.
Proof.
  intros Hp. apply Rle_antisym; apply hv_incl; intros p Hin;
    [eapply Permutation_in; eauto|eapply Permutation_in; [symmetry; exact Hp|auto]].
Qed.
Lemma hv_same_set d r P Q : (forall p, In p P <-> In p Q) -> hv d r P = hv d r Q.
Proof. intros E. apply Rle_antisym; apply hv_incl; intros p; apply E. Qed.

(** adding a dominated point changes nothing *)
Lemma hv_dominated d r P q p : In p P -> (forall k, (k < d)%nat -> p k <= q k) -> hv d r (q :: P) = hv d r P.
Proof.
  intros Hp Hle. apply Rle_antisym; apply hv_mono.
  - intros x [<-|Hx]; [exists p; auto|exists x; split; auto; intros; lra].
  - intros x Hx. exists x. split; [right; auto|intros; lra].
Qed.

(** a point with an empty box changes nothing *)
Lemma hv_dead d r P q k : (k < d)%nat -> r k <= q k -> hv d r (q :: P) = hv d r P.
Proof.
  intros Hk Hr. cbn [hv].
  assert (Hz : forall a, a k = 0 -> prodn d a = 0).
  { intros a Ha. clear -Hk Ha. induction d as [|d IH]; [lia|]. simpl.
    destruct (Nat.eq_dec k d) as [->|Hne]; [rewrite Ha; ring|]. rewrite IH by lia. ring. }
  assert (Hb : forall c, r k <= c k -> box d r c = 0).
  { intros c Hc. apply Hz. apply Rmax_left. lra. }
  assert (Hs : forall P c, r k <= c k -> hvs d r P c = 0).
  { clear P. induction P as [|p P IH]; intros c Hc; simpl; auto.
    assert (Hj : r k <= pjoin p c k) by (unfold pjoin; eapply Rle_trans; [exact Hc|apply Rmax_r]).
    rewrite Hb, !IH; auto. ring. }
  rewrite Hb, Hs by auto. ring.
Qed.

(** strict growth: if adding [q] (strictly inside) does not enlarge the volume, [q] is dominated *)
Lemma eps_exists (d : nat) (r q : pt) (P : list pt) :
  (forall k, (k < d)%nat -> q k < r k) ->
  (forall p, In p P -> exists k, (k < d)%nat /\ q k < p k) ->
  exists e, 0 < e /\ (forall k, (k < d)%nat -> q k + e <= r k) /\
    (forall p, In p P -> exists k, (k < d)%nat /\ q k + e < p k).
Proof.
  intros Hq HP.
  assert (H1 : exists e, 0 < e /\ forall k, (k < d)%nat -> q k + e <= r k).
  { clear HP. induction d as [|d IH]; [exists 1; split; [lra|intros; lia]|].
    destruct IH as (e & He & Hk); [intros; apply Hq; lia|].
    exists (Rmin e (r d - q d)). pose proof (Hq d ltac:(lia)). split; [apply Rmin_glb_lt; lra|].
    intros k Hlt. destruct (Nat.eq_dec k d) as [->|Hne].
    - pose proof (Rmin_r e (r d - q d)). lra.
    - specialize (Hk k ltac:(lia)). pose proof (Rmin_l e (r d - q d)). lra. }
  assert (H2 : exists e, 0 < e /\ forall p, In p P -> exists k, (k < d)%nat /\ q k + e < p k).
  { clear H1. induction P as [|p P IH]; [exists 1; split; [lra|intros ? []]|].
    destruct IH as (e & He & Hp); [intros; apply HP; right; auto|].
    destruct (HP p (or_introl eq_refl)) as (k0 & Hk0 & Hlt0).
    exists (Rmin e ((p k0 - q k0) / 2)). split; [apply Rmin_glb_lt; lra|].
    intros x [<-|Hx].
    - exists k0. split; auto. pose proof (Rmin_r e ((p k0 - q k0) / 2)). lra.
    - destruct (Hp x Hx) as (k & Hk & Hlt). exists k. split; auto.
      pose proof (Rmin_l e ((p k0 - q k0) / 2)). lra. }
  destruct H1 as (e1 & He1 & H1), H2 as (e2 & He2 & H2). exists (Rmin e1 e2).
  split; [apply Rmin_glb_lt; auto|]. split.
  - intros k Hk. specialize (H1 k Hk). pose proof (Rmin_l e1 e2). lra.
  - intros p Hp. destruct (H2 p Hp) as (k & Hk & Hlt). exists k. split; auto.
    pose proof (Rmin_r e1 e2). lra.
Qed.

Lemma prodn_const_pos d e : 0 < e -> 0 < prodn d (fun _ => e).
Proof. intros He. induction d as [|d IH]; simpl; [lra|]. apply Rmult_lt_0_compat; auto. Qed.

Lemma not_all_ex (d : nat) (p q : pt) :
  (forall k, (k < d)%nat -> p k <= q k) \/ (exists k, (k < d)%nat /\ q k < p k).
Proof.
  induction d as [|d IH]; [left; intros; lia|]. destruct IH as [H|(k & Hk & Hlt)]; [|right; exists k; split; auto].
  destruct (Rle_lt_dec (p d) (q d)); [left|right; exists d; auto].
  intros k Hk. destruct (Nat.eq_dec k d) as [->|]; auto. apply H; lia.
Qed.

Lemma hv_strict d r P q :
  (forall k, (k < d)%nat -> q k < r k) ->
  (forall p, In p P -> exists k, (k < d)%nat /\ q k < p k) ->
  hv d r P < hv d r (q :: P).
Proof.
  intros Hq HP. destruct (eps_exists d r q P Hq HP) as (e & He & Her & Hep).
  set (lo := lower r (q :: P)).
  assert (H0 : forall k, (k < d)%nat -> lo k <= r k) by (intros; apply lower_ref).
  assert (HlP : forall p k, In p (q :: P) -> (k < d)%nat -> lo k <= p k) by (intros; apply lower_le; auto).
  set (g := fun (k : nat) (t : R) => step (q k) t - step (q k + e) t).
  assert (Hcube : is_vol (list_of d lo) (list_of d r) (fun y => prodn d (fun k => g k (nth k y 0)))
                    (prodn d (fun _ => e))).
  { pose proof (is_vol_prod (list_of d lo) (list_of d r) g (fun _ => e)) as Hp. rewrite list_of_length in Hp.
    apply Hp; [rewrite list_of_length; auto|]. intros k Hk. rewrite !list_of_nth by auto.
    specialize (Her k Hk). specialize (H0 k Hk). pose proof (HlP q k (or_introl eq_refl) Hk).
    replace e with (minus (Rmax 0 (r k - q k)) (Rmax 0 (r k - (q k + e)))).
    - apply (is_RInt_minus (V := R_NormedModule)); apply is_RInt_step; lra.
    - rewrite !Rmax_right by lra. unfold minus, plus, opp; simpl. ring. }
  assert (Hgv : forall k t, g k t = 0 \/ (g k t = 1 /\ q k <= t < q k + e)).
  { intros k t. unfold g, step. destruct (Rle_dec (q k) t), (Rle_dec (q k + e) t); first [left; lra|right; split; lra]. }
  assert (Hprod : forall y, prodn d (fun k => g k (nth k y 0)) = 0 \/
     (prodn d (fun k => g k (nth k y 0)) = 1 /\ forall k, (k < d)%nat -> q k <= nth k y 0 < q k + e)).
  { intros y. clear -Hgv. induction d as [|d IH]; simpl; [right; split; auto; intros; lia|].
    destruct IH as [-> | [-> Hk]]; [left; ring|]. destruct (Hgv d (nth d y 0)) as [-> | [-> Hd]]; [left; ring|].
    right. split; [ring|]. intros k Hlt. destruct (Nat.eq_dec k d) as [->|]; auto. apply Hk. lia. }
  pose proof (vol_hv_fun d r P lo H0 ltac:(intros; apply HlP; auto; right; auto)) as HvP.
  pose proof (vol_hv_fun d r (q :: P) lo H0 ltac:(intros; apply HlP; auto)) as HvQ.
  pose proof (is_vol_lin _ _ _ _ _ _ 1 1 HvP Hcube) as Hsum.
  assert (Hle : 1 * hv d r P + 1 * prodn d (fun _ => e) <= hv d r (q :: P)).
  { refine (is_vol_le _ _ _ _ _ _ (box_ok_of d lo r H0) _ Hsum HvQ).
    intros y _. cbn [cov existsb]. fold (cov d P y).
    destruct (Hprod y) as [-> | [-> Hk]].
    - destruct (pleb d q y), (cov d P y); simpl; lra.
    - assert (E1 : pleb d q y = true) by (apply pleb_spec; intros k Hlt; specialize (Hk k Hlt); lra).
      assert (E2 : cov d P y = false).
      { destruct (cov d P y) eqn:E; auto. apply cov_spec in E as (p & Hp & Hpy).
        destruct (Hep p Hp) as (k & Hlt & Hqp). specialize (Hpy k Hlt). specialize (Hk k Hlt). lra. }
      rewrite E1, E2. simpl. lra. }
  pose proof (prodn_const_pos d e He). lra.
Qed.

Lemma hv_no_growth d r P q :
  (forall k, (k < d)%nat -> q k < r k) -> hv d r (q :: P) <= hv d r P ->
  exists p, In p P /\ forall k, (k < d)%nat -> p k <= q k.
Proof.
  intros Hq Hle.
  assert (Hdec : (exists p, In p P /\ forall k, (k < d)%nat -> p k <= q k) \/
                 (forall p, In p P -> exists k, (k < d)%nat /\ q k < p k)).
  { clear Hle. induction P as [|p P IH]; [right; intros ? []|].
    destruct IH as [(x & Hx & Hk)|IH]; [left; exists x; split; auto; right; auto|].
    destruct (not_all_ex d p q) as [H|H]; [left; exists p; split; auto; left; auto|right].
    intros x [<-|Hx]; auto. }
  destruct Hdec as [|HP]; auto. pose proof (hv_strict d r P q Hq HP). lra.
Qed.

(** * Slabs along the last coordinate *)
Lemma hvs_last d r P c : (forall p, In p P -> p d <= c d) ->
  hvs (S d) r P c = Rmax 0 (r d - c d) * hvs d r P c.
Proof.
  revert c; induction P as [|p P IH]; intros c Hc; cbn [hvs]; [ring|].
  assert (Hpc : p d <= c d) by (apply Hc; left; auto).
  assert (Ej : pjoin p c d = c d) by (unfold pjoin; apply Rmax_right; auto).
  rewrite (IH c) by (intros; apply Hc; right; auto).
  rewrite (IH (pjoin p c)) by (intros x Hx; rewrite Ej; apply Hc; right; auto).
  unfold box. cbn [prodn]. rewrite Ej. ring.
Qed.

(** [q] last in the order of coordinate [d]: its increment is its increment one
    dimension below times its height. *)
Lemma hv_slab d r P q : (forall p, In p P -> p d <= q d) ->
  hv (S d) r (q :: P) - hv (S d) r P = Rmax 0 (r d - q d) * (hv d r (q :: P) - hv d r P).
Proof.
  intros Hq. cbn [hv]. rewrite (hvs_last d r P q Hq). unfold box. cbn [prodn]. ring.
Qed.
