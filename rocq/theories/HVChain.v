(** The hypervolume and its gradient along differentiable paths of one point. *)
From Coq Require Import List Arith Lia Reals Lra Permutation Bool.
From Coquelicot Require Import Coquelicot.
From Verif Require Import Num Exn ListAux NDSModel NDSSpec HVModel HVSpec HVTheory HVTop HVExtra
  HVDModel HVDSpec HVDTheory HVDProof HVDTop HVHTheory HVXModel HVXProof.
Import ListNotations.
Open Scope R_scope.

Lemma locally_lt (f : R -> R) t0 c : continuous f t0 -> f t0 < c -> locally t0 (fun t => f t < c).
Proof. intros Hc Hl. apply (Hc (fun y => y < c)). apply open_lt. exact Hl. Qed.
Lemma locally_gt (f : R -> R) t0 c : continuous f t0 -> c < f t0 -> locally t0 (fun t => c < f t).
Proof. intros Hc Hl. apply (Hc (fun y => c < y)). apply open_gt. exact Hl. Qed.
Lemma derive_continuous (f : R -> R) t0 l : is_derive f t0 l -> continuous f t0.
Proof. intros Hd. apply (ex_derive_continuous f). exists l; auto. Qed.

Definition path_at (d : nat) (phi : R -> pt) (phi' : pt) (q : pt) (t0 : R) : Prop :=
  (forall k, (k < d)%nat -> phi t0 k = q k) /\ (forall k, (k < d)%nat -> is_derive (fun t => phi t k) t0 (phi' k)).

(** product of factors *)
Lemma prod_path d (b : pt) : exists C : nat -> R, forall phi phi' t0, path_at d phi phi' b t0 ->
  is_derive (fun t => prodn d (phi t)) t0 (sumn d (fun k => C k * phi' k)).
Proof.
  induction d as [|d (C & IH)].
  - exists (fun _ => 0). intros. simpl. apply @is_derive_const.
  - exists (fun k => if (k =? d)%nat then prodn d b else C k * b d). intros phi phi' t0 [H1 H2].
    assert (Hp : path_at d phi phi' b t0) by (split; intros; auto).
    specialize (IH phi phi' t0 Hp). simpl.
    evar (v : R). assert (Hd : is_derive (fun t => prodn d (phi t) * phi t d) t0 v).
    { apply @is_derive_mult; [exact IH|apply H2; lia|intros; apply Rmult_comm]. }
    replace (sumn d _ + _) with v; [exact Hd|]. unfold v, plus, mult; simpl.
    rewrite Nat.eqb_refl. rewrite (prodn_ext d (phi t0) b) by (intros; apply H1; lia). rewrite (H1 d) by lia.
    f_equal. rewrite Rmult_comm, <- sumn_scal. apply sumn_ext. intros k Hk.
    destruct (Nat.eqb_spec k d); [lia|]. ring.
Qed.

Lemma box_path d (r q : pt) : (forall k, (k < d)%nat -> q k < r k) ->
  exists C : nat -> R, forall phi phi' t0, path_at d phi phi' q t0 ->
    is_derive (fun t => box d r (phi t)) t0 (sumn d (fun k => C k * phi' k)).
Proof.
  intros Hq. destruct (prod_path d (fun k => r k - q k)) as (C & HC).
  exists (fun k => - C k). intros phi phi' t0 [H1 H2].
  unfold box. replace (sumn d _) with (sumn d (fun k => C k * - phi' k)) by (apply sumn_ext; intros; ring).
  apply (HC (fun t k => Rmax 0 (r k - phi t k)) (fun k => - phi' k)). split.
  - intros k Hk. rewrite H1 by auto. apply Rmax_right. specialize (Hq k Hk). lra.
  - intros k Hk. apply (is_derive_ext_loc (fun t => r k - phi t k)).
    + specialize (H2 k Hk). apply derive_continuous in H2. specialize (Hq k Hk).
      generalize (locally_lt (fun t => phi t k) t0 (r k) H2 ltac:(cbv beta; rewrite H1; auto)).
      apply filter_imp. intros t Ht. symmetry. apply Rmax_right. lra.
    + replace (- phi' k) with (minus 0 (phi' k)) by (unfold minus, plus, opp; simpl; ring).
      apply @is_derive_minus; [apply @is_derive_const|apply H2; auto].
Qed.

(** the exclusive volume of a moving point *)
Lemma exc_path d (r : pt) (P : list pt) :
  (forall k, (k < d)%nat -> NoDup (map (fun p : pt => p k) P)) ->
  (forall p k, In p P -> (k < d)%nat -> p k < r k) ->
  forall q : pt, (forall k, (k < d)%nat -> q k < r k) -> (forall p k, In p P -> (k < d)%nat -> p k <> q k) ->
  exists L : nat -> R, forall phi phi' t0, path_at d phi phi' q t0 ->
    is_derive (fun t => exc d r P (phi t)) t0 (sumn d (fun k => L k * phi' k)).
Proof.
  induction P as [|p P IH]; intros Hnd Hin q Hq Hne.
  - destruct (box_path d r q Hq) as (C & HC). exists C. intros phi phi' t0 Hp.
    apply (is_derive_ext (fun t => box d r (phi t))); [|apply HC; auto].
    intros t. unfold exc. simpl. ring.
  - assert (Hnd' : forall k, (k < d)%nat -> NoDup (map (fun p : pt => p k) P)).
    { intros k Hk. specialize (Hnd k Hk). inversion Hnd; auto. }
    assert (Hin' : forall p k, In p P -> (k < d)%nat -> p k < r k) by (intros; apply Hin; simpl; auto).
    destruct (IH Hnd' Hin' q Hq) as (L1 & H1); [intros; apply Hne; simpl; auto|].
    destruct (IH Hnd' Hin' (pjoin p q)) as (L2 & H2).
    + intros k Hk. unfold pjoin. apply Rmax_lub_lt; auto. apply Hin; simpl; auto.
    + intros p' k Hp' Hk E. unfold pjoin in E. specialize (Hnd k Hk). inversion Hnd as [|? ? Hni _]; subst.
      destruct (Rle_dec (p k) (q k)).
      * rewrite Rmax_right in E by auto. apply (Hne p' k); simpl; auto.
      * rewrite Rmax_left in E by lra. apply Hni. rewrite <- E. apply (in_map (fun p : pt => p k)). auto.
    + exists (fun k => L1 k - if ltb (p k) (q k) then L2 k else 0). intros phi phi' t0 Hp.
      apply (is_derive_ext (fun t => minus (exc d r P (phi t)) (exc d r P (pjoin p (phi t))))).
      { intros t. rewrite exc_cons. reflexivity. }
      assert (Hp2 : path_at d (fun t => pjoin p (phi t)) (fun k => if ltb (p k) (q k) then phi' k else 0) (pjoin p q) t0).
      { destruct Hp as [P1 P2]. split.
        - intros k Hk. unfold pjoin. rewrite P1; auto.
        - intros k Hk. unfold pjoin. specialize (P2 k Hk). pose proof (derive_continuous _ _ _ P2) as Hc.
          destruct (ltb (p k) (q k)) eqn:El.
          + apply ltb_true in El. apply (is_derive_ext_loc (fun t => phi t k)); auto.
            generalize (locally_gt _ t0 (p k) Hc ltac:(cbv beta; rewrite P1; auto)). apply filter_imp.
            intros t Ht. symmetry. apply Rmax_right. lra.
          + assert (Hgt : q k < p k).
            { specialize (Hne p k ltac:(simpl; auto) Hk). destruct (Rlt_dec (p k) (q k)) as [Hl|]; [|lra].
              apply ltb_true in Hl. congruence. }
            apply (is_derive_ext_loc (fun t => p k)); [|apply @is_derive_const].
            generalize (locally_lt _ t0 (p k) Hc ltac:(cbv beta; rewrite P1; auto)). apply filter_imp.
            intros t Ht. symmetry. apply Rmax_left. lra. }
      replace (sumn d _) with (minus (sumn d (fun k => L1 k * phi' k)) (sumn d (fun k => L2 k * (if ltb (p k) (q k) then phi' k else 0)))).
      * apply @is_derive_minus; [apply H1; auto|apply H2; auto].
      * unfold minus, plus, opp; simpl. clear. induction d as [|d IHd]; simpl; [ring|]. rewrite <- IHd.
        destruct (ltb (p d) (q d)); ring.
Qed.

Definition lpath (m : nat) (phi : R -> list R) (phi' : nat -> R) (y : list R) (t0 : R) : Prop :=
  (forall t, length (phi t) = m) /\ (forall k, (k < m)%nat -> nth k (phi t0) 0 = nth k y 0) /\
  (forall k, (k < m)%nat -> is_derive (fun t => nth k (phi t) 0) t0 (phi' k)).

Lemma lpath_path m phi phi' y t0 : lpath m phi phi' y t0 -> path_at m (fun t => co (phi t)) phi' (co y) t0.
Proof. intros (H1 & H2 & H3). split; auto. Qed.
Lemma coord_lpath m y k : length y = m -> (k < m)%nat ->
  lpath m (fun t => set_at k t y) (fun l => if (l =? k)%nat then 1 else 0) y (nth k y 0).
Proof.
  intros Hy Hk. split; [intros; rewrite set_at_length; auto|]. split.
  - intros l Hl. rewrite nth_set_at by lia. destruct (Nat.eqb_spec l k); subst; auto.
  - intros l Hl. destruct (Nat.eqb_spec l k) as [->|Hne].
    + apply (is_derive_ext (fun t => t)); [|apply @is_derive_id].
      intros t. rewrite nth_set_at by lia. rewrite Nat.eqb_refl; auto.
    + apply (is_derive_ext (fun t => nth l y 0)); [|apply @is_derive_const].
      intros t. rewrite nth_set_at by lia. destruct (Nat.eqb_spec l k); [lia|auto].
Qed.
Lemma sumn_pick m k (L : nat -> R) : (k < m)%nat -> sumn m (fun l => L l * (if (l =? k)%nat then 1 else 0)) = L k.
Proof.
  intros Hk. rewrite (sumn_single m k); auto.
  - rewrite Nat.eqb_refl. ring.
  - intros l Hl Hne. destruct (Nat.eqb_spec l k); [lia|]. ring.
Qed.

Section Path.
Variables (F : list (list R)) (ref : list R) (d : nat).
Hypothesis Hr : rows_ok F ref.
Hypothesis HG : general_position F ref.
Hypothesis Hin : inside F ref.

Lemma column_NoDup k : (k < length ref)%nat -> NoDup (map (fun p => nth k p 0) F).
Proof using HG.
  intros Hk. apply (NoDup_nth _ (nth k (@nil R) 0)). intros i j Hi Hj E. rewrite map_length in *.
  rewrite !(map_nth (fun p => nth k p 0)) in E.
  destruct (Nat.eq_dec i j); auto. exfalso. apply (proj1 HG j k Hj Hk i Hi); auto.
Qed.

(** directional derivative of the hypervolume *)
Lemma HV_path i phi phi' t0 : (i < length F)%nat -> (1 <= length ref)%nat ->
  lpath (length ref) phi phi' (nth i F []) t0 ->
  is_derive (fun t => HVof (set_at i (phi t) F) ref) t0 (sumn (length ref) (fun k => gradf F ref i k * phi' k)).
Proof using Hr HG Hin.
  intros Hi Hm Hpath.
  destruct (set_at_split i ([] : list R) [] F Hi) as (A & B & E & HA & _).
  set (y := nth i F []) in *.
  assert (Hy : length y = length ref) by (apply Hr, nth_In; auto).
  set (m := length ref) in *.
  assert (Hgen : forall y' : list R, HVof (set_at i y' F) ref =
      hv m (co ref) (map co (A ++ B)) + exc m (co ref) (map co (A ++ B)) (co y')).
  { intros y'. assert (Hs : set_at i y' F = A ++ y' :: B).
    { rewrite E at 1. rewrite <- HA. clear. induction A; simpl; auto. f_equal; auto. }
    rewrite Hs, <- hv_exc. fold m. apply hv_perm. rewrite <- (map_cons co). apply Permutation_map.
    symmetry. apply Permutation_middle. }
  assert (HAB : forall p, In p (A ++ B) -> In p F) by (intros p Hp; rewrite E; apply in_app_or in Hp; apply in_or_app; simpl; tauto).
  assert (Hfull : forall k, (k < m)%nat -> NoDup (map (fun p => nth k p 0) A ++ nth k y 0 :: map (fun p => nth k p 0) B)).
  { intros k Hk. pose proof (column_NoDup k Hk) as Hn. rewrite E, map_app in Hn. exact Hn. }
  destruct (exc_path m (co ref) (map co (A ++ B))) with (q := co y) as (L & HL).
  - intros k Hk. specialize (Hfull k Hk). apply NoDup_remove_1 in Hfull. rewrite <- map_app in Hfull.
    rewrite map_map. exact Hfull.
  - intros p k Hp Hk. apply in_map_iff in Hp as (p0 & <- & Hp). apply HAB in Hp.
    apply In_nth with (d := []) in Hp as (j & Hj & <-). apply Hin; auto.
  - intros k Hk. apply Hin; auto.
  - intros p k Hp Hk E'. apply in_map_iff in Hp as (p0 & <- & Hp). specialize (Hfull k Hk). apply NoDup_remove_2 in Hfull.
    apply Hfull. rewrite <- map_app. apply in_map_iff. exists p0. split; auto.
  - assert (HP : forall phi phi' t0, lpath m phi phi' y t0 ->
      is_derive (fun t => HVof (set_at i (phi t) F) ref) t0 (sumn m (fun k => L k * phi' k))).
    { intros f f' s Hf. apply (is_derive_ext (fun t => plus (hv m (co ref) (map co (A ++ B))) (exc m (co ref) (map co (A ++ B)) (co (f t))))).
      - intros t. rewrite Hgen. reflexivity.
      - rewrite <- (Rplus_0_l (sumn _ _)). apply @is_derive_plus; [apply @is_derive_const|].
        apply HL. apply lpath_path; auto. }
    replace (sumn m (fun k => gradf F ref i k * phi' k)) with (sumn m (fun k => L k * phi' k)); [apply HP; auto|].
    apply sumn_ext. intros k Hk. f_equal.
    pose proof (HP _ _ _ (coord_lpath m y k Hy Hk)) as Hk1. cbv beta in Hk1. rewrite (sumn_pick m k L) in Hk1 by auto.
    assert (Hpart : is_partial F ref i k (gradf F ref i k)).
    { apply slope_partial; auto. apply two_sided_slope; auto. apply (proj1 HG); auto. }
    specialize (Hpart (fun t => HVof (set_coord F i k t) ref)
      ltac:(intros t; apply hv_is_hypervolume, rows_set_coord; auto)).
    apply is_derive_unique in Hk1. apply is_derive_unique in Hpart.
    rewrite <- Hk1, <- Hpart. reflexivity.
Qed.

(** directional derivative of a gradient component *)
Hypothesis Hd : length ref = S (S d).

Lemma locally_forall {A} (ix : list A) (P : A -> R -> Prop) t0 :
  (forall a, In a ix -> locally t0 (P a)) -> locally t0 (fun t => forall a, In a ix -> P a t).
Proof using All.
  induction ix as [|a ix IH]; intros H.
  - apply filter_forall. intros t a [].
  - assert (H1 : locally t0 (P a)) by (apply H; simpl; auto).
    assert (H2 : locally t0 (fun t => forall a, In a ix -> P a t)) by (apply IH; intros; apply H; simpl; auto).
    generalize (filter_and _ _ H1 H2). apply filter_imp. clear H1 H2. intros t [H1 H2] b [<-|Hb]; auto.
Qed.

Lemma coord_path j y a c : (j < length F)%nat -> coord (set_at j y F) a c = if (a =? j)%nat then nth c y 0 else coord F a c.
Proof using All. intros Hj. unfold coord. rewrite nth_set_at by auto. destruct (a =? j)%nat; auto. Qed.

Lemma idxlt_path i k j phi phi' t0 : (i < length F)%nat -> (k < length ref)%nat -> (j < length F)%nat ->
  lpath (length ref) phi phi' (nth j F []) t0 ->
  locally t0 (fun t => idxlt (set_at j (phi t) F) i k = idxlt F i k).
Proof using All.
  intros Hi Hk Hj (P1 & P2 & P3).
  pose proof (derive_continuous _ _ _ (P3 k Hk)) as Hc.
  assert (Hloc : locally t0 (fun t => forall a, In a (seq 0 (length F)) -> a <> j ->
    (coord F a k < coord F j k /\ coord F a k < nth k (phi t) 0) \/ (coord F j k < coord F a k /\ nth k (phi t) 0 < coord F a k))).
  { apply (locally_forall (seq 0 (length F)) (fun a t => a <> j ->
    (coord F a k < coord F j k /\ coord F a k < nth k (phi t) 0) \/ (coord F j k < coord F a k /\ nth k (phi t) 0 < coord F a k))).
    intros a Ha. apply in_seq in Ha. destruct (Nat.eq_dec a j) as [->|Hne].
    - apply filter_forall. congruence.
    - pose proof (proj1 HG j k Hj Hk a ltac:(lia) Hne) as Hx.
      assert (E0 : nth k (phi t0) 0 = coord F j k) by (apply P2; auto).
      destruct (Rlt_dec (coord F a k) (coord F j k)) as [Hl|Hl].
      + generalize (locally_gt _ t0 (coord F a k) Hc ltac:(cbv beta; rewrite E0; auto)). apply filter_imp. intros; left; auto.
      + generalize (locally_lt _ t0 (coord F a k) Hc ltac:(cbv beta; rewrite E0; lra)). apply filter_imp. intros; right; split; auto; lra. }
  revert Hloc. apply filter_imp. intros t Ht. unfold idxlt. rewrite set_at_length. apply filter_ext_in. intros a Ha.
  rewrite !coord_path by auto.
  assert (Hb : forall x y x' y', (x < y <-> x' < y') -> ltb x y = ltb x' y').
  { intros x y x' y' Hxy. apply eq_true_iff_eq. rewrite !ltb_true. exact Hxy. }
  destruct (Nat.eqb_spec a j) as [->|Haj], (Nat.eqb_spec i j) as [->|Hij]; auto; apply Hb.
  - split; intros; lra.
  - specialize (Ht i ltac:(apply in_seq; lia) Hij). split; intros; lra.
  - specialize (Ht a Ha Haj). split; intros; lra.
Qed.

Lemma sumn_drop n k (L f : nat -> R) : (k <= n)%nat ->
  sumn (S n) (fun l => (if (l =? k)%nat then 0 else L (un k l)) * f l) = sumn n (fun l => L l * drop k f l).
Proof using All.
  intros Hk. replace (S n) with (k + S (n - k))%nat by lia. replace n with (k + (n - k))%nat at 2 by lia.
  rewrite !sumn_add. f_equal.
  - apply sumn_ext. intros l Hl. unfold un, drop. destruct (Nat.eqb_spec l k); [lia|].
    destruct (Nat.ltb_spec l k); [auto|lia].
  - replace (S (n - k)) with (1 + (n - k))%nat by lia. rewrite sumn_add. simpl sumn at 1.
    rewrite Nat.add_0_r, Nat.eqb_refl. rewrite Rplus_0_l, Rmult_0_l, Rplus_0_l. apply sumn_ext. intros l Hl.
    unfold un, drop. destruct (Nat.eqb_spec (k + (1 + l)) k); [lia|].
    destruct (Nat.ltb_spec (k + (1 + l)) k); [lia|]. destruct (Nat.ltb_spec (k + l) k); [lia|].
    f_equal; f_equal; lia.
Qed.

Lemma drop_path m k phi phi' y t0 : (k <= m)%nat -> lpath (S m) phi phi' y t0 ->
  path_at m (fun t => drop k (co (phi t))) (drop k phi') (drop k (co y)) t0.
Proof using All.
  intros Hk (P1 & P2 & P3). split; intros l Hl; unfold drop; destruct (l <? k)%nat; (apply P2 || apply P3); lia.
Qed.

Lemma pk_NoDup k ix l : (k < length ref)%nat -> (l < S d)%nat -> NoDup ix -> (forall a, In a ix -> (a < length F)%nat) ->
  NoDup (map (fun p : pt => p l) (map (pk F k) ix)).
Proof using All.
  intros Hk Hl Hn Hix. rewrite map_map.
  assert (Hinj : forall a b, In a ix -> In b ix -> pk F k a l = pk F k b l -> a = b).
  { intros a b Ha Hb E. destruct (Nat.eq_dec a b); auto. exfalso. unfold pk, drop in E.
    destruct (l <? k)%nat eqn:El.
    - refine (proj1 HG b l (Hix b Hb) _ a (Hix a Ha) _ E); lia.
    - refine (proj1 HG b (S l) (Hix b Hb) _ a (Hix a Ha) _ E); lia. }
  clear -Hn Hinj. induction ix as [|a ix IH]; simpl; constructor.
  - inversion Hn; subst. intros Hc. apply in_map_iff in Hc as (b & E & Hb). apply H1.
    rewrite <- (Hinj b a); simpl; auto.
  - inversion Hn; subst. apply IH; auto. intros; apply Hinj; simpl; auto.
Qed.
Lemma pk_in k a l : (k < length ref)%nat -> (l < S d)%nat -> (a < length F)%nat -> pk F k a l < drop k (co ref) l.
Proof using All. intros. unfold pk, drop. destruct (l <? k)%nat; apply Hin; auto; lia. Qed.
Lemma pk_ne k a b l : (k < length ref)%nat -> (l < S d)%nat -> (a < length F)%nat -> (b < length F)%nat -> a <> b -> pk F k a l <> pk F k b l.
Proof using All. intros. unfold pk, drop. destruct (l <? k)%nat; apply (proj1 HG b); auto; lia. Qed.

Lemma grad_path_L i k j : (i < length F)%nat -> (k < length ref)%nat -> (j < length F)%nat ->
  exists L, forall phi phi' t0, lpath (length ref) phi phi' (nth j F []) t0 ->
    is_derive (fun t => gradf (set_at j (phi t) F) ref i k) t0 (sumn (length ref) (fun l => L l * phi' l)).
Proof using All.
  intros Hi Hk Hj.
  assert (Hred : forall phi phi' t0, lpath (length ref) phi phi' (nth j F []) t0 ->
    locally t0 (fun t => gradf (set_at j (phi t) F) ref i k =
      - exc (S d) (drop k (co ref)) (map (pk (set_at j (phi t) F) k) (idxlt F i k)) (pk (set_at j (phi t) F) k i))).
  { intros phi phi' t0 Hp. generalize (idxlt_path i k j phi phi' t0 Hi Hk Hj Hp). apply filter_imp. intros t Ht.
    rewrite gradf_idx, Hd, Ht. reflexivity. }
  assert (Hpk : forall y a, pk (set_at j y F) k a = if (a =? j)%nat then drop k (co y) else pk F k a).
  { intros y a. unfold pk. rewrite nth_set_at by auto. destruct (a =? j)%nat; auto. }
  assert (Hsame : forall y ix, (forall a, In a ix -> a <> j) -> map (pk (set_at j y F) k) ix = map (pk F k) ix).
  { intros y ix Hix. apply map_ext_in. intros a Ha. rewrite Hpk. destruct (Nat.eqb_spec a j); auto. exfalso; apply (Hix a); auto. }
  assert (Hixlt : forall a, In a (idxlt F i k) -> (a < length F)%nat) by (intros a Ha; apply idxlt_In in Ha; apply Ha).
  assert (Hnoi : ~ In i (idxlt F i k)) by (rewrite idxlt_In; intros [_ Hc]; lra).
  assert (Hlift : forall L : nat -> R, (forall phi phi' t0, lpath (length ref) phi phi' (nth j F []) t0 ->
      is_derive (fun t => gradf (set_at j (phi t) F) ref i k) t0 (sumn (S d) (fun l => L l * drop k phi' l))) ->
      exists L, forall phi phi' t0, lpath (length ref) phi phi' (nth j F []) t0 ->
        is_derive (fun t => gradf (set_at j (phi t) F) ref i k) t0 (sumn (length ref) (fun l => L l * phi' l))).
  { intros L HL. exists (fun l => if (l =? k)%nat then 0 else L (un k l)). intros phi phi' t0 Hp.
    rewrite Hd. rewrite sumn_drop by lia. apply HL; auto. }
  destruct (Nat.eq_dec j i) as [->|Hji].
  - destruct (exc_path (S d) (drop k (co ref)) (map (pk F k) (idxlt F i k))) with (q := pk F k i) as (L & HL).
    + intros l Hl. apply pk_NoDup; auto. apply idxlt_NoDup.
    + intros p l Hp Hl. apply in_map_iff in Hp as (a & <- & Ha). apply pk_in; auto.
    + intros l Hl. apply pk_in; auto.
    + intros p l Hp Hl. apply in_map_iff in Hp as (a & <- & Ha). apply pk_ne; auto. intros ->; auto.
    + apply (Hlift (fun l => - L l)). intros phi phi' t0 Hp.
      apply (is_derive_ext_loc (fun t => opp (exc (S d) (drop k (co ref)) (map (pk F k) (idxlt F i k)) (drop k (co (phi t)))))).
      * generalize (Hred _ _ _ Hp). apply filter_imp. intros t Ht. rewrite Ht. rewrite Hsame by (intros a Ha ->; auto).
        rewrite Hpk, Nat.eqb_refl. reflexivity.
      * replace (sumn (S d) _) with (opp (sumn (S d) (fun l => L l * drop k phi' l))).
        -- apply @is_derive_opp. apply HL. rewrite Hd in Hp. apply (drop_path (S d)); auto. lia.
        -- unfold opp; simpl opp. rewrite <- (Rmult_1_l (sumn _ _)) at 1. change (Ropp (1 * sumn (S d) (fun l => L l * drop k phi' l)) = sumn (S d) (fun l => - L l * drop k phi' l)).
           replace (- (1 * sumn (S d) (fun l => L l * drop k phi' l))) with ((-1) * sumn (S d) (fun l => L l * drop k phi' l)) by ring.
           rewrite <- sumn_scal. apply sumn_ext. intros; ring.
  - destruct (in_dec Nat.eq_dec j (idxlt F i k)) as [Hjin|Hjout].
    + destruct (in_split _ _ Hjin) as (A & B & Esp). pose proof (idxlt_NoDup F i k) as Hnd0. rewrite Esp in Hnd0.
      assert (HndAB : NoDup (A ++ B)) by (apply NoDup_remove_1 in Hnd0; auto).
      apply NoDup_remove_2 in Hnd0.
      assert (HAB : forall a, In a (A ++ B) -> In a (idxlt F i k)) by (intros a Ha; rewrite Esp; apply in_app_or in Ha; apply in_or_app; simpl; tauto).
      assert (Hnin : forall a, In a (A ++ B) -> a <> j) by (intros a Ha ->; auto).
      set (P := map (pk F k) (A ++ B)). set (q := pk F k i).
      destruct (exc_path (S d) (drop k (co ref)) P) with (q := pjoin q (pk F k j)) as (L & HL).
      * intros l Hl. apply pk_NoDup; auto.
      * intros p l Hp Hl. apply in_map_iff in Hp as (a & <- & Ha). apply pk_in; auto.
      * intros l Hl. unfold pjoin. apply Rmax_lub_lt; apply pk_in; auto.
      * intros p l Hp Hl. apply in_map_iff in Hp as (a & <- & Ha). unfold pjoin.
        assert (a <> i) by (intros ->; apply Hnoi; auto).
        destruct (Rle_dec (q l) (pk F k j l)); [rewrite Rmax_right by auto|rewrite Rmax_left by lra; unfold q]; apply pk_ne; auto.
      * apply (Hlift (fun l => if ltb (q l) (pk F k j l) then L l else 0)). intros phi phi' t0 Hp.
        apply (is_derive_ext_loc (fun t => minus (exc (S d) (drop k (co ref)) P (pjoin q (drop k (co (phi t))))) (exc (S d) (drop k (co ref)) P q))).
        -- generalize (Hred _ _ _ Hp). apply filter_imp. intros t Ht. rewrite Ht.
           rewrite Hpk. destruct (Nat.eqb_spec i j); [congruence|]. fold q.
           rewrite (exc_perm _ _ (map (pk (set_at j (phi t) F) k) (idxlt F i k)) (map (pk (set_at j (phi t) F) k) (j :: A ++ B))).
           2:{ apply Permutation_map. rewrite Esp. symmetry. apply Permutation_middle. }
           simpl map. rewrite exc_cons, Hsame by auto. fold P. rewrite Hpk, Nat.eqb_refl.
           rewrite (exc_ext_q _ _ P (pjoin (drop k (co (phi t))) q) (pjoin q (drop k (co (phi t))))) by (intros; apply Rmax_comm).
           unfold minus, plus, opp; simpl. ring.
        -- rewrite Hd in Hp. pose proof (drop_path (S d) k phi phi' _ t0 ltac:(lia) Hp) as [D1 D2].
           replace (sumn (S d) _) with (minus (sumn (S d) (fun l => L l * (if ltb (q l) (pk F k j l) then drop k phi' l else 0))) 0).
           2:{ unfold minus, plus, opp. change (sumn (S d) (fun l => L l * (if ltb (q l) (pk F k j l) then drop k phi' l else 0)) + - 0 = sumn (S d) (fun l => (if ltb (q l) (pk F k j l) then L l else 0) * drop k phi' l)).
               rewrite Ropp_0, Rplus_0_r. apply sumn_ext. intros l Hl. destruct (ltb _ _); ring. }
           apply @is_derive_minus; [|apply @is_derive_const].
           apply (HL (fun t => pjoin q (drop k (co (phi t)))) (fun l => if ltb (q l) (pk F k j l) then drop k phi' l else 0)).
           split.
           ++ intros l Hl. unfold pjoin. f_equal. apply D1; auto.
           ++ intros l Hl. unfold pjoin. specialize (D2 l Hl). pose proof (derive_continuous _ _ _ D2) as Hc.
              destruct (ltb (q l) (pk F k j l)) eqn:El.
              ** apply ltb_true in El. apply (is_derive_ext_loc (fun t => drop k (co (phi t)) l)); auto.
                 generalize (locally_gt _ t0 (q l) Hc ltac:(cbv beta; rewrite D1; auto)). apply filter_imp.
                 intros t Ht. symmetry. apply Rmax_right. lra.
              ** assert (Hgt : pk F k j l < q l).
                 { assert (Hne : pk F k j l <> q l) by (apply pk_ne; auto).
                   destruct (Rlt_dec (q l) (pk F k j l)) as [Hl'|]; [|lra]. apply ltb_true in Hl'. congruence. }
                 apply (is_derive_ext_loc (fun t => q l)); [|apply @is_derive_const].
                 generalize (locally_lt _ t0 (q l) Hc ltac:(cbv beta; rewrite D1; auto)). apply filter_imp.
                 intros t Ht. symmetry. apply Rmax_left. lra.
    + apply (Hlift (fun _ => 0)). intros phi phi' t0 Hp.
      apply (is_derive_ext_loc (fun t => - exc (S d) (drop k (co ref)) (map (pk F k) (idxlt F i k)) (pk F k i))).
      * generalize (Hred _ _ _ Hp). apply filter_imp. intros t Ht. rewrite Ht. rewrite Hsame by (intros a Ha ->; auto).
        rewrite Hpk. destruct (Nat.eqb_spec i j); [congruence|]. reflexivity.
      * rewrite sumn_zero by (intros; ring). apply @is_derive_const.
Qed.

Lemma grad_path i k j phi phi' t0 : (i < length F)%nat -> (k < length ref)%nat -> (j < length F)%nat ->
  lpath (length ref) phi phi' (nth j F []) t0 ->
  is_derive (fun t => gradf (set_at j (phi t) F) ref i k) t0 (sumn (length ref) (fun l => hessf F ref d i k j l * phi' l)).
Proof using All.
  intros Hi Hk Hj Hp. destruct (grad_path_L i k j Hi Hk Hj) as (L & HL).
  replace (sumn _ _) with (sumn (length ref) (fun l => L l * phi' l)); [apply HL; auto|].
  apply sumn_ext. intros l Hl. f_equal.
  assert (Hy : length (nth j F []) = length ref) by (apply Hr, nth_In; auto).
  pose proof (HL _ _ _ (coord_lpath (length ref) (nth j F []) l Hy Hl)) as H1. cbv beta in H1.
  rewrite (sumn_pick (length ref) l L) in H1 by auto.
  destruct (hess_affine F ref d Hr Hd HG Hin i k j l Hi Hk Hj Hl) as (e & He & Ha).
  assert (H2 : is_derive (fun t => gradf (set_at j (set_at l t (nth j F [])) F) ref i k) (nth l (nth j F []) 0) (hessf F ref d i k j l)).
  { apply (is_derive_ext_loc (fun t => gradf F ref i k + hessf F ref d i k j l * (t - coord F j l))).
    - exists (mkposreal e He). intros t Ht. symmetry. apply Ha.
      unfold ball in Ht; simpl in Ht. unfold AbsRing_ball, abs, minus, plus, opp in Ht; simpl in Ht.
      apply Rabs_lt_between in Ht. unfold coord. lra.
    - auto_derive; auto. ring. }
  apply is_derive_unique in H1. apply is_derive_unique in H2. rewrite <- H1, <- H2. reflexivity.
Qed.

End Path.
