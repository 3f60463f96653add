(** Derivatives of the generational distance. *)
From Coq Require Import List Arith Bool Reals Lia Lra.
From Coquelicot Require Import Coquelicot.
From Verif Require Import Num Exn ListAux HVDSpec HVDProof NewtonModel NewtonProof HVXModel HVXSpec HVXProof HVChain HVSym HVXTop
  RefModel RefProof RefTop IndSpec IndModel IndProof.
Import ListNotations.
Open Scope R_scope.

(** the type of the entries is sometimes displayed through Coquelicot's structures *)
Ltac to_R := repeat match goal with |- context [@set_at ?T ?l ?a ?b] =>
  match T with R => fail 1 | _ => change (@set_at T l a b) with (@set_at R l a b) end end.

Lemma nearest_dmin y S r : nearest y S r -> dmin y S = edist y r.
Proof.
  intros [Hr Hn]. symmetry. apply set_dist_dmin; [destruct S; [destruct Hr|congruence]|]. split; eauto.
  intros r' H. destruct (Hn r' H) as [->|]; lra.
Qed.
Lemma nearest_argmin y S r : nearest y S r -> nth (argminR (map (edist y) S)) S [] = r.
Proof.
  intros Hn. pose proof (nearest_dmin _ _ _ Hn) as E. destruct Hn as [Hr Hn].
  assert (HS : S <> []) by (destruct S; [destruct Hr|congruence]).
  assert (Hl : (argminR (map (edist y) S) < length S)%nat).
  { rewrite <- (map_length (edist y)). apply argminR_lt. destruct S; simpl; congruence. }
  unfold dmin in E. rewrite (nth_map_default (edist y) S _ []) in E by auto.
  destruct (Hn (nth (argminR (map (edist y) S)) S []) (nth_In _ _ Hl)); auto. lra.
Qed.
Lemma nearest_local m phi phi' t0 S r : (forall t, length (phi t) = m) -> rows m S ->
  (forall a, (a < m)%nat -> is_derive (fun t : R => nth a (phi t) 0) t0 (phi' a)) ->
  nearest (phi t0) S r -> locally t0 (fun t : R => nearest (phi t) S r).
Proof.
  intros HL HS Hd [Hr Hn].
  assert (HH : locally t0 (fun t : R => forall r', In r' S -> r' = r \/ edist (phi t) r < edist (phi t) r')).
  { apply (locally_all S (fun r' (t : R) => r' = r \/ edist (phi t) r < edist (phi t) r')). intros r' Hr'. destruct (Hn r' Hr') as [->|Hlt].
    - apply filter_forall. auto.
    - apply edist_lt in Hlt.
      pose proof (sqd_derive m phi phi' t0 r HL (HS r Hr) Hd) as D1. pose proof (sqd_derive m phi phi' t0 r' HL (HS r' Hr') Hd) as D2.
      pose proof (is_derive_minus _ _ _ _ _ D1 D2) as D3. apply derive_continuous in D3.
      generalize (locally_lt _ t0 0 D3 ltac:(cbv beta; unfold minus, plus, opp; simpl; lra)). apply filter_imp. intros t Ht. right. apply edist_lt.
      unfold minus, plus, opp in Ht; simpl in Ht. lra. }
  revert HH. apply filter_imp. intros t Ht. split; auto.
Qed.

Lemma npow_sqd y r q : 0 < edist y r -> npow (edist y r) q = Fin (Rpower (sqd y r) (q / 2)).
Proof.
  intros H. unfold npow, reqb. destruct (Req_EM_T (edist y r) 0); [lra|]. f_equal. apply edist_pos in H.
  unfold edist. rewrite <- Rpower_sqrt by auto. rewrite Rpower_mult. f_equal. field.
Qed.

Section Obj.
Variables (n m : nat) (f : list R -> list R) (J : list R -> nat -> nat -> R).
Hypothesis Hmaps : maps n m f.
Hypothesis HJ : forall x, length x = n -> jac_at n m f (J x) x.

Lemma set_coord_rows X i k t : rows n X -> (i < length X)%nat -> rows n (set_coord X i k t).
Proof using.
  intros HX Hi r Hr. unfold set_coord in Hr. apply (In_nth _ _ []) in Hr as (j & Hj & <-). rewrite set_at_length in Hj.
  rewrite nth_set_at by auto. destruct (j =? i)%nat; [rewrite set_at_length|]; apply HX, nth_In; auto.
Qed.
Lemma map_f_rows X : rows n X -> rows m (map f X).
Proof using Hmaps. intros HX r Hr. apply in_map_iff in Hr as (x & <- & Hx). auto. Qed.
Lemma nth_mapf X i : (i < length X)%nat -> nth i (map f X) [] = f (nth i X []).
Proof using. intros Hi. apply (nth_map_default f X i []); auto. Qed.
Lemma fset_len x k t : length x = n -> length (f (set_at k t x)) = m.
Proof using Hmaps. intros. apply Hmaps. rewrite set_at_length. auto. Qed.
Lemma set_at_same {A} k (d : A) x : (k < length x)%nat -> set_at k (nth k x d) x = x.
Proof using. revert k. induction x as [|a x IH]; intros [|k] Hk; simpl in *; try lia; auto. f_equal. apply IH. lia. Qed.
Lemma path_der x k : length x = n -> (k < n)%nat ->
  forall a, (a < m)%nat -> is_derive (fun t : R => nth a (f (set_at k t x)) 0) (nth k x 0) (J x a k).
Proof using HJ. intros Hx Hk a Ha. apply (HJ x Hx); auto. Qed.

Section GD.
Variables (ref : list (list R)) (p : R).
Hypothesis Href : ref <> [].
Hypothesis Hrows : rows m ref.
Hypothesis Hp : 0 < p.
Definition I_gd : list (list R) -> R -> Prop := fun Y v => mean_dist p Y ref v.

Lemma gd_path_value X i k (h : R -> R) : (i < length X)%nat ->
  (forall t, I_gd (map f (set_coord X i k t)) (h t)) ->
  forall t, h t = (sumR (map (fun y => pw (dmin y ref) p) (map f X)) - pw (dmin (f (nth i X [])) ref) p
    + pw (dmin (f (set_at k t (nth i X []))) ref) p) / INR (length X).
Proof using Href.
  intros Hi Hh t. specialize (Hh t). unfold I_gd in Hh. apply mean_dist_iff in Hh; auto. rewrite Hh. unfold set_coord. rewrite map_set_at.
  rewrite set_at_length, map_length. f_equal. rewrite (sumR_set_at _ _ _ _ []) by (rewrite map_length; auto). rewrite nth_mapf by auto. reflexivity.
Qed.
Lemma gd_path_exists X i k : exists h, forall t, I_gd (map f (set_coord X i k t)) (h t).
Proof using Href.
  exists (fun t : R => sumR (map (fun y => pw (dmin y ref) p) (map f (set_coord X i k t))) / INR (length (map f (set_coord X i k t)))).
  intros t. unfold I_gd. apply mean_dist_iff; auto.
Qed.

Definition ip (x : list R) (r : list R) (k : nat) : R := sumn m (fun a => J x a k * (nth a (f x) 0 - nth a r 0)).

Lemma gd_partial X i k r : rows n X -> (i < length X)%nat -> (k < n)%nat -> nearest (f (nth i X [])) ref r ->
  0 < edist (f (nth i X [])) r \/ 2 <= p ->
  exists q, npow (edist (f (nth i X [])) r) (p - 2) = Fin q /\
    is_partial_I I_gd f X i k (p / INR (length X) * q * ip (nth i X []) r k).
Proof using Hmaps HJ Href Hrows Hp.
  intros HX Hi Hk Hn Hc. set (x := nth i X []) in *. assert (Hx : length x = n) by (apply HX, nth_In; auto).
  assert (E0 : set_at k (nth k x 0) x = x) by (apply set_at_same; lia).
  assert (Hr : length r = m) by (apply Hrows, Hn).
  pose proof (pw_derive m (fun t : R => f (set_at k t x)) (fun a => J x a k) (nth k x 0) r ltac:(intros; apply fset_len; auto) Hr (path_der x k Hx Hk) p Hp) as Hpd.
  cbv beta in Hpd. rewrite E0 in Hpd. destruct (Hpd Hc) as (q & Hq & HD). exists q. split; auto.
  intros h Hh. unfold coord. fold x. pose proof (gd_path_value X i k h Hi Hh) as Hv. fold x in Hv.
  assert (HN : INR (length X) <> 0) by (apply not_0_INR; lia).
  set (C := sumR (map (fun y => pw (dmin y ref) p) (map f X)) - pw (dmin (f x) ref) p) in *.
  assert (Hval : forall t : R, nearest (f (set_at k t x)) ref r -> C / INR (length X) + / INR (length X) * pw (edist (f (set_at k t x)) r) p = h t).
  { intros t Ht. rewrite Hv, (nearest_dmin _ _ _ Ht). field. auto. }
  apply (is_derive_ext_loc (fun t : R => plus (C / INR (length X)) (scal (/ INR (length X)) (pw (edist (f (set_at k t x)) r) p)))).
  - assert (HLn : locally (nth k x 0) (fun t : R => nearest (f (set_at k t x)) ref r)).
    { apply (nearest_local m (fun t : R => f (set_at k t x)) (fun a => J x a k)); [intros; apply fset_len; auto|exact Hrows|apply path_der; auto|]. change (nearest (f (set_at k (nth k x 0) x)) ref r). rewrite E0. auto. }
    revert HLn. apply filter_imp. intros t Ht. apply (Hval t Ht).
  - match type of HD with is_derive _ _ ?v => replace (p / INR (length X) * q * ip x r k) with (plus 0 (scal (/ INR (length X)) v)) end.
    + apply @is_derive_plus; [apply @is_derive_const|]. apply @is_derive_scal. exact HD.
    + unfold inner, ip. cbv beta. rewrite E0. unfold plus, scal; simpl; unfold mult; simpl. rewrite Rplus_0_l. unfold Rdiv. ring.
Qed.

Lemma partial_unique X i k a b : (exists h, forall t, I_gd (map f (set_coord X i k t)) (h t)) ->
  is_partial_I I_gd f X i k a -> is_partial_I I_gd f X i k b -> a = b.
Proof using. intros (h & Hh) Ha Hb. pose proof (is_derive_unique _ _ _ (Ha h Hh)). pose proof (is_derive_unique _ _ _ (Hb h Hh)). congruence. Qed.

(** second derivatives in the coordinates of one point *)
Variable Hs : list R -> nat -> nat -> nat -> R.
Hypothesis HH : forall x, length x = n -> hess_at n m J (Hs x) x.

Definition curv (x r : list R) (k l : nat) : R :=
  sumn m (fun a => J x a k * J x a l) + sumn m (fun a => Hs x a k l * (nth a (f x) 0 - nth a r 0)).

Lemma ip_derive x r k l : length x = n -> length r = m -> (k < n)%nat -> (l < n)%nat ->
  is_derive (fun t : R => ip (set_at l t x) r k) (nth l x 0) (curv x r k l).
Proof using HH HJ.
  intros Hx Hr Hk Hl. assert (E0 : set_at l (nth l x 0) x = x) by (apply set_at_same; lia).
  unfold ip, curv. rewrite <- sumn_plus.
  apply (sumn_derive m (fun a (t : R) => J (set_at l t x) a k * (nth a (f (set_at l t x)) 0 - nth a r 0))). intros a Ha.
  destruct (HH x Hx a k l Ha Hk Hl) as [D1 _]. pose proof (path_der x l Hx Hl a Ha) as D2.
  assert (D3 : is_derive (fun t : R => nth a (f (set_at l t x)) 0 - nth a r 0) (nth l x 0) (J x a l)).
  { replace (J x a l) with (minus (J x a l) 0) by (unfold minus, plus, opp; simpl; ring). apply @is_derive_minus; [auto|apply @is_derive_const]. }
  pose proof (is_derive_mult _ _ _ _ _ D1 D3 Rmult_comm) as D4. cbv beta in D4.
  match type of D4 with is_derive _ _ ?v => replace (J x a k * J x a l + _) with v end; [exact D4|].
  to_R. rewrite !E0. unfold plus, mult; simpl. ring.
Qed.

Lemma set_coord_twice X i l t : (i < length X)%nat -> nth i (set_coord X i l t) [] = set_at l t (nth i X []).
Proof using. intros Hi. unfold set_coord. rewrite nth_set_at, Nat.eqb_refl by auto. auto. Qed.

(** the partial derivative near the point *)
Lemma gd_partial_near X i k l r : rows n X -> (i < length X)%nat -> (k < n)%nat -> (l < n)%nat -> nearest (f (nth i X [])) ref r ->
  0 < edist (f (nth i X [])) r \/ p = 2 ->
  locally (coord X i l) (fun t : R => (0 < edist (f (nth i X [])) r -> 0 < edist (f (set_at l t (nth i X []))) r) /\
    exists q, npow (edist (f (set_at l t (nth i X []))) r) (p - 2) = Fin q /\
    is_partial_I I_gd f (set_coord X i l t) i k (p / INR (length X) * q * ip (set_at l t (nth i X [])) r k)).
Proof using Hmaps HJ Href Hrows Hp.
  intros HX Hi Hk Hl Hn Hc. set (x := nth i X []) in *. assert (Hx : length x = n) by (apply HX, nth_In; auto).
  assert (E0 : set_at l (nth l x 0) x = x) by (apply set_at_same; lia). assert (Hr : length r = m) by (apply Hrows, Hn).
  assert (HLn : locally (nth l x 0) (fun t : R => nearest (f (set_at l t x)) ref r)).
  { apply (nearest_local m (fun t : R => f (set_at l t x)) (fun a => J x a l)); [intros; apply fset_len; auto|exact Hrows|apply path_der; auto|]. change (nearest (f (set_at l (nth l x 0) x)) ref r). rewrite E0. auto. }
  assert (HLd : locally (nth l x 0) (fun t : R => 0 < edist (f x) r -> 0 < edist (f (set_at l t x)) r)).
  { destruct (Rlt_dec 0 (edist (f x) r)) as [Hpos|Hz].
    - pose proof (inner_continuous m (fun t : R => f (set_at l t x)) (fun a => J x a l) (nth l x 0) r ltac:(intros; apply fset_len; auto) Hr (path_der x l Hx Hl)) as Hcont.
      generalize (locally_gt _ _ 0 Hcont ltac:(cbv beta; rewrite E0; apply edist_pos; auto)). apply filter_imp. intros t Ht _. apply edist_pos. auto.
    - apply filter_forall. intros; contradiction. }
  unfold coord. fold x. generalize (filter_and _ _ HLn HLd). apply filter_imp. intros t [H1 H2]. split; auto.
  pose proof (set_coord_twice X i l t Hi) as E. fold x in E.
  destruct (gd_partial (set_coord X i l t) i k r) as (q & Hq & HPq).
  - apply set_coord_rows; auto.
  - unfold set_coord. rewrite set_at_length. auto.
  - auto.
  - rewrite E. auto.
  - rewrite E. destruct Hc as [Hc|Hc]; [left; auto|right; lra].
  - rewrite E in Hq, HPq. exists q. split; auto. unfold set_coord at 2 in HPq. rewrite set_at_length in HPq. auto.
Qed.

Lemma gd_second_2 X i k l r : p = 2 -> rows n X -> (i < length X)%nat -> (k < n)%nat -> (l < n)%nat -> nearest (f (nth i X [])) ref r ->
  is_second_I I_gd f X i k i l (p / INR (length X) * curv (nth i X []) r k l).
Proof using Hmaps HJ Href Hrows Hp HH.
  intros Ep HX Hi Hk Hl Hn D HD. set (x := nth i X []) in *. assert (Hx : length x = n) by (apply HX, nth_In; auto).
  pose proof (gd_partial_near X i k l r HX Hi Hk Hl Hn (or_intror Ep)) as HN. fold x in HN.
  apply (is_derive_ext_loc (fun t : R => scal (p / INR (length X)) (ip (set_at l t x) r k))).
  - generalize (filter_and _ _ HN HD). apply filter_imp. intros t [[_ (q & Hq & H1)] H2].
    pose proof (partial_unique _ _ _ _ _ (gd_path_exists _ _ _) H1 H2) as <-.
    assert (Eq : q = 1). { unfold npow, reqb in Hq. rewrite Ep in Hq. replace (2 - 2) with 0 in Hq by ring. destruct (Req_EM_T _ 0) in Hq. destruct (Req_EM_T 0 0) in Hq; [congruence|lra]. 
      injection Hq as <-. unfold Rpower. rewrite Rmult_0_l. apply exp_0. }
    rewrite Eq. unfold scal; simpl; unfold mult; simpl. ring.
  - apply @is_derive_scal. unfold coord. fold x. apply ip_derive; auto. apply Hrows, Hn.
Qed.

Lemma gd_second X i k l r : rows n X -> (i < length X)%nat -> (k < n)%nat -> (l < n)%nat -> nearest (f (nth i X [])) ref r ->
  0 < edist (f (nth i X [])) r ->
  is_second_I I_gd f X i k i l (p / INR (length X) *
    ((p - 2) * Rpower (edist (f (nth i X [])) r) (p - 4) * ip (nth i X []) r k * ip (nth i X []) r l
     + Rpower (edist (f (nth i X [])) r) (p - 2) * curv (nth i X []) r k l)).
Proof using Hmaps HJ Href Hrows Hp HH.
  intros HX Hi Hk Hl Hn Hpos D HD. set (x := nth i X []) in *. assert (Hx : length x = n) by (apply HX, nth_In; auto).
  assert (Hr : length r = m) by (apply Hrows, Hn). assert (E0 : set_at l (nth l x 0) x = x) by (apply set_at_same; lia).
  pose proof (gd_partial_near X i k l r HX Hi Hk Hl Hn (or_introl Hpos)) as HN. fold x in HN.
  pose proof (edist_pos (f x) r) as [Hs1 _]. specialize (Hs1 Hpos).
  pose proof (sqd_derive m (fun t : R => f (set_at l t x)) (fun a => J x a l) (nth l x 0) r ltac:(intros; apply fset_len; auto) Hr (path_der x l Hx Hl)) as DS.
  pose proof (Rpower_derive (nth l x 0) (fun t : R => sqd (f (set_at l t x)) r) _ ((p - 2) / 2) DS ltac:(cbv beta; rewrite E0; auto)) as DP. cbv beta in DP.
  pose proof (ip_derive x r k l Hx Hr Hk Hl) as DI.
  pose proof (is_derive_mult _ _ _ _ _ DP DI Rmult_comm) as DM. cbv beta in DM.
  pose proof (is_derive_scal _ _ (p / INR (length X)) _ DM) as DF.
  apply (is_derive_ext_loc (fun t : R => p / INR (length X) * (Rpower (sqd (f (set_at l t x)) r) ((p - 2) / 2) * ip (set_at l t x) r k))).
  - generalize (filter_and _ _ HN HD). apply filter_imp. intros t [[H0 (q & Hq & H1)] H2].
    pose proof (partial_unique _ _ _ _ _ (gd_path_exists _ _ _) H1 H2) as <-.
    rewrite (npow_sqd _ _ _ (H0 Hpos)) in Hq. injection Hq as Eq. rewrite <- Eq. symmetry. apply Rmult_assoc.
  - unfold coord. fold x. match type of DF with is_derive _ _ ?v => match goal with |- is_derive _ _ ?w => replace w with v; [exact DF|] end end.
    unfold inner. cbv beta. to_R. rewrite !E0. unfold ip, edist. rewrite <- !Rpower_sqrt by auto. rewrite !Rpower_mult.
    replace (/ 2 * (p - 4)) with ((p - 2) / 2 - 1) by field. replace (/ 2 * (p - 2)) with ((p - 2) / 2) by field.
    unfold plus, mult; simpl. field. apply not_0_INR. lia.
Qed.

(** mixed second derivatives in the coordinates of two different points vanish *)
Lemma gd_second_off X i k j l r : rows n X -> (i < length X)%nat -> (j < length X)%nat -> i <> j -> (k < n)%nat -> nearest (f (nth i X [])) ref r ->
  0 < edist (f (nth i X [])) r \/ 2 <= p ->
  is_second_I I_gd f X i k j l 0.
Proof using Hmaps HJ Href Hrows Hp.
  intros HX Hi Hj Hij Hk Hn Hc D HD. 
  apply (is_derive_ext_loc (fun _ => D (coord X j l))); [|apply @is_derive_const].
  assert (HP : forall t, exists q, npow (edist (f (nth i X [])) r) (p - 2) = Fin q /\ is_partial_I I_gd f (set_coord X j l t) i k (p / INR (length X) * q * ip (nth i X []) r k)).
  { intros t. assert (E : nth i (set_coord X j l t) [] = nth i X []) by (unfold set_coord; rewrite nth_set_at by auto; destruct (Nat.eqb_spec i j); [lia|auto]).
    destruct (gd_partial (set_coord X j l t) i k r) as (q & Hq & HPq); rewrite ?E; auto.
    - apply set_coord_rows; auto.
    - unfold set_coord. rewrite set_at_length. auto.
    - rewrite E in Hq, HPq. exists q. split; auto. unfold set_coord at 2 in HPq. rewrite set_at_length in HPq. auto. }
  assert (H0 := locally_singleton _ _ HD). revert HD. apply filter_imp. intros t Ht.
  destruct (HP (coord X j l)) as (q0 & Hq0 & H1). destruct (HP t) as (q1 & Hq1 & H2). assert (q0 = q1) by congruence. subst q1.
  rewrite <- (partial_unique _ _ _ _ _ (gd_path_exists _ _ _) H1 H0). rewrite <- (partial_unique _ _ _ _ _ (gd_path_exists _ _ _) H2 Ht). auto.
Qed.
End GD.
End Obj.
