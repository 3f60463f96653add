(** Derivatives of the inverted generational distance. *)
From Coq Require Import List Arith Bool Reals Lia Lra.
From Coquelicot Require Import Coquelicot.
From Verif Require Import Num Exn ListAux HVDSpec HVDProof NewtonModel NewtonProof HVXModel HVXSpec HVXProof HVChain HVSym HVXTop
  RefModel RefProof RefTop IndSpec IndModel IndProof IndGD.
Import ListNotations.
Open Scope R_scope.

Definition amin (r : list R) (Y : list (list R)) : nat := argminR (map (edist r) Y).
Lemma amin_lt r Y : Y <> [] -> (amin r Y < length Y)%nat.
Proof. intros HY. unfold amin. rewrite <- (map_length (edist r)). apply argminR_lt. destruct Y; simpl; congruence. Qed.
Lemma dmin_amin r Y : Y <> [] -> dmin r Y = edist r (nth (amin r Y) Y []).
Proof. intros HY. unfold dmin. rewrite (nth_map_default (edist r) Y _ []); auto. apply amin_lt; auto. Qed.
Lemma nearest_ix_amin r Y i : nearest_ix r Y i -> amin r Y = i.
Proof.
  intros [Hi Hn]. assert (HY : Y <> []) by (destruct Y; simpl in *; [lia|congruence]). pose proof (amin_lt r Y HY) as Hl.
  destruct (Nat.eq_dec (amin r Y) i) as [|Hne]; auto. specialize (Hn _ Hl Hne).
  pose proof (proj2 (dmin_spec r Y HY) (nth i Y []) (nth_In _ _ Hi)). rewrite (dmin_amin r Y HY) in H. lra.
Qed.
Lemma sumR_derive {A} (l : list A) (g : A -> R -> R) (g' : A -> R) t0 :
  (forall a, In a l -> is_derive (g a) t0 (g' a)) -> is_derive (fun t : R => sumR (map (fun a => g a t) l)) t0 (sumR (map g' l)).
Proof.
  induction l as [|a l IH]; intros H; simpl.
  - apply @is_derive_const.
  - apply @is_derive_plus; [apply H; simpl; auto|apply IH; intros; apply H; simpl; auto].
Qed.
Lemma sumR_ext {A} (l : list A) (g h : A -> R) : (forall a, In a l -> g a = h a) -> sumR (map g l) = sumR (map h l).
Proof. intros H. f_equal. apply map_ext_in. auto. Qed.
Lemma sumR_scal {A} (l : list A) c (g : A -> R) : sumR (map (fun a => c * g a) l) = c * sumR (map g l).
Proof. induction l as [|a l IH]; simpl; [ring|]. rewrite IH. ring. Qed.
Lemma sumR_sumn {A} (l : list A) m (g : A -> nat -> R) : sumR (map (fun r => sumn m (g r)) l) = sumn m (fun a => sumR (map (fun r => g r a) l)).
Proof. induction l as [|a l IH]; simpl; [symmetry; apply sumn_zero; auto|]. rewrite IH, <- sumn_plus. auto. Qed.

Section Obj.
Variables (n m : nat) (f : list R -> list R) (J : list R -> nat -> nat -> R).
Hypothesis Hmaps : maps n m f.
Hypothesis HJ : forall x, length x = n -> jac_at n m f (J x) x.
Variable ref : list (list R).
Hypothesis Href : ref <> [].
Hypothesis Hrows : rows m ref.
Definition I_igd (p : R) : list (list R) -> R -> Prop := fun Y v => mean_dist p ref Y v.
Definition clear_cells (Y : list (list R)) : Prop := forall r, In r ref -> exists j, nearest_ix r Y j.

Lemma nearest_ix_local X i k r j : rows n X -> (i < length X)%nat -> (k < n)%nat -> In r ref -> nearest_ix r (map f X) j ->
  locally (coord X i k) (fun t => nearest_ix r (map f (set_coord X i k t)) j).
Proof using Hmaps HJ Hrows.
  intros HX Hi Hk Hr [Hj Hn]. set (x := nth i X []). assert (Hx : length x = n) by (apply HX, nth_In; auto).
  assert (E0 : set_at k (nth k x 0) x = x) by (apply set_at_same; lia).
  rewrite map_length in Hj.
  assert (Hlen : forall t, length (map f (set_coord X i k t)) = length X) by (intros; rewrite map_length; unfold set_coord; apply set_at_length).
  assert (Hnth : forall (t : R) b, (b < length X)%nat -> nth b (map f (set_coord X i k t)) [] = if (b =? i)%nat then f (set_at k t x) else f (nth b X [])).
  { intros t b Hb. unfold set_coord. rewrite map_set_at, nth_set_at by (rewrite map_length; auto). destruct (b =? i)%nat; auto. apply nth_mapf; auto. }
  assert (Hder : forall b, (b < length X)%nat -> ex_derive (fun t : R => sqd (nth b (map f (set_coord X i k t)) []) r) (coord X i k)).
  { intros b Hb. destruct (Nat.eqb_spec b i) as [->|Hne].
    - exists (2 * inner m (fun t : R => f (set_at k t x)) (fun a => J x a k) (nth k x 0) r).
      apply (is_derive_ext (fun t : R => sqd (f (set_at k t x)) r)). { intros t. rewrite Hnth, Nat.eqb_refl by auto. auto. }
      apply (sqd_derive m (fun t : R => f (set_at k t x)) (fun a => J x a k)); [intros; apply (fset_len n m f Hmaps); auto|auto|]. apply (path_der n m f J HJ); auto.
    - exists 0. apply (is_derive_ext (fun t : R => sqd (f (nth b X [])) r)); [|apply @is_derive_const].
      intros t. rewrite Hnth by auto. destruct (Nat.eqb_spec b i); [congruence|auto]. }
  assert (HL : locally (coord X i k) (fun t => forall b, In b (seq 0 (length X)) -> b <> j -> 
      edist r (nth j (map f (set_coord X i k t)) []) < edist r (nth b (map f (set_coord X i k t)) []))).
  { apply (locally_all (seq 0 (length X)) (fun b (t : R) => b <> j -> edist r (nth j (map f (set_coord X i k t)) []) < edist r (nth b (map f (set_coord X i k t)) []))).
    intros b Hb. apply in_seq in Hb. destruct (Nat.eq_dec b j) as [->|Hbj]; [apply filter_forall; intros; congruence|].
    assert (Hlt : sqd (nth j (map f X) []) r < sqd (nth b (map f X) []) r).
    { rewrite !(sqd_sym _ r). apply edist_lt. apply Hn; [rewrite map_length; lia|auto]. }
    destruct (Hder b ltac:(lia)) as (db & Db). destruct (Hder j Hj) as (dj & Dj).
    pose proof (is_derive_minus _ _ _ _ _ Dj Db) as D. apply derive_continuous in D.
    assert (E1 : map f (set_coord X i k (coord X i k)) = map f X). { unfold set_coord, coord. fold x. rewrite E0. unfold x. rewrite set_at_same by auto. auto. }
    generalize (locally_lt _ _ 0 D ltac:(cbv beta; unfold minus, plus, opp; simpl; rewrite E1; lra)). apply filter_imp. intros t Ht _.
    unfold minus, plus, opp in Ht; simpl in Ht. apply edist_lt. rewrite !(sqd_sym r). lra. }
  revert HL. apply filter_imp. intros t Ht. split; [rewrite Hlen; auto|]. rewrite Hlen. intros b Hb Hbj. apply Ht; auto. apply in_seq. lia.
Qed.
Lemma cells_local X i k : rows n X -> (i < length X)%nat -> (k < n)%nat -> clear_cells (map f X) ->
  locally (coord X i k) (fun t => forall r, In r ref -> nearest_ix r (map f (set_coord X i k t)) (amin r (map f X))).
Proof using Hmaps HJ Hrows.
  intros HX Hi Hk HC. apply (locally_all ref (fun r (t : R) => nearest_ix r (map f (set_coord X i k t)) (amin r (map f X)))).
  intros r Hr. destruct (HC r Hr) as (j & Hj). rewrite (nearest_ix_amin _ _ _ Hj). apply nearest_ix_local; auto.
Qed.

(** the gradient of the squared distances *)
Definition ig (X : list (list R)) (i k : nat) : R :=
  2 / INR (length ref) * sumR (map (fun r => if (amin r (map f X) =? i)%nat then ip m f J (nth i X []) r k else 0) ref).
Lemma igd_partial X i k : rows n X -> (i < length X)%nat -> (k < n)%nat -> clear_cells (map f X) ->
  is_partial_I (I_igd 2) f X i k (ig X i k).
Proof using Hmaps HJ Href Hrows.
  intros HX Hi Hk HC h Hh. set (x := nth i X []) in *. assert (Hx : length x = n) by (apply HX, nth_In; auto).
  assert (E0 : set_at k (nth k x 0) x = x) by (apply set_at_same; lia).
  pose proof (cells_local X i k HX Hi Hk HC) as HL.
  assert (HN : INR (length ref) <> 0) by (apply not_0_INR; destruct ref; simpl; [congruence|lia]).
  assert (HY : forall t : R, map f (set_coord X i k t) <> []). { intros t E. apply (f_equal (@length _)) in E. rewrite map_length in E. unfold set_coord in E. rewrite set_at_length in E. simpl in E. lia. }
  assert (Hval : forall t : R, (forall r, In r ref -> nearest_ix r (map f (set_coord X i k t)) (amin r (map f X))) ->
     / INR (length ref) * sumR (map (fun r => if (amin r (map f X) =? i)%nat then sqd (f (set_at k t x)) r else sqd r (nth (amin r (map f X)) (map f X) [])) ref) = h t).
  { intros t Ht. pose proof (Hh t) as Hv. unfold I_igd in Hv. apply mean_dist_iff in Hv; auto. rewrite Hv.
    unfold Rdiv. rewrite Rmult_comm. f_equal. apply sumR_ext. intros r Hr. specialize (Ht r Hr).
    pose proof (nearest_ix_amin _ _ _ Ht) as Ea. destruct Ht as [Hl _]. rewrite map_length in Hl. unfold set_coord in Hl. rewrite set_at_length in Hl. 
    rewrite dmin_amin by auto. rewrite Ea. rewrite pw_2 by apply edist_nonneg. unfold edist. rewrite sqrt_sqrt by apply sqd_nonneg.
    unfold set_coord. rewrite map_set_at, nth_set_at by (rewrite map_length; auto). fold x. destruct (amin r (map f X) =? i)%nat; auto. apply sqd_sym. }
  apply (is_derive_ext_loc (fun t : R => / INR (length ref) * sumR (map (fun r => if (amin r (map f X) =? i)%nat then sqd (f (set_at k t x)) r else sqd r (nth (amin r (map f X)) (map f X) [])) ref))).
  - revert HL. apply filter_imp. intros t Ht. apply (Hval t Ht).
  - unfold ig. unfold Rdiv. rewrite (Rmult_comm 2), Rmult_assoc. apply @is_derive_scal. rewrite <- sumR_scal.
    apply (sumR_derive ref (fun r (t : R) => if (amin r (map f X) =? i)%nat then sqd (f (set_at k t x)) r else sqd r (nth (amin r (map f X)) (map f X) []))).
    intros r Hr. destruct (amin r (map f X) =? i)%nat.
    + unfold coord. fold x. pose proof (sqd_derive m (fun t : R => f (set_at k t x)) (fun a => J x a k) (nth k x 0) r ltac:(intros; apply (fset_len n m f Hmaps); auto) (Hrows r Hr) (path_der n m f J HJ x k Hx Hk)) as D.
      unfold inner in D. cbv beta in D. rewrite E0 in D. exact D.
    + rewrite Rmult_0_r. apply @is_derive_const.
Qed.
Lemma igd_path_exists p X i k : (i < length X)%nat -> exists h, forall t, I_igd p (map f (set_coord X i k t)) (h t).
Proof using.
  intros Hi. exists (fun t : R => sumR (map (fun y => pw (dmin y (map f (set_coord X i k t))) p) ref) / INR (length ref)).
  intros t. apply mean_dist_iff; auto. intros E. apply (f_equal (@length _)) in E. rewrite map_length in E. unfold set_coord in E. rewrite set_at_length in E. simpl in E. lia.
Qed.
Lemma igd_partial_unique X i k a b : (i < length X)%nat -> is_partial_I (I_igd 2) f X i k a -> is_partial_I (I_igd 2) f X i k b -> a = b.
Proof using. intros Hi Ha Hb. destruct (igd_path_exists 2 X i k Hi) as (h & Hh). pose proof (is_derive_unique _ _ _ (Ha h Hh)). pose proof (is_derive_unique _ _ _ (Hb h Hh)). congruence. Qed.

Variable Hs : list R -> nat -> nat -> nat -> R.
Hypothesis HH : forall x, length x = n -> hess_at n m J (Hs x) x.
Definition ih (X : list (list R)) (i k l : nat) : R :=
  2 / INR (length ref) * sumR (map (fun r => if (amin r (map f X) =? i)%nat then curv m f J Hs (nth i X []) r k l else 0) ref).

Lemma ig_near X i k j l : rows n X -> (i < length X)%nat -> (j < length X)%nat -> (k < n)%nat -> (l < n)%nat -> clear_cells (map f X) ->
  locally (coord X j l) (fun t => is_partial_I (I_igd 2) f (set_coord X j l t) i k
    (2 / INR (length ref) * sumR (map (fun r => if (amin r (map f X) =? i)%nat then ip m f J (nth i (set_coord X j l t) []) r k else 0) ref))).
Proof using Hmaps HJ Href Hrows.
  intros HX Hi Hj Hk Hl HC. pose proof (cells_local X j l HX Hj Hl HC) as HL. revert HL. apply filter_imp. intros t Ht.
  match goal with |- is_partial_I _ _ _ _ _ ?v => replace v with (ig (set_coord X j l t) i k) end.
  - apply igd_partial; auto. apply set_coord_rows; auto. unfold set_coord. rewrite set_at_length. auto. intros r Hr. eauto.
  - unfold ig. f_equal. apply sumR_ext. intros r Hr. rewrite (nearest_ix_amin _ _ _ (Ht r Hr)). auto.
Qed.
Lemma igd_second X i k l : rows n X -> (i < length X)%nat -> (k < n)%nat -> (l < n)%nat -> clear_cells (map f X) ->
  is_second_I (I_igd 2) f X i k i l (ih X i k l).
Proof using Hmaps HJ Href Hrows HH.
  intros HX Hi Hk Hl HC D HD. pose proof (ig_near X i k i l HX Hi Hi Hk Hl HC) as HN. set (x := nth i X []) in *. assert (Hx : length x = n) by (apply HX, nth_In; auto).
  apply (is_derive_ext_loc (fun t : R => 2 / INR (length ref) * sumR (map (fun r => if (amin r (map f X) =? i)%nat then ip m f J (set_at l t x) r k else 0) ref))).
  - generalize (filter_and _ _ HN HD). apply filter_imp. intros t [H1 H2]. assert (Hi' : (i < length (set_coord X i l t))%nat) by (unfold set_coord; rewrite set_at_length; auto).
    rewrite <- (igd_partial_unique _ _ _ _ _ Hi' H1 H2). rewrite set_coord_twice by auto. auto.
  - unfold ih. apply @is_derive_scal. apply (sumR_derive ref (fun r (t : R) => if (amin r (map f X) =? i)%nat then ip m f J (set_at l t x) r k else 0)).
    intros r Hr. destruct (amin r (map f X) =? i)%nat; [|apply @is_derive_const]. unfold coord. fold x. apply (ip_derive n m f J HJ Hs HH); auto.
Qed.
Lemma igd_second_off X i k j l : rows n X -> (i < length X)%nat -> (j < length X)%nat -> i <> j -> (k < n)%nat -> (l < n)%nat -> clear_cells (map f X) ->
  is_second_I (I_igd 2) f X i k j l 0.
Proof using Hmaps HJ Href Hrows.
  intros HX Hi Hj Hij Hk Hl HC D HD. pose proof (ig_near X i k j l HX Hi Hj Hk Hl HC) as HN.
  assert (E : forall t : R, nth i (set_coord X j l t) [] = nth i X []).
  { intros t. unfold set_coord; rewrite nth_set_at by auto; destruct (Nat.eqb_spec i j); [congruence|auto]. }
  apply (is_derive_ext_loc (fun _ : R => ig X i k)); [|apply @is_derive_const].
  generalize (filter_and _ _ HN HD). apply filter_imp. intros t [H1 H2]. assert (Hi' : (i < length (set_coord X j l t))%nat) by (unfold set_coord; rewrite set_at_length; auto).
  rewrite <- (igd_partial_unique _ _ _ _ _ Hi' H1 H2). unfold ig. f_equal. apply sumR_ext. intros r Hr. rewrite E. auto.
Qed.

(** * matching: the matched rows [M] held fixed *)
Section Match.
Variable M : list (list R).
Definition I_match : list (list R) -> R -> Prop := fun Y v => v = sumR (zip_with sqd Y M) / INR (length Y).
Lemma zip_with_set_at {A B C} (g : A -> B -> C) i y l (l' : list B) d : (i < length l')%nat -> zip_with g (set_at i y l) l' = 
  if (i <? length l)%nat then set_at i (g y (nth i l' d)) (zip_with g l l') else zip_with g l l'.
Proof using.
  revert l l'. induction i as [|i IH]; intros [|a l] [|b l'] Hi; simpl in *; try lia; auto. rewrite IH by lia.
  change (S i <? S (length l))%nat with (i <? length l)%nat. destruct (i <? length l)%nat; auto.
Qed.
Lemma sumR_set_at0 i y l : (i < length l)%nat -> sumR (set_at i y l) = sumR l - nth i l 0 + y.
Proof using. revert i. induction l as [|a l IH]; intros [|i] Hi; simpl in *; try lia; [ring|]. rewrite IH by lia. ring. Qed.
Lemma match_partial X i k : rows n X -> rows m M -> length M = length X -> (i < length X)%nat -> (k < n)%nat ->
  is_partial_I I_match f X i k (2 / INR (length X) * ip m f J (nth i X []) (nth i M []) k).
Proof using Hmaps HJ.
  intros HX HM HL Hi Hk h Hh. set (x := nth i X []) in *. assert (Hx : length x = n) by (apply HX, nth_In; auto).
  assert (E0 : set_at k (nth k x 0) x = x) by (apply set_at_same; lia).
  set (C := sumR (zip_with sqd (map f X) M) - sqd (f x) (nth i M [])).
  assert (Hv : forall t : R, h t = / INR (length X) * (C + sqd (f (set_at k t x)) (nth i M []))).
  { intros t. rewrite (Hh t). unfold set_coord. rewrite map_set_at. fold x. rewrite set_at_length, map_length. unfold Rdiv. rewrite Rmult_comm. f_equal.
    rewrite (zip_with_set_at sqd i _ _ M []) by lia. rewrite map_length. assert (El : (i <? length X)%nat = true) by (apply Nat.ltb_lt; auto). rewrite El.
    rewrite sumR_set_at0 by (rewrite zip_with_length by (rewrite map_length; auto); rewrite map_length; auto). unfold C.
    rewrite (zip_with_nth sqd (map f X) M i [] [] 0) by (rewrite ?map_length; lia). rewrite nth_mapf by auto. reflexivity. }
  apply (is_derive_ext (fun t : R => / INR (length X) * (C + sqd (f (set_at k t x)) (nth i M [])))); [intros; symmetry; apply Hv|].
  unfold Rdiv. rewrite (Rmult_comm 2), Rmult_assoc. apply @is_derive_scal. rewrite <- (Rplus_0_l (2 * _)). apply @is_derive_plus; [apply @is_derive_const|].
  unfold coord. fold x. pose proof (sqd_derive m (fun t : R => f (set_at k t x)) (fun a => J x a k) (nth k x 0) (nth i M []) ltac:(intros; apply (fset_len n m f Hmaps); auto) ltac:(apply HM, nth_In; lia) (path_der n m f J HJ x k Hx Hk)) as D.
  unfold inner in D. cbv beta in D. rewrite E0 in D. exact D.
Qed.
Lemma match_second X i k l : rows n X -> rows m M -> length M = length X -> (i < length X)%nat -> (k < n)%nat -> (l < n)%nat ->
  is_second_I I_match f X i k i l (2 / INR (length X) * curv m f J Hs (nth i X []) (nth i M []) k l).
Proof using Hmaps HJ HH.
  intros HX HM HL Hi Hk Hl D HD. set (x := nth i X []) in *. assert (Hx : length x = n) by (apply HX, nth_In; auto).
  apply (is_derive_ext_loc (fun t : R => 2 / INR (length X) * ip m f J (set_at l t x) (nth i M []) k)).
  - revert HD. apply filter_imp. intros t H2.
    assert (Hl' : length (set_coord X i l t) = length X) by (unfold set_coord; rewrite set_at_length; auto).
    pose proof (match_partial (set_coord X i l t) i k (set_coord_rows n X i l t HX Hi) HM ltac:(lia) ltac:(lia) Hk) as H1.
    rewrite set_coord_twice in H1 by auto. rewrite Hl' in H1.
    set (h := fun s : R => sumR (zip_with sqd (map f (set_coord (set_coord X i l t) i k s)) M) / INR (length (map f (set_coord (set_coord X i l t) i k s)))).
    pose proof (is_derive_unique _ _ _ (H1 h ltac:(intros; reflexivity))). pose proof (is_derive_unique _ _ _ (H2 h ltac:(intros; reflexivity))). unfold x. congruence.
  - apply @is_derive_scal. unfold coord. fold x. apply (ip_derive n m f J HJ Hs HH); auto. apply HM, nth_In; lia.
Qed.
End Match.
End Obj.
