(** Linear algebra of the Newton step: block matrices, packing, masks. *)
From Coq Require Import List Arith Bool Reals Lia Lra.
From Verif Require Import Num Exn ListAux MiscModel MiscProof StateModel NewtonModel RefModel RefProof HVXModel HVXProof StepModel StepSpec.
Import ListNotations.
Open Scope R_scope.

(** * vectors *)
Lemma zip_with_length {A B C} (f : A -> B -> C) l l' : length (zip_with f l l') = Nat.min (length l) (length l').
Proof. revert l'. induction l as [|a l IH]; intros [|b l']; simpl; auto. Qed.
Lemma zip_with_nth {A B C} (f : A -> B -> C) l l' i da db dc : (i < length l)%nat -> (i < length l')%nat ->
  nth i (zip_with f l l') dc = f (nth i l da) (nth i l' db).
Proof. revert l' i. induction l as [|a l IH]; intros [|b l'] [|i] H H'; simpl in *; try lia; auto. apply IH; lia. Qed.
Lemma zip_with_app {A B C} (f : A -> B -> C) l1 l2 m1 m2 : length l1 = length m1 ->
  zip_with f (l1 ++ l2) (m1 ++ m2) = zip_with f l1 m1 ++ zip_with f l2 m2.
Proof. revert m1. induction l1 as [|a l1 IH]; intros [|b m1] H; simpl in *; try lia; auto. f_equal. apply IH. lia. Qed.
Lemma zip_with_map {A B C D E} (f : C -> D -> E) (g : A -> C) (h : B -> D) l l' :
  zip_with f (map g l) (map h l') = zip_with (fun a b => f (g a) (h b)) l l'.
Proof. revert l'. induction l as [|a l IH]; intros [|b l']; simpl; auto. f_equal. auto. Qed.
Lemma zip_with_map_r {A B C D} (f : A -> C -> D) (h : B -> C) l l' :
  zip_with f l (map h l') = zip_with (fun a b => f a (h b)) l l'.
Proof. revert l'. induction l as [|a l IH]; intros [|b l']; simpl; auto. f_equal. auto. Qed.

Lemma dotR_cons a u b v : dotR (a :: u) (b :: v) = a * b + dotR u v.
Proof. reflexivity. Qed.
Lemma dotR_nil_l v : dotR [] v = 0. Proof. destruct v; reflexivity. Qed.
Lemma dotR_nil_r u : dotR u [] = 0. Proof. destruct u; reflexivity. Qed.
Lemma dotR_app u1 u2 x1 x2 : length u1 = length x1 -> dotR (u1 ++ u2) (x1 ++ x2) = dotR u1 x1 + dotR u2 x2.
Proof.
  revert x1. induction u1 as [|a u1 IH]; intros [|b x1] H; simpl in H; try lia; cbn [app].
  - rewrite dotR_nil_l. ring.
  - rewrite !dotR_cons, IH by lia. ring.
Qed.
Lemma dotR_zeros n x : dotR (repeat 0 n) x = 0.
Proof. revert x. induction n as [|n IH]; intros [|b x]; cbn [repeat]; rewrite ?dotR_nil_l, ?dotR_nil_r; auto. rewrite dotR_cons, IH. ring. Qed.
Lemma dotR_comm u v : dotR u v = dotR v u.
Proof. revert v. induction u as [|a u IH]; intros [|b v]; rewrite ?dotR_nil_l, ?dotR_nil_r; auto. rewrite !dotR_cons, IH. ring. Qed.
Lemma dotR_opp u v : dotR u (map Ropp v) = - dotR u v.
Proof. revert v. induction u as [|a u IH]; intros [|b v]; cbn [map]; rewrite ?dotR_nil_l, ?dotR_nil_r; try lra. rewrite !dotR_cons, IH. ring. Qed.
Lemma dotR_plus_l u w v : length u = length w -> dotR (zip_with Rplus u w) v = dotR u v + dotR w v.
Proof.
  revert w v. induction u as [|a u IH]; intros [|c w] [|b v] H; simpl in H; try lia; cbn [zip_with]; rewrite ?dotR_nil_l, ?dotR_nil_r; try lra.
  rewrite !dotR_cons, IH by lia. ring.
Qed.
Lemma sumn_S n f : sumn (S n) f = sumn n f + f n.
Proof. reflexivity. Qed.
Lemma sumn_first n f : sumn (S n) f = f 0%nat + sumn n (fun i => f (S i)).
Proof. change (S n) with (1 + n)%nat. rewrite sumn_add. simpl. ring. Qed.
Lemma dotR_sumn n u v : length u = n -> length v = n -> dotR u v = sumn n (fun i => nth i u 0 * nth i v 0).
Proof.
  revert u v. induction n as [|n IH]; intros [|a u] [|b v] Hu Hv; simpl in Hu, Hv; try lia.
  - reflexivity.
  - rewrite sumn_first, dotR_cons, (IH u v) by lia. reflexivity.
Qed.

(** * matrix times vector *)
Lemma mv_length A x : length (mv A x) = length A. Proof. apply map_length. Qed.
Lemma mv_app A B x : mv (A ++ B) x = mv A x ++ mv B x. Proof. apply map_app. Qed.
Lemma mv_opp A x : mv A (map Ropp x) = map Ropp (mv A x).
Proof. unfold mv. rewrite map_map. apply map_ext. intros r. apply dotR_opp. Qed.
Lemma mv_nth A x i : (i < length A)%nat -> nth i (mv A x) 0 = dotR (nth i A []) x.
Proof. intros H. unfold mv. rewrite (nth_map_default _ _ _ []) by auto. reflexivity. Qed.
Lemma mv_hcat A B x y : length A = length B -> (forall r, In r A -> length r = length x) ->
  mv (zip_with (@app R) A B) (x ++ y) = zip_with Rplus (mv A x) (mv B y).
Proof.
  revert B. induction A as [|r A IH]; intros [|s B] H Hr; simpl in *; try lia; auto.
  rewrite dotR_app by auto. f_equal. apply IH; auto.
Qed.
Lemma mv_madd A B x w : length A = length B -> (forall r, In r A -> length r = w) -> (forall r, In r B -> length r = w) ->
  exists C, madd A B = Ok C /\ (length C = length A /\ forall r, In r C -> length r = w) /\ mv C x = zip_with Rplus (mv A x) (mv B x).
Proof.
  intros H HA HB. unfold madd. rewrite H, Nat.eqb_refl. revert B H HB. induction A as [|r A IH]; intros [|s B] H HB; simpl in H; try lia.
  - exists []. split; [reflexivity|]. split; [split; [reflexivity|]|reflexivity]. intros t Ht. destruct Ht.
  - assert (Hr : length r = w) by (apply HA; simpl; auto). assert (Hs : length s = w) by (apply HB; simpl; auto).
    destruct IH with (B := B) as (C & E & (HC1 & HC2) & HC3); [intros; apply HA; simpl; auto|lia|intros; apply HB; simpl; auto|].
    cbn [combine RefModel.mapM fst snd]. unfold vadd at 1. rewrite Hr, Hs, Nat.eqb_refl.
    cbn [bind]. rewrite E. cbn [bind]. exists (zip_with Rplus r s :: C). split; auto. split; [split|].
    + simpl. lia.
    + intros t [<-|Ht]; auto. rewrite zip_with_length, Hr, Hs. lia.
    + cbn [mv map zip_with]. change (map (fun r0 => dotR r0 x)) with (fun M => mv M x). cbv beta. rewrite dotR_plus_l by lia. f_equal. auto.
Qed.
Lemma mv_block_diag d bs xs : length bs = length xs -> (forall b r, In b bs -> In r b -> length r = d) ->
  (forall x, In x xs -> length x = d) -> mv (block_diag d bs) (concat xs) = concat (zip_with mv bs xs).
Proof.
  revert xs. induction bs as [|b bs IH]; intros [|x xs] H Hb Hx; simpl in *; try lia; auto.
  rewrite mv_app. f_equal.
  - unfold mv. rewrite map_map. apply map_ext_in. intros r Hr. rewrite dotR_app, dotR_zeros by (rewrite (Hb b), (Hx x) by auto; auto). ring.
  - rewrite <- IH by eauto. unfold mv. rewrite map_map. apply map_ext_in. intros r Hr.
    rewrite dotR_app, dotR_zeros by (rewrite repeat_length, (Hx x) by auto; auto). ring.
Qed.
Lemma block_diag_width d bs : (forall b r, In b bs -> In r b -> length r = d) ->
  forall r, In r (block_diag d bs) -> length r = (length bs * d)%nat.
Proof.
  induction bs as [|b bs IH]; intros Hb r Hr; simpl in *; [tauto|]. apply in_app_iff in Hr as [Hr|Hr]; apply in_map_iff in Hr as (s & <- & Hs); rewrite app_length, repeat_length.
  - rewrite (Hb b) by auto. lia.
  - rewrite IH by eauto. lia.
Qed.
Lemma block_diag_length d bs : length (block_diag d bs) = length (concat bs).
Proof. induction bs as [|b bs IH]; simpl; auto. rewrite !app_length, !map_length, IH. auto. Qed.

(** * linear combinations of rows *)
Lemma lincomb_length d w rows : length (lincomb d w rows) = d.
Proof. unfold lincomb. rewrite map_length, seq_length. auto. Qed.
Lemma lincomb_nth d w rows a : (a < d)%nat -> nth a (lincomb d w rows) 0 = dotR w (column a rows).
Proof. intros H. unfold lincomb. rewrite (nth_map_default _ _ _ 0%nat) by (rewrite seq_length; auto). rewrite seq_nth by auto. reflexivity. Qed.
Lemma mv_transpose n M y : mv (transpose 0 n M) y = lincomb n y M.
Proof. unfold mv, transpose, lincomb. rewrite map_map. apply map_ext. intros a. apply dotR_comm. Qed.
Lemma dotR_column_app y1 y2 a (M1 M2 : list (list R)) : length y1 = length M1 ->
  dotR (y1 ++ y2) (column a (M1 ++ M2)) = dotR y1 (column a M1) + dotR y2 (column a M2).
Proof. intros H. unfold column. rewrite map_app, dotR_app by (rewrite map_length; auto). reflexivity. Qed.
Lemma column_zero y a (M : list (list R)) : (forall r, In r M -> nth a r 0 = 0) -> dotR y (column a M) = 0.
Proof.
  revert y. induction M as [|r M IH]; intros y H; simpl; [apply dotR_nil_r|]. destruct y as [|b y]; [apply dotR_nil_l|].
  rewrite dotR_cons, IH by (intros; apply H; simpl; auto). rewrite H by (simpl; auto). ring.
Qed.
Lemma nth_repeat0 a n : nth a (repeat 0 n) 0 = 0.
Proof. revert n. induction a as [|a IH]; intros [|n]; simpl; auto. Qed.
Lemma lincomb_block_diag d bs ys : length bs = length ys -> (forall b r, In b bs -> In r b -> length r = d) ->
  (forall i, (i < length bs)%nat -> length (nth i ys []) = length (nth i bs [])) ->
  lincomb (length bs * d) (concat ys) (block_diag d bs) = concat (zip_with (fun b y => lincomb d y b) bs ys).
Proof.
  revert ys. induction bs as [|b bs IH]; intros [|y ys] H Hb Hy; simpl in H; try lia; [reflexivity|].
  cbn [zip_with concat]. assert (Hy0 : length y = length b) by (apply (Hy 0%nat); simpl; lia).
  rewrite <- IH; [|lia|intros; eapply Hb; simpl; eauto|intros i Hi; apply (Hy (S i)); simpl; lia].
  simpl length. replace (S (length bs) * d)%nat with (d + length bs * d)%nat by lia.
  unfold lincomb at 1. rewrite seq_app, map_app. f_equal.
  - apply map_ext_in. intros a Ha. apply in_seq in Ha. cbn [block_diag]. rewrite dotR_column_app by (rewrite map_length; auto).
    rewrite (column_zero _ a (map (fun r => repeat 0 d ++ r) (block_diag d bs))).
    + rewrite Rplus_0_r. f_equal. unfold column. rewrite map_map. apply map_ext_in. intros r Hr. apply app_nth1. rewrite (Hb b) by (simpl; auto). lia.
    + intros r Hr. apply in_map_iff in Hr as (s & <- & Hs). rewrite app_nth1 by (rewrite repeat_length; lia). apply nth_repeat0.
  - unfold lincomb. rewrite <- (Nat.add_0_r d) at 1. simpl. replace (seq (d + 0) (length bs * d)) with (map (fun i => (d + i)%nat) (seq 0 (length bs * d))).
    2:{ clear. generalize (length bs * d)%nat 0%nat. induction n as [|n IHn]; intros k; simpl; auto. f_equal. rewrite IHn. f_equal. lia. }
    rewrite map_map. apply map_ext_in. intros a Ha. apply in_seq in Ha. cbn [block_diag]. rewrite dotR_column_app by (rewrite map_length; auto).
    rewrite (column_zero _ (d + a) (map (fun r => r ++ repeat 0 (length bs * d)) b)).
    + rewrite Rplus_0_l. f_equal. unfold column. rewrite map_map. apply map_ext_in. intros r Hr. rewrite app_nth2 by (rewrite repeat_length; lia).
      rewrite repeat_length. f_equal. lia.
    + intros r Hr. apply in_map_iff in Hr as (s & <- & Hs). rewrite app_nth2 by (rewrite (Hb b) by (simpl; auto); lia). apply nth_repeat0.
Qed.

(** * masks *)
Lemma mask_map {A B} (f : A -> B) m l : mask_row m (map f l) = map f (mask_row m l).
Proof. revert l. induction m as [|[] m IH]; intros [|a l]; simpl; auto. f_equal. auto. Qed.
Lemma mask_in {A} m (l : list A) x : In x (mask_row m l) -> In x l.
Proof. revert l. induction m as [|[] m IH]; intros [|a l]; simpl; auto; try tauto. intros H. destruct H as [H|H]; auto. Qed.
Lemma mask_eq {A} (da : A) m u v : length u = length m -> length v = length m ->
  mask_row m u = mask_row m v <-> forall k, (k < length m)%nat -> nth k m false = true -> nth k u da = nth k v da.
Proof.
  revert u v. induction m as [|b m IH]; intros [|x u] [|y v] Hu Hv; simpl in *; try lia.
  - split; [intros _ k Hk; lia|auto].
  - split.
    + intros E [|k] Hk Hb; simpl in *.
      * subst b. injection E; auto.
      * destruct b; [injection E; intros E' _|pose proof E as E']; (apply (IH u v); auto; lia).
    + intros H. assert (E : mask_row m u = mask_row m v) by (apply IH; try lia; intros k Hk Hb; apply (H (S k)); auto; lia).
      destruct b; auto. f_equal; auto. apply (H 0%nat); auto; lia.
Qed.
Lemma dotR_mask n m u v : length m = n -> length u = n -> length v = n ->
  dotR (mask_row m u) (mask_row m v) = sumn n (fun k => if nth k m false then nth k u 0 * nth k v 0 else 0).
Proof.
  revert m u v. induction n as [|n IH]; intros [|b m] [|x u] [|y v] Hm Hu Hv; simpl in Hm, Hu, Hv; try lia; [reflexivity|].
  rewrite sumn_first. cbn [mask_row nth]. rewrite <- (IH m u v) by lia. destruct b; [apply dotR_cons|ring].
Qed.
Lemma fill_nth m v k : length v = count_true m -> (k < length m)%nat -> nth k m false = false -> nth k (fill 0 m v) 0 = 0.
Proof.
  revert v k. induction m as [|b m IH]; intros v k Hv Hk Hb; simpl in *; [lia|]. rewrite count_cons in Hv.
  destruct b; destruct k as [|k]; simpl in *; try discriminate.
  - destruct v as [|x v]; simpl in *; [lia|]. apply IH; auto; lia.
  - reflexivity.
  - apply IH; auto; lia.
Qed.

(** * concatenations *)
Lemma nth_concat d (L : list (list R)) i a : (forall r, In r L -> length r = d) -> (i < length L)%nat -> (a < d)%nat ->
  nth (i * d + a) (concat L) 0 = nth a (nth i L []) 0.
Proof.
  revert i. induction L as [|r L IH]; intros i H Hi Ha; simpl in *; [lia|]. assert (Hr : length r = d) by auto. destruct i as [|i].
  - simpl. rewrite app_nth1 by lia. auto.
  - rewrite app_nth2 by lia. replace (S i * d + a - length r)%nat with (i * d + a)%nat by lia. apply IH; auto; lia.
Qed.
Lemma app_inj_len {A} (r s a b : list A) : length r = length s -> r ++ a = s ++ b -> r = s /\ a = b.
Proof. revert s. induction r as [|x r IH]; intros [|y s] H E; simpl in *; try lia; auto. injection E as -> E. destruct (IH s) as [-> ->]; auto. Qed.
Lemma concat_inj {A} (L M : list (list A)) : length L = length M -> (forall i, (i < length L)%nat -> length (nth i L []) = length (nth i M [])) ->
  concat L = concat M -> L = M.
Proof.
  revert M. induction L as [|r L IH]; intros [|s M] H Hl E; simpl in *; try lia; auto.
  assert (H0 : length r = length s) by (apply (Hl 0%nat); lia).
  apply app_inj_len in E; auto. destruct E as [-> E]. f_equal. apply IH; [lia|intros i Hi; apply (Hl (S i)); lia|auto].
Qed.
Lemma sqdist_zero x y : length x = length y -> sqdist x y <= 0 -> x = y.
Proof.
  assert (Hp : forall x y, 0 <= sqdist x y).
  { clear. intros x. unfold sqdist. induction x as [|a x IH]; intros [|b y]; simpl; try lra. specialize (IH y). pose proof (Rle_0_sqr (a - b)) as H. unfold Rsqr in H. lra. }
  revert y. induction x as [|a x IH]; intros [|b y] H Hs; simpl in H; try lia; auto.
  change (sqdist (a :: x) (b :: y)) with ((a - b) * (a - b) + sqdist x y) in Hs. specialize (Hp x y).
  pose proof (Rle_0_sqr (a - b)) as H1. unfold Rsqr in H1. f_equal.
  - assert (E : Rsqr (a - b) = 0) by (unfold Rsqr; lra). apply Rsqr_0_uniq in E. lra.
  - apply IH; [lia|lra].
Qed.
Lemma sqdist_self x : sqdist x x = 0.
Proof. unfold sqdist. induction x as [|a x IH]; simpl; auto. rewrite IH. ring. Qed.
