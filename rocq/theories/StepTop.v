(** The Newton step solves the linearised KKT conditions. *)
From Coq Require Import List Arith Bool Reals Lia Lra.
From Verif Require Import Num Exn ListAux MiscModel MiscProof StateModel NewtonModel RefModel RefProof HVXModel HVXProof StepModel StepSpec StepProof.
Import ListNotations.
Open Scope R_scope.

Definition act_D (p : pt) : list (list R) := mask_row (pt_act p) (pt_D p).
Definition act_w (p : pt) : list R := mask_row (pt_act p) (pt_dual p).
Definition act_v (p : pt) : list R := mask_row (pt_act p) (pt_cval p).
Definition act_B (p : pt) : list (list (list R)) := mask_row (pt_act p) (pt_B p).
Definition gvec (d : nat) (p : pt) : list R := zip_with Rplus (pt_grad p) (lincomb d (act_w p) (act_D p)).

Lemma bmask_ok {A} m (l : list A) : length m = length l -> bmask m l = Ok (mask_row m l).
Proof. intros H. unfold bmask. rewrite H, Nat.eqb_refl. reflexivity. Qed.
Lemma residual_ok d nc p : shaped d nc p -> residual d p = Ok (gvec d p, act_v p, act_D p).
Proof.
  intros (H1 & H2 & H3 & H4 & H5 & H6 & H7). unfold residual. rewrite !bmask_ok by congruence. cbn [bind].
  unfold vadd. rewrite lincomb_length, H1, Nat.eqb_refl. reflexivity.
Qed.
Lemma gvec_length d nc p : shaped d nc p -> length (gvec d p) = d.
Proof. intros H. unfold gvec. rewrite zip_with_length, lincomb_length. destruct H as [-> _]. lia. Qed.
Lemma column_mask a m (M : list (list R)) : column a (mask_row m M) = mask_row m (column a M).
Proof. unfold column. symmetry. apply mask_map. Qed.
Lemma dotR_active d nc p w a : shaped d nc p -> length w = nc ->
  dotR (mask_row (pt_act p) w) (column a (act_D p)) = asum nc p (fun k => nth k w 0 * ent (pt_D p) k a).
Proof.
  intros (H1 & H2 & H3 & H4 & H5 & H6 & H7) Hw. unfold act_D. rewrite column_mask.
  rewrite (dotR_mask nc) by (auto; unfold column; rewrite map_length; auto). apply sumn_ext. intros k Hk. destruct (nth k (pt_act p) false); auto.
  f_equal. unfold column, ent. rewrite (nth_map_default _ _ _ []) by lia. reflexivity.
Qed.
Lemma gvec_nth d nc p a : shaped d nc p -> (a < d)%nat -> nth a (gvec d p) 0 = lagrangian nc p a.
Proof.
  intros H Ha. unfold gvec, lagrangian. rewrite (zip_with_nth _ _ _ _ 0 0) by (rewrite ?lincomb_length; auto; destruct H as [-> _]; auto).
  f_equal. rewrite lincomb_nth by auto. unfold act_w. rewrite (dotR_active d nc); auto. apply H.
Qed.

Lemma mapM_map {A B} (f : A -> res B) (g : A -> B) l : (forall a, In a l -> f a = Ok (g a)) -> RefModel.mapM f l = Ok (map g l).
Proof. induction l as [|a l IH]; intros H; simpl; auto. rewrite H by (simpl; auto). cbn [bind]. rewrite IH by (intros; apply H; simpl; auto). reflexivity. Qed.

Lemma compute_R_ok d nc ps : (forall p, In p ps -> shaped d nc p) ->
  compute_R d nc true ps = Ok (map (fun p => gvec d p ++ fill 0 (pt_act p) (act_v p)) ps, Some (map act_D ps)).
Proof.
  intros H. unfold compute_R.
  assert (E : forallb (fun p => (length (pt_act p) =? nc)%nat) ps = true).
  { apply forallb_forall. intros p Hp. apply Nat.eqb_eq. apply (H p Hp). }
  rewrite E, (mapM_map (residual d) (fun p => (gvec d p, act_v p, act_D p))) by (intros; eapply residual_ok; eauto). cbn [bind].
  f_equal. f_equal.
  - clear. induction ps as [|p ps IH]; simpl; auto. f_equal. auto.
  - rewrite map_map. reflexivity.
Qed.

Lemma nth_error_nth' {A} (l : list A) i x d0 : nth_error l i = Some x -> (i < length l)%nat /\ nth i l d0 = x.
Proof. intros H. split; [apply nth_error_Some; congruence|]. erewrite nth_error_nth; eauto. Qed.

Lemma fill_active m (v : list R) k : length v = length m -> (k < length m)%nat ->
  nth k (fill 0 m (mask_row m v)) 0 = if nth k m false then nth k v 0 else 0.
Proof.
  intros H Hk. rewrite fill_mask by auto. rewrite (nth_map_default _ _ _ (false, 0)) by (rewrite combine_length; lia).
  rewrite combine_nth by auto. reflexivity.
Qed.

(** * R *)
Lemma compute_R_spec d nc ps : (forall p, In p ps -> shaped d nc p) ->
  exists Rm dH, compute_R d nc true ps = Ok (Rm, Some dH) /\ is_R d nc ps Rm.
Proof.
  intros H. rewrite (compute_R_ok d nc) by auto. do 2 eexists. split; [reflexivity|]. split.
  - split; [apply map_length|]. intros r Hr. apply in_map_iff in Hr as (p & <- & Hp). rewrite app_length, fill_length, (gvec_length d nc) by auto.
    f_equal. apply (H p Hp).
  - intros i p E. destruct (nth_error_nth' ps i p p E) as [Hi Ep]. assert (Hp : shaped d nc p) by (apply H; eapply nth_error_In; eauto).
    unfold ent. rewrite (nth_map_default _ _ _ p), Ep by auto. split.
    + intros a Ha. rewrite app_nth1 by (rewrite (gvec_length d nc); auto). apply gvec_nth; auto.
    + intros k Hk. rewrite app_nth2, (gvec_length d nc) by (rewrite ?(gvec_length d nc); auto; lia).
      replace (d + k - d)%nat with k by lia. unfold act_v. destruct Hp as (H1 & H2 & H3 & H4 & H5 & H6 & H7). apply fill_active; lia.
Qed.

(** * the linear system *)
Lemma list_eq_block N d (l l' : list R) : length l = (N * d)%nat -> length l' = (N * d)%nat ->
  l = l' <-> forall i a, (i < N)%nat -> (a < d)%nat -> nth (i * d + a) l 0 = nth (i * d + a) l' 0.
Proof.
  intros H H'. split; [intros ->; auto|]. intros E. apply (list_eq_nth 0); [congruence|]. intros k Hk. rewrite H in Hk.
  assert (d <> 0)%nat by (intros ->; lia). rewrite (Nat.div_mod k d), (Nat.mul_comm d) by auto.
  apply E; [apply Nat.div_lt_upper_bound; auto; lia|apply Nat.mod_upper_bound; auto].
Qed.

Lemma nth_firstn_lt {A} d a (r : list A) z : (a < d)%nat -> nth a (firstn d r) z = nth a r z.
Proof. revert a r. induction d as [|d IH]; intros [|a] [|x r] Hl; simpl; auto; try lia. apply IH. lia. Qed.
Lemma nth_skipn_add {A} d k (r : list A) z : nth k (skipn d r) z = nth (d + k) r z.
Proof. revert r. induction d as [|d IH]; intros [|x r]; simpl; auto. destruct k; auto. Qed.

Section System.
Variables d nc : nat.
Variable ps : list pt.
Hypothesis Hps : forall p, In p ps -> shaped d nc p.
Let N := length ps.
Let n := (N * d)%nat.
Let acts := map pt_act ps.
Let H := block_diag d (map act_D ps).
Let tot := length H.

Lemma act_D_width p r : In p ps -> In r (act_D p) -> length r = d.
Proof. intros Hp Hr. apply (Hps p Hp). apply mask_in in Hr. auto. Qed.
Lemma act_D_length p : In p ps -> length (act_D p) = count_true (pt_act p).
Proof. intros Hp. destruct (Hps p Hp) as (H1 & H2 & H3 & H4 & H5 & H6 & H7). apply mask_row_length. congruence. Qed.
Lemma tot_count : tot = fold_right (fun m s => (count_true m + s)%nat) 0%nat acts.
Proof.
  unfold tot, H, acts. rewrite block_diag_length. assert (Hi : forall p, In p ps -> In p ps) by auto. revert Hi.
  generalize ps at 1 3 4. intros l. induction l as [|p l IH]; intros Hi; simpl; auto.
  rewrite app_length, act_D_length by (apply Hi; simpl; auto). rewrite IH; auto. intros; apply Hi; simpl; auto.
Qed.
Lemma H_matrix : matrix tot n H.
Proof.
  split; auto. intros r Hr. unfold n, N. rewrite <- (map_length act_D ps). eapply block_diag_width; eauto.
  intros b r' Hb Hr'. apply in_map_iff in Hb as (p & <- & Hp). eapply act_D_width; eauto.
Qed.

(** the parts of a step *)
Definition part_x (st : list (list R)) : list (list R) := map (firstn d) st.
Definition part_y (st : list (list R)) : list (list R) := map (fun am => mask_row (fst am) (snd am)) (combine acts (map (skipn d) st)).
Lemma pack_parts st : matrix_to_Nd_vector st d acts = concat (part_x st) ++ concat (part_y st).
Proof. reflexivity. Qed.
Lemma part_x_spec st : matrix N (d + nc) st -> length (part_x st) = N /\ (forall x, In x (part_x st) -> length x = d).
Proof.
  intros [H1 H2]. unfold part_x. rewrite map_length. split; auto. intros x Hx. apply in_map_iff in Hx as (r & <- & Hr). rewrite firstn_length, H2 by auto. lia.
Qed.
Lemma part_x_nth st i : matrix N (d + nc) st -> (i < N)%nat -> nth i (part_x st) [] = firstn d (nth i st []).
Proof. intros [H1 H2] Hi. unfold part_x. rewrite (nth_map_default _ _ _ []) by lia. reflexivity. Qed.
Lemma part_y_length st : matrix N (d + nc) st -> length (part_y st) = N.
Proof. intros [H1 H2]. unfold part_y, acts. rewrite map_length, combine_length, !map_length. fold N. lia. Qed.
Lemma part_y_nth st i p : matrix N (d + nc) st -> nth_error ps i = Some p -> nth i (part_y st) [] = mask_row (pt_act p) (skipn d (nth i st [])).
Proof.
  intros [H1 H2] E. destruct (nth_error_nth' ps i p p E) as [Hi Ep]. fold N in Hi. unfold part_y, acts.
  rewrite (nth_map_default _ _ _ ([], [])) by (rewrite combine_length, !map_length; fold N; lia).
  rewrite combine_nth by (rewrite !map_length; fold N; lia). cbn [fst snd]. rewrite (nth_map_default _ _ _ p), Ep by (fold N; lia).
  rewrite (nth_map_default _ _ _ []) by lia. reflexivity.
Qed.
Lemma row_length st i : matrix N (d + nc) st -> (i < N)%nat -> length (nth i st []) = (d + nc)%nat.
Proof. intros [H1 H2] Hi. apply H2, nth_In. lia. Qed.
Lemma part_y_len st i p : matrix N (d + nc) st -> nth_error ps i = Some p -> length (nth i (part_y st) []) = length (act_D p).
Proof.
  intros Hm E. rewrite (part_y_nth st i p) by auto. destruct (nth_error_nth' ps i p p E) as [Hi Ep]. fold N in Hi.
  assert (Hin : In p ps) by (eapply nth_error_In; eauto). rewrite act_D_length by auto. apply mask_row_length.
  rewrite skipn_length, (row_length st i) by auto. destruct (Hps p Hin) as (H1 & H2 & H3 & H4 & H5 & H6 & H7). lia.
Qed.
Lemma part_y_total st : matrix N (d + nc) st -> length (concat (part_y st)) = tot.
Proof.
  intros Hm. unfold tot, H. rewrite block_diag_length.
  assert (E : map (@length R) (part_y st) = map (@length (list R)) (map act_D ps)).
  { apply (list_eq_nth 0%nat); [rewrite !map_length, part_y_length; auto|]. intros i Hi. rewrite map_length, part_y_length in Hi by auto.
    rewrite (nth_map_default _ _ _ []) by (rewrite part_y_length; auto). rewrite (nth_map_default _ _ _ []) by (rewrite map_length; auto).
    destruct (nth_error ps i) as [p|] eqn:Ep; [|apply nth_error_None in Ep; fold N in Ep; lia]. rewrite (part_y_len st i p) by auto.
    rewrite (nth_map_default _ _ _ p) by auto. destruct (nth_error_nth' ps i p p Ep) as [_ ->]. auto. }
  assert (G : forall (X : list (list R)) (Y : list (list (list R))), map (@length R) X = map (@length (list R)) Y -> length (concat X) = length (concat Y)).
  { clear. induction X as [|x X IH]; intros [|y Y] E; simpl in *; try discriminate; auto. injection E as E1 E2. rewrite !app_length, E1, (IH Y); auto. }
  apply G. auto.
Qed.

(** the right-hand side *)
Definition rhs : list R := concat (map (gvec d) ps) ++ concat (map act_v ps).
Lemma pack_R : matrix_to_Nd_vector (map (fun p => gvec d p ++ fill 0 (pt_act p) (act_v p)) ps) d acts = rhs.
Proof.
  unfold matrix_to_Nd_vector, rhs, acts. rewrite !map_map. f_equal.
  - f_equal. apply map_ext_in. intros p Hp. rewrite firstn_app, (gvec_length d nc), Nat.sub_diag by auto. rewrite <- (gvec_length d nc p) at 1 by auto.
    rewrite firstn_all. simpl. apply app_nil_r.
  - f_equal. assert (Hi : forall p, In p ps -> In p ps) by auto. revert Hi. generalize ps at 1 3 4 5. intros l. induction l as [|p l IH]; intros Hi; simpl; auto.
    assert (Hp : shaped d nc p) by (apply Hps, Hi; simpl; auto). rewrite IH by (intros; apply Hi; simpl; auto). f_equal.
    rewrite skipn_app, (gvec_length d nc), Nat.sub_diag by auto. rewrite <- (gvec_length d nc p) at 1 by auto. rewrite skipn_all. simpl.
    apply mask_fill. destruct Hp as (H1 & H2 & H3 & H4 & H5 & H6 & H7). apply mask_row_length. congruence.
Qed.
Lemma gs_spec : length (map (gvec d) ps) = N /\ forall g, In g (map (gvec d) ps) -> length g = d.
Proof. rewrite map_length. split; auto. intros g Hg. apply in_map_iff in Hg as (p & <- & Hp). eapply gvec_length; eauto. Qed.

(** the curvature block *)
Definition curv_blocks : list (list (list R)) := map (fun p => matcomb d (act_w p) (act_B p)) ps.
Lemma curv_spec : matrix n n (block_diag d curv_blocks).
Proof.
  assert (Hw : forall b r, In b curv_blocks -> In r b -> length r = d).
  { intros b r Hb Hr. apply in_map_iff in Hb as (p & <- & Hp). apply in_map_iff in Hr as (a & <- & Ha). apply lincomb_length. }
  split.
  - rewrite block_diag_length, (concat_length d).
    + unfold curv_blocks. rewrite map_length. reflexivity.
    + intros b Hb. apply in_map_iff in Hb as (p & <- & Hp). unfold matcomb. rewrite map_length, seq_length. auto.
  - intros r Hr. unfold n, N. rewrite <- (map_length (fun p => matcomb d (act_w p) (act_B p)) ps). eapply block_diag_width; eauto.
Qed.
Lemma curv_entry p a x : In p ps -> (a < d)%nat -> length x = d ->
  dotR (nth a (matcomb d (act_w p) (act_B p)) []) x = asum nc p (fun k => nth k (pt_dual p) 0 * sumn d (fun b => curvature p k a b * nth b x 0)).
Proof.
  intros Hp Ha Hx. destruct (Hps p Hp) as (H1 & H2 & H3 & H4 & H5 & H6 & H7).
  unfold matcomb. rewrite (nth_map_default _ _ _ 0%nat) by (rewrite seq_length; auto). rewrite seq_nth by auto. cbn [plus].
  rewrite (dotR_sumn d) by (auto; apply lincomb_length).
  transitivity (sumn d (fun b => sumn nc (fun k => if nth k (pt_act p) false then nth k (pt_dual p) 0 * curvature p k a b * nth b x 0 else 0))).
  - apply sumn_ext. intros b Hb. rewrite lincomb_nth by auto. unfold act_w, act_B, column. rewrite map_map, <- mask_map.
    rewrite (dotR_mask nc) by (auto; rewrite map_length; auto). rewrite Rmult_comm, <- sumn_scal. apply sumn_ext. intros k Hk.
    destruct (nth k (pt_act p) false); [|ring]. rewrite (nth_map_default _ _ _ []) by lia. unfold curvature. ring.
  - assert (G : forall m f, sumn d (fun b => sumn m (fun k => f k b)) = sumn m (fun k => sumn d (fun b => f k b))).
    { intros m f. induction m as [|m IH]; simpl. apply sumn_zero; auto. rewrite <- IH. clear. induction d as [|e IH]; simpl; [ring|]. rewrite IH. ring. }
    rewrite (G nc (fun k b => if nth k (pt_act p) false then nth k (pt_dual p) 0 * curvature p k a b * nth b x 0 else 0)).
    apply sumn_ext. intros k Hk. destruct (nth k (pt_act p) false).
    + rewrite <- sumn_scal. apply sumn_ext. intros; ring.
    + apply sumn_zero. auto.
Qed.

Definition AM (curv : bool) (A : list (list R)) : res (list (list R)) :=
  if curv then madd A (block_diag d curv_blocks) else Ok A.
Lemma AM_spec curv A x : matrix n n A -> (forall st, In st x -> length st = d) -> length x = N -> exists A', AM curv A = Ok A' /\ matrix n n A' /\
  mv A' (concat x) = if curv then zip_with Rplus (mv A (concat x)) (concat (zip_with mv curv_blocks x)) else mv A (concat x).
Proof.
  intros [HA1 HA2] Hx HN. destruct curv; unfold AM; [|exists A; repeat split; auto].
  destruct curv_spec as [C1 C2]. destruct (mv_madd A (block_diag d curv_blocks) (concat x) n) as (C & E & [F1 F2] & F3); auto; [congruence|].
  exists C. split; auto. split; [split; auto; congruence|]. rewrite F3. f_equal. apply mv_block_diag; auto.
  - unfold curv_blocks. rewrite map_length. symmetry. auto.
  - intros b r Hb Hr. apply in_map_iff in Hb as (p & <- & Hp). apply in_map_iff in Hr as (a & <- & Ha). apply lincomb_length.
Qed.
Lemma AM_indep curv A A1 A2 : AM curv A = Ok A1 -> AM curv A = Ok A2 -> A1 = A2.
Proof. congruence. Qed.

Lemma kkt_spec A' : matrix n n A' -> exists DR, kkt_matrix n A' H = Ok DR /\ matrix (n + tot) (n + tot) DR /\
  forall x y, length x = n -> length y = tot -> mv DR (x ++ y) = zip_with Rplus (mv A' x) (lincomb n y H) ++ mv H x.
Proof.
  intros [HA1 HA2]. destruct H_matrix as [HH1 HH2]. unfold kkt_matrix. fold tot.
  unfold hcat. rewrite transpose_length, HA1, Nat.eqb_refl. cbn [bind]. rewrite repeat_length. fold tot. rewrite Nat.eqb_refl. cbn [bind].
  set (top := zip_with (@app R) A' (transpose 0 n H)). set (bot := zip_with (@app R) H (repeat (repeat 0 tot) tot)).
  assert (W1 : forall r, In r top -> length r = (n + tot)%nat).
  { intros r Hr. apply (In_nth _ _ []) in Hr as (i & Hi & <-). unfold top in *. rewrite zip_with_length, transpose_length, HA1, Nat.min_id in Hi.
    rewrite (zip_with_nth _ _ _ _ [] []) by (rewrite ?transpose_length; lia). rewrite app_length, transpose_row, map_length by auto. fold tot.
    rewrite (HA2 (nth i A' [])) by (apply nth_In; lia). auto. }
  assert (W2 : forall r, In r bot -> length r = (n + tot)%nat).
  { intros r Hr. apply (In_nth _ _ []) in Hr as (i & Hi & <-). unfold bot in *. rewrite zip_with_length, repeat_length in Hi. fold tot in Hi. rewrite Nat.min_id in Hi.
    rewrite (zip_with_nth _ _ _ _ [] []) by (rewrite ?repeat_length; fold tot; lia). rewrite app_length, (HH2 (nth i H [])) by (apply nth_In; fold tot; lia). f_equal.
    assert (Hr : In (nth i (repeat (repeat 0 tot) tot) []) (repeat (repeat 0 tot) tot)) by (apply nth_In; rewrite repeat_length; auto).
    apply repeat_spec in Hr. rewrite Hr. apply repeat_length. }
  unfold vcat. replace (forallb _ (top ++ bot)) with true.
  2:{ symmetry. apply forallb_forall. intros r Hr. apply Nat.eqb_eq. apply in_app_iff in Hr as [Hr|Hr]; auto. }
  exists (top ++ bot). split; auto. split; [split|].
  - rewrite app_length. unfold top, bot. rewrite !zip_with_length, transpose_length, repeat_length. fold tot. lia.
  - intros r Hr. apply in_app_iff in Hr as [Hr|Hr]; auto.
  - intros x y Hx Hy. rewrite mv_app. f_equal.
    + unfold top. rewrite mv_hcat by (rewrite ?transpose_length; auto; intros r Hr; rewrite HA2; auto). rewrite mv_transpose. reflexivity.
    + unfold bot. rewrite mv_hcat by (rewrite ?repeat_length; auto; intros r Hr; rewrite HH2; auto).
      assert (Z : mv (repeat (repeat 0 tot) tot) y = repeat 0 tot).
      { assert (Zg : forall m k, mv (repeat (repeat 0 m) k) y = repeat 0 k); [|apply Zg]. intros m k. unfold mv. induction k; simpl; auto. rewrite dotR_zeros, IHk. auto. }
      rewrite Z. apply (list_eq_nth 0); [rewrite zip_with_length, repeat_length, mv_length; fold tot; lia|]. intros i Hi. rewrite zip_with_length, repeat_length, mv_length in Hi. fold tot in Hi.
      rewrite (zip_with_nth _ _ _ _ 0 0) by (rewrite ?repeat_length, ?mv_length; fold tot; lia). rewrite nth_repeat0. ring.
Qed.

Lemma system_iff curv A A' DR st : matrix n n A -> AM curv A = Ok A' -> kkt_matrix n A' H = Ok DR -> matrix N (d + nc) st ->
  mv DR (matrix_to_Nd_vector st d acts) = map Ropp rhs <-> linear_kkt curv d nc A ps st.
Proof.
  intros HA EA EK Hst. destruct (part_x_spec st Hst) as [X1 X2]. 
  destruct (AM_spec curv A (part_x st) HA X2 X1) as (A2 & EA2 & HA' & EM). rewrite EA in EA2. injection EA2 as <-.
  destruct (kkt_spec A' HA') as (DR2 & EK2 & _ & EMV). rewrite EK in EK2. injection EK2 as <-.
  assert (LX : length (concat (part_x st)) = n) by (rewrite (concat_length d), X1; auto).
  pose proof (part_y_total st Hst) as LY. rewrite pack_parts, EMV by auto. clear EMV EK EA.
  destruct H_matrix as [HH1 HH2]. destruct gs_spec as [G1 G2]. destruct HA as [HA1 HA2]. destruct HA' as [HB1 HB2].
  assert (EH : mv H (concat (part_x st)) = concat (zip_with mv (map act_D ps) (part_x st))).
  { apply mv_block_diag; auto. rewrite map_length; auto. intros b r Hb Hr. apply in_map_iff in Hb as (p & <- & Hp). eapply act_D_width; eauto. }
  assert (EL : lincomb n (concat (part_y st)) H = concat (zip_with (fun b y => lincomb d y b) (map act_D ps) (part_y st))).
  { unfold n, N, H. rewrite <- (map_length act_D ps). apply lincomb_block_diag.
    - rewrite map_length, part_y_length; auto.
    - intros b r Hb Hr. apply in_map_iff in Hb as (p & <- & Hp). eapply act_D_width; eauto.
    - intros i Hi. rewrite map_length in Hi. destruct (nth_error ps i) as [p|] eqn:Ep; [|apply nth_error_None in Ep; lia].
      rewrite (part_y_len st i p) by auto. rewrite (nth_map_default _ _ _ p) by auto. destruct (nth_error_nth' ps i p p Ep) as [_ ->]. auto. }
  assert (LG : length (concat (map (gvec d) ps)) = n) by (rewrite (concat_length d), G1; auto).
  unfold rhs. rewrite map_app.
  assert (LT : length (zip_with Rplus (mv A' (concat (part_x st))) (lincomb n (concat (part_y st)) H)) = n).
  { rewrite zip_with_length, mv_length, lincomb_length, HB1. lia. }
  assert (Split : forall a b c e : list R, length a = length c -> (a ++ b = c ++ e <-> a = c /\ b = e)).
  { intros a b c e Hl. split; [apply app_inj_len; auto|intros [-> ->]; auto]. }
  rewrite Split by (rewrite LT, map_length, LG; auto). clear Split.
  (* upper part *)
  assert (Upper : zip_with Rplus (mv A' (concat (part_x st))) (lincomb n (concat (part_y st)) H) = map Ropp (concat (map (gvec d) ps)) <->
    forall i p, nth_error ps i = Some p -> forall a, (a < d)%nat ->
       sumn (length ps) (fun j => sumn d (fun b => ent A (i * d + a) (j * d + b) * ent st j b))
       + (if curv then asum nc p (fun k => nth k (pt_dual p) 0 * sumn d (fun b => curvature p k a b * ent st i b)) else 0)
       + asum nc p (fun k => ent st i (d + k) * ent (pt_D p) k a) = - lagrangian nc p a).
  { rewrite (list_eq_block N d) by (auto; rewrite map_length; auto).
    assert (Entry : forall i p a, nth_error ps i = Some p -> (a < d)%nat ->
      nth (i * d + a) (zip_with Rplus (mv A' (concat (part_x st))) (lincomb n (concat (part_y st)) H)) 0 =
       sumn (length ps) (fun j => sumn d (fun b => ent A (i * d + a) (j * d + b) * ent st j b))
       + (if curv then asum nc p (fun k => nth k (pt_dual p) 0 * sumn d (fun b => curvature p k a b * ent st i b)) else 0)
       + asum nc p (fun k => ent st i (d + k) * ent (pt_D p) k a) /\
      nth (i * d + a) (map Ropp (concat (map (gvec d) ps))) 0 = - lagrangian nc p a).
    { intros i p a Ep Ha. destruct (nth_error_nth' ps i p p Ep) as [Hi Epp]. fold N in Hi. assert (Hin : In p ps) by (eapply nth_error_In; eauto).
      assert (Hk : (i * d + a < n)%nat) by (unfold n; nia). split.
      - rewrite (zip_with_nth _ _ _ _ 0 0) by (rewrite ?mv_length, ?lincomb_length; lia). f_equal.
        + rewrite EM. assert (EA : nth (i * d + a) (mv A (concat (part_x st))) 0 =
            sumn (length ps) (fun j => sumn d (fun b => ent A (i * d + a) (j * d + b) * ent st j b))).
          { rewrite mv_nth by lia. rewrite (dotR_sumn n) by (auto; apply HA2, nth_In; lia). unfold n. rewrite sumn_block. fold N. apply sumn_ext. intros j Hj.
            apply sumn_ext. intros b Hb. unfold ent. f_equal. rewrite nth_concat by (auto; lia). rewrite part_x_nth by auto.
            apply nth_firstn_lt; auto. }
          destruct curv; [|rewrite EA; ring]. rewrite (zip_with_nth _ _ _ _ 0 0).
          2:{ rewrite mv_length. lia. }
          2:{ rewrite (concat_length d). rewrite zip_with_length. unfold curv_blocks. rewrite map_length, X1. fold N. nia.
              intros r Hr. apply (In_nth _ _ []) in Hr as (j & Hj & <-). rewrite zip_with_length in Hj. unfold curv_blocks in *. rewrite map_length in Hj.
              rewrite (zip_with_nth _ _ _ _ [] []) by (rewrite ?map_length; lia). rewrite mv_length, (nth_map_default _ _ _ p) by lia. unfold matcomb. rewrite map_length, seq_length. auto. }
          rewrite EA. f_equal. rewrite nth_concat.
          2:{ intros r Hr. apply (In_nth _ _ []) in Hr as (j & Hj & <-). rewrite zip_with_length in Hj. unfold curv_blocks in *. rewrite map_length in Hj.
              rewrite (zip_with_nth _ _ _ _ [] []) by (rewrite ?map_length; lia). rewrite mv_length, (nth_map_default _ _ _ p) by lia. unfold matcomb. rewrite map_length, seq_length. auto. }
          2:{ rewrite zip_with_length. unfold curv_blocks. rewrite map_length, X1. fold N. lia. }
          2:{ auto. }
          unfold curv_blocks. rewrite (zip_with_nth _ _ _ _ [] []) by (rewrite ?map_length; fold N; lia).
          rewrite (nth_map_default _ _ _ p), Epp by auto. rewrite mv_nth by (unfold matcomb; rewrite map_length, seq_length; auto).
          assert (Lx : length (nth i (part_x st) []) = d) by (apply X2, nth_In; lia).
          rewrite curv_entry by auto. apply sumn_ext. intros k Hk'. destruct (nth k (pt_act p) false); auto. f_equal. apply sumn_ext. intros b Hb. f_equal.
          rewrite part_x_nth by auto. unfold ent. apply nth_firstn_lt; auto.
        + rewrite EL. rewrite nth_concat.
          2:{ intros r Hr. apply (In_nth _ _ []) in Hr as (j & Hj & <-). rewrite zip_with_length in Hj. rewrite map_length in Hj.
              rewrite (zip_with_nth _ _ _ _ [] []) by (rewrite ?map_length; lia). apply lincomb_length. }
          2:{ rewrite zip_with_length, map_length, part_y_length by auto. fold N. lia. }
          2:{ auto. }
          rewrite (zip_with_nth _ _ _ _ [] []) by (rewrite ?map_length, ?part_y_length by auto; fold N; lia).
          rewrite (nth_map_default _ _ _ p), Epp by auto. rewrite lincomb_nth by auto. rewrite (part_y_nth st i p) by auto.
          rewrite (dotR_active d nc) by (auto; rewrite skipn_length, row_length by auto; lia).
          apply sumn_ext. intros k Hk'. destruct (nth k (pt_act p) false); auto. f_equal. apply nth_skipn_add.
      - rewrite (nth_map_default _ _ _ 0) by lia. f_equal. rewrite nth_concat by (auto; lia). rewrite (nth_map_default _ _ _ p), Epp by auto. apply gvec_nth; auto. }
    split.
    - intros E i p Ep a Ha. destruct (nth_error_nth' ps i p p Ep) as [Hi Epp]. destruct (Entry i p a Ep Ha) as [<- <-]. apply E; auto.
    - intros E i a Hi Ha. destruct (nth_error ps i) as [p|] eqn:Ep; [|apply nth_error_None in Ep; fold N in Ep; lia].
      destruct (Entry i p a Ep Ha) as [-> ->]. apply E; auto. }
  (* lower part *)
  assert (Lower : mv H (concat (part_x st)) = map Ropp (concat (map act_v ps)) <->
    forall i p, nth_error ps i = Some p -> forall k, (k < nc)%nat -> nth k (pt_act p) false = true ->
       sumn d (fun a => ent (pt_D p) k a * ent st i a) = - nth k (pt_cval p) 0).
  { rewrite EH, concat_map, map_map.
    assert (Point : forall i p, nth_error ps i = Some p -> nth i (zip_with mv (map act_D ps) (part_x st)) [] = mv (act_D p) (firstn d (nth i st [])) /\
      nth i (map (fun x => map Ropp (act_v x)) ps) [] = map Ropp (act_v p)).
    { intros i p Ep. destruct (nth_error_nth' ps i p p Ep) as [Hi Epp]. fold N in Hi. split.
      - rewrite (zip_with_nth _ _ _ _ [] []) by (rewrite ?map_length; fold N; lia). rewrite (nth_map_default _ _ _ p), Epp by auto. rewrite part_x_nth by auto. reflexivity.
      - rewrite (nth_map_default _ _ _ p), Epp by auto. reflexivity. }
    assert (Iff : concat (zip_with mv (map act_D ps) (part_x st)) = concat (map (fun x => map Ropp (act_v x)) ps) <->
      forall i p, nth_error ps i = Some p -> mv (act_D p) (firstn d (nth i st [])) = map Ropp (act_v p)).
    { split.
      - intros E i p Ep. apply concat_inj in E.
        + destruct (Point i p Ep) as [<- <-]. rewrite E. reflexivity.
        + rewrite zip_with_length, !map_length, X1. fold N. lia.
        + intros j Hj. rewrite zip_with_length, map_length, X1 in Hj. fold N in Hj. destruct (nth_error ps j) as [q|] eqn:Eq; [|apply nth_error_None in Eq; fold N in Eq; lia].
          destruct (Point j q Eq) as [-> ->]. assert (Hin : In q ps) by (eapply nth_error_In; eauto). rewrite mv_length, map_length, act_D_length by auto.
          symmetry. destruct (Hps q Hin) as (H1 & H2 & H3 & H4 & H5 & H6 & H7). apply mask_row_length. congruence.
      - intros E. f_equal. apply (list_eq_nth []); [rewrite zip_with_length, !map_length, X1; fold N; lia|]. intros i Hi.
        rewrite zip_with_length, map_length, X1 in Hi. fold N in Hi. destruct (nth_error ps i) as [p|] eqn:Ep; [|apply nth_error_None in Ep; fold N in Ep; lia].
        destruct (Point i p Ep) as [-> ->]. apply E; auto. }
    rewrite Iff. clear Iff Point.
    assert (Point : forall i p, nth_error ps i = Some p -> (mv (act_D p) (firstn d (nth i st [])) = map Ropp (act_v p) <->
      forall k, (k < nc)%nat -> nth k (pt_act p) false = true -> sumn d (fun a => ent (pt_D p) k a * ent st i a) = - nth k (pt_cval p) 0)).
    { intros i p Ep. destruct (nth_error_nth' ps i p p Ep) as [Hi Epp]. fold N in Hi. assert (Hin : In p ps) by (eapply nth_error_In; eauto).
      destruct (Hps p Hin) as (H1 & H2 & H3 & H4 & H5 & H6 & H7). unfold mv, act_D, act_v. rewrite <- !mask_map.
      rewrite (mask_eq 0) by (rewrite map_length; congruence). rewrite H4.
      assert (Ent : forall k, (k < nc)%nat -> nth k (map (fun r => dotR r (firstn d (nth i st []))) (pt_D p)) 0 = sumn d (fun a => ent (pt_D p) k a * ent st i a) /\
        nth k (map Ropp (pt_cval p)) 0 = - nth k (pt_cval p) 0).
      { intros k Hk. split.
        - rewrite (nth_map_default _ _ _ []) by lia. rewrite (dotR_sumn d).
          + apply sumn_ext. intros a Ha. unfold ent. f_equal. apply nth_firstn_lt; auto.
          + apply H6, nth_In. lia.
          + rewrite firstn_length, row_length by auto. lia.
        - rewrite (nth_map_default _ _ _ 0) by lia. reflexivity. }
      split; intros E k Hk Ha; specialize (E k Hk Ha); destruct (Ent k Hk) as [E1 E2]; congruence. }
    split; intros E i p Ep; specialize (E i p Ep); apply (Point i p Ep); auto. }
  rewrite Upper, Lower. unfold linear_kkt. split.
  - intros [U L] i p Ep. split; [apply (U i p Ep)|apply (L i p Ep)].
  - intros E. split; intros i p Ep; apply (E i p Ep).
Qed.
End System.
