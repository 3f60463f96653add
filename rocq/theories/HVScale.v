(** The computation of the hypervolume under a change of the units and the origin of the
    objectives, for all inputs: every step of the run on the changed data is the image of
    the step on the original data. *)
From Coq Require Import List Arith Lia Bool Reals Lra FunctionalExtensionality.
From Verif Require Import Num Exn ListAux HVModel NDSSpec HVSpec HVTop HVHom.
Import ListNotations.
Open Scope nat_scope.

(** a sort whose result depends only on the order of the entries *)
Definition order_determined (argsort : list R -> list nat) : Prop :=
  forall l l', length l = length l' ->
    (forall i j, i < length l -> j < length l -> (nth i l 0 <= nth j l 0 <-> nth i l' 0 <= nth j l' 0)%R) ->
    argsort l = argsort l'.

Fixpoint sc (s : nat -> R) (k : nat) (l : list R) : list R :=
  match l with [] => [] | x :: l' => (s k * x)%R :: sc s (S k) l' end.

Lemma sc_length s k l : length (sc s k l) = length l.
Proof. revert k. induction l as [|x l IH]; intros k; simpl; auto. Qed.
Lemma sc_nth_error s k l i : nth_error (sc s k l) i = option_map (Rmult (s (k + i))) (nth_error l i).
Proof.
  revert k i. induction l as [|x l IH]; intros k i; [destruct i; reflexivity|].
  destruct i as [|i]; simpl; [rewrite Nat.add_0_r; auto|]. rewrite IH. do 3 f_equal. lia.
Qed.
Lemma sc_nth s k l i : nth i (sc s k l) 0%R = (s (k + i)%nat * nth i l 0)%R.
Proof.
  revert k i. induction l as [|x l IH]; intros k i; [destruct i; simpl; lra|].
  destruct i as [|i]; simpl; [rewrite Nat.add_0_r; auto|]. rewrite IH. do 2 f_equal. lia.
Qed.

Section Scale.
Variables (s : nat -> R) (minf minf' : R).
Hypothesis Hs : forall k, (0 < s k)%R.
Variable pts : list (list R).
Notation pts' := (map (sc s 0) pts).
Hypothesis Hlow : forall x i c, cg pts x i = Ok c -> (minf < c)%R /\ (minf' < s i * c)%R.

Fixpoint pr (n : nat) : R := match n with O => 1%R | S k => (pr k * s k)%R end.
Lemma pr_pos n : (0 < pr n)%R.
Proof using Hs. induction n; simpl; [lra|]. apply Rmult_lt_0_compat; auto. Qed.

(** a bound is a coordinate or the sentinel *)
Definition phi (i : nat) (z : R) : R := if Req_EM_T z minf then minf' else (s i * z)%R.

Definition sm (m : @mem R) : @mem R :=
  mkMem (nx m) (pv m) (ig m) (fun i x => (pr i * ar m i x)%R) (fun i x => (pr (S i) * vo m i x)%R)
    (fun i => phi i (bd m i)).

Lemma sm_set_ar m i x a : sm (set_ar m i x a) = set_ar (sm m) i x (pr i * a)%R.
Proof.
  unfold sm, set_ar; simpl. f_equal. extensionality j. extensionality y. unfold upd2.
  destruct (j =? i) eqn:E; simpl; auto. apply Nat.eqb_eq in E as ->. destruct (y =? x); auto.
Qed.
Lemma sm_set_vo m i x a : sm (set_vo m i x a) = set_vo (sm m) i x (pr (S i) * a)%R.
Proof.
  unfold sm, set_vo; simpl. f_equal. extensionality j. extensionality y. unfold upd2.
  destruct (j =? i) eqn:E; simpl; auto. apply Nat.eqb_eq in E as ->. destruct (y =? x); auto.
Qed.
Lemma sm_set_bd m i a : a <> minf -> sm (set_bd m i a) = set_bd (sm m) i (s i * a)%R.
Proof.
  intros Ha. unfold sm, set_bd; simpl. f_equal. extensionality j. unfold upd1.
  destruct (j =? i) eqn:E; auto. apply Nat.eqb_eq in E as ->. unfold phi. destruct (Req_EM_T a minf); auto. contradiction.
Qed.

Lemma sltb c x y : (0 < c)%R -> @nltb R _ (c * x)%R (c * y)%R = nltb x y.
Proof.
  intros Hc. destruct (nltb_spec x y) as [H|H]; destruct (nltb_spec (c * x)%R (c * y)%R) as [G|G]; auto; exfalso.
  - apply G. apply Rmult_lt_compat_l; auto.
  - apply H. apply (Rmult_lt_reg_l c); auto.
Qed.
Lemma sleb c x y : (0 < c)%R -> @nleb R _ (c * x)%R (c * y)%R = nleb x y.
Proof. intros Hc. unfold nleb. rewrite sltb; auto. Qed.

Lemma phi_ltb_r i c z : (minf < c)%R -> (minf' < s i * c)%R -> @nltb R _ (s i * c)%R (phi i z) = nltb c z.
Proof using Hs.
  intros H1 H2. unfold phi. destruct (Req_EM_T z minf) as [->|Hz]; [|apply sltb; auto].
  destruct (nltb_spec c minf); destruct (nltb_spec (s i * c)%R minf'); auto; lra.
Qed.
Lemma phi_ltb_l i c z : (minf < c)%R -> (minf' < s i * c)%R -> @nltb R _ (phi i z) (s i * c)%R = nltb z c.
Proof using Hs.
  intros H1 H2. unfold phi. destruct (Req_EM_T z minf) as [->|Hz]; [|apply sltb; auto].
  destruct (nltb_spec minf c); destruct (nltb_spec minf' (s i * c)%R); auto; lra.
Qed.
Lemma phi_leb i c z : (minf < c)%R -> (minf' < s i * c)%R -> @nleb R _ (phi i z) (s i * c)%R = nleb z c.
Proof using Hs. intros H1 H2. unfold nleb. rewrite phi_ltb_r; auto. Qed.

Lemma sc_cg x i : cg pts' x i = rmap (Rmult (s i)) (cg pts x i).
Proof using.
  unfold cg. rewrite nth_error_map. destruct (nth_error pts x) as [l|]; simpl; auto.
  rewrite sc_nth_error. destruct (nth_error l i); auto.
Qed.
Lemma sc_len : length pts' = length pts.
Proof. apply map_length. Qed.

Lemma sc_lower_bd m i x : lower_bd pts' (sm m) i x = rmap sm (lower_bd pts m i x).
Proof using Hs Hlow.
  unfold lower_bd. rewrite sc_cg. destruct (cg pts x i) as [c|] eqn:E; cbn [rmap bind]; auto.
  destruct (Hlow x i c E) as [H1 H2]. change (bd (sm m) i) with (phi i (bd m i)).
  rewrite phi_ltb_r by auto. destruct (nltb c (bd m i)); auto. rewrite sm_set_bd; auto. lra.
Qed.
Lemma sc_remove_one x i m : remove_one pts' x i (sm m) = rmap sm (remove_one pts x i m).
Proof using Hs Hlow. apply (sc_lower_bd (set_pv (set_nx m i (pv m i x) (nx m i x)) i (nx m i x) (pv m i x))). Qed.
Lemma sc_reinsert_one x i m : reinsert_one pts' x i (sm m) = rmap sm (reinsert_one pts x i m).
Proof using Hs Hlow. apply (sc_lower_bd (set_pv (set_nx m i (pv m i x) x) i (nx (set_nx m i (pv m i x) x) i x) x)). Qed.
Lemma sc_for_lists f f' is m : (forall i m, f' i (sm m) = rmap sm (f i m)) ->
  for_lists f' is (sm m) = rmap sm (for_lists f is m).
Proof.
  intros Hf. revert m. induction is as [|i is IH]; intros m; simpl; auto.
  rewrite Hf. apply rmap_bind. auto.
Qed.
Lemma sc_remove x i m : remove pts' x i (sm m) = rmap sm (remove pts x i m).
Proof using Hs Hlow. apply sc_for_lists. intros; apply sc_remove_one. Qed.
Lemma sc_reinsert x i m : reinsert pts' x i (sm m) = rmap sm (reinsert pts x i m).
Proof using Hs Hlow. apply sc_for_lists. intros; apply sc_reinsert_one. Qed.

Lemma sc_sweep2 fuel m q p hh v :
  sweep2 pts' fuel (sm m) q p (s 0 * hh)%R (pr 2 * v)%R = rmap (Rmult (pr 2)) (sweep2 pts fuel m q p hh v).
Proof using Hs.
  revert q p hh v. induction fuel as [|fuel IH]; intros q p hh v; cbn [sweep2]; auto.
  rewrite sc_len. destruct (p =? length pts).
  - rewrite sc_cg. apply rmap_bind. intros a. cbn [rmap]. f_equal. unfold nadd, nmul; simpl. ring.
  - rewrite !sc_cg. apply rmap_bind. intros q1. apply rmap_bind. intros p1. apply rmap_bind. intros p0.
    change (nx (sm m) 1 p) with (nx m 1 p). rewrite sltb by auto.
    match goal with |- sweep2 _ _ _ _ _ _ ?a = rmap _ (sweep2 _ _ _ _ _ _ ?b) =>
      assert (E : a = (pr 2 * b)%R) by (unfold nadd, nmul, nsub; simpl; ring); rewrite E end.
    rewrite <- IH. destruct (nltb p0 hh); auto.
Qed.

Lemma sc_reset_ignore fuel d q m :
  reset_ignore pts' fuel d q (sm m) = rmap sm (reset_ignore pts fuel d q m).
Proof.
  revert q m. induction fuel as [|fuel IH]; intros q m; simpl; auto.
  rewrite sc_len. destruct (q =? length pts); auto.
  rewrite <- IH. destruct (ig m q <? d); auto.
Qed.

Definition sm4 (r : nat * nat * nat * @mem R) : nat * nat * nat * @mem R :=
  let '(p, q, l, m) := r in (p, q, l, sm m).
Lemma sc_removal_loop d len p q m :
  removal_loop pts' d len p q (sm m) = rmap sm4 (removal_loop pts d len p q m).
Proof using Hs Hlow.
  revert p q m. induction len as [|len IH]; intros p q m; simpl; auto.
  destruct (len <=? 0); auto.
  rewrite sc_cg. destruct (cg pts q d) as [cq|] eqn:Eq; cbn [rmap bind]; auto.
  destruct (Hlow q d cq Eq) as [H1 H2].
  rewrite phi_ltb_l by auto. rewrite sc_cg.
  assert (E : (if nltb (bd m d) cq then Ok true else do cp <- rmap (Rmult (s d)) (cg pts (pv m d q) d); Ok (nleb (phi d (bd m d)) cp))
     = (if nltb (bd m d) cq then Ok true else do cp <- cg pts (pv m d q) d; Ok (nleb (bd m d) cp))).
  { destruct (nltb (bd m d) cq); auto. destruct (cg pts (pv m d q) d) as [cp|] eqn:Ep; simpl; auto.
    destruct (Hlow _ d cp Ep) as [G1 G2]. rewrite phi_leb; auto. }
  rewrite E. apply rmap_bind_eq. intros [|]; auto.
  rewrite sc_remove. apply rmap_bind. intros m1. apply IH.
Qed.

(** the values [vals] written from index [i] on, scaled *)
Fixpoint scv (i : nat) (vals : list R) : list R :=
  match vals with [] => [] | v :: vals' => (pr i * v)%R :: scv (S i) vals' end.
Lemma sc_assign_area m q i vals :
  assign_area (sm m) q i (scv i vals) = sm (assign_area m q i vals).
Proof.
  revert m i. induction vals as [|v vals IH]; intros m i; simpl; auto.
  rewrite <- IH, sm_set_ar. auto.
Qed.
Lemma sc_map_res (f f' : nat -> res R) n i :
  (forall a, f' a = rmap (Rmult (pr (S a))) (f a)) -> map_res f' (seq i n) = rmap (scv (S i)) (map_res f (seq i n)).
Proof.
  intros Hf. revert i. induction n as [|n IH]; intros i; simpl; auto.
  rewrite Hf, IH. apply rmap_bind. intros b. apply rmap_bind. auto.
Qed.
Lemma sc_singleton_area d q m :
  singleton_area pts' d q (sm m) = rmap sm (singleton_area pts d q m).
Proof using Hs.
  unfold singleton_area.
  assert (E : set_ar (sm m) 0 q none_ = sm (set_ar m 0 q none_)).
  { rewrite sm_set_ar. f_equal. simpl. unfold none_; simpl. ring. }
  rewrite E.
  rewrite (sc_map_res (fun i => do c <- cg pts q i; Ok (nmul (ar (set_ar m 0 q none_) i q) (nopp c)))).
  - apply rmap_bind. intros vals. cbn [rmap]. f_equal. apply sc_assign_area.
  - intros i. rewrite sc_cg. apply rmap_bind. intros c. cbn [rmap]. f_equal.
    change (ar (sm (set_ar m 0 q none_)) i q) with (pr i * ar (set_ar m 0 q none_) i q)%R.
    generalize (ar (set_ar m 0 q none_) i q). intros z. unfold nmul, nopp; simpl. ring.
Qed.

Definition sp (d : nat) (r : R * @mem R) : R * @mem R := ((pr d * fst r)%R, sm (snd r)).

Lemma sc_area_step rec rec' d q len m :
  (forall len m, rec' len (sm m) = rmap (sp d) (rec len m)) ->
  area_step rec' d q len (sm m) = rmap sm (area_step rec d q len m).
Proof using Hs.
  intros Hr. unfold area_step. change (ig (sm m) q) with (ig m q).
  destruct (d <=? ig m q); [simpl; rewrite sm_set_ar; auto|].
  rewrite Hr. apply rmap_bind. intros [a m1]. cbn [sp fst snd rmap]. f_equal.
  rewrite <- sm_set_ar. change (ar (sm (set_ar m1 d q a)) d (pv (sm (set_ar m1 d q a)) d q))
    with (pr d * ar (set_ar m1 d q a) d (pv (set_ar m1 d q a) d q))%R.
  rewrite sleb by apply pr_pos. destruct (nleb a _); auto.
Qed.

Definition sp3 (d : nat) (r : nat * R * @mem R) : nat * R * @mem R :=
  let '(q, v, m) := r in (q, (pr d * v)%R, sm m).
Lemma sc_reinsertion_loop rec rec' fuel d p q len v m :
  (forall len m, rec' len (sm m) = rmap (sp d) (rec len m)) ->
  reinsertion_loop pts' rec' fuel d p q len (pr (S d) * v)%R (sm m)
  = rmap (sp3 (S d)) (reinsertion_loop pts rec fuel d p q len v m).
Proof using Hs Hlow.
  intros Hr. revert p q len v m. induction fuel as [|fuel IH]; intros p q len v m; cbn [reinsertion_loop]; auto.
  rewrite sc_len. destruct (p =? length pts); auto.
  rewrite !sc_cg. destruct (cg pts p d) as [cp|] eqn:Ep; cbn [rmap bind]; auto.
  apply rmap_bind. intros cq. destruct (Hlow p d cp Ep) as [H1 _].
  rewrite <- sm_set_bd by lra. rewrite sc_reinsert. apply rmap_bind. intros m2.
  change (nx (sm m2) d p) with (nx m2 d p). change (ar (sm m) d q) with (pr d * ar m d q)%R.
  assert (E : nadd (pr (S d) * v)%R (nmul (pr d * ar m d q)%R (nsub (s d * cp)%R (s d * cq)%R))
    = (pr (S d) * nadd v (nmul (ar m d q) (nsub cp cq)))%R) by (unfold nadd, nmul, nsub; simpl; ring).
  rewrite E. rewrite <- sm_set_vo.
  rewrite (sc_area_step rec rec') by auto. apply rmap_bind. intros m4. apply IH.
Qed.

Lemma sc_hv_recursive fuel d len m :
  hv_recursive pts' fuel d len (sm m) = rmap (sp (S d)) (hv_recursive pts fuel d len m).
Proof using Hs Hlow.
  revert len m. induction d as [|d IH]; intros len m; cbn [hv_recursive].
  - destruct (len =? 0); [cbn [rmap]; unfold sp; cbn [fst snd]; do 2 f_equal; unfold nzero; simpl; ring|].
    rewrite sc_len, sc_cg. apply rmap_bind. intros c. cbn [rmap]. unfold sp. cbn [fst snd]. do 2 f_equal. unfold nopp; simpl; ring.
  - destruct (len =? 0); [cbn [rmap]; unfold sp; cbn [fst snd]; do 2 f_equal; unfold nzero; simpl; ring|].
    rewrite sc_len. destruct (d =? 0) eqn:Ed.
    + apply Nat.eqb_eq in Ed as ->. rewrite sc_cg. apply rmap_bind. intros c.
      replace (@nzero R _) with (pr 2 * nzero)%R at 1 by (unfold nzero; simpl; ring).
      change (nx (sm m)) with (nx m). rewrite sc_sweep2. apply rmap_bind. auto.
    + change (pv (sm m)) with (pv m). rewrite sc_reset_ignore. apply rmap_bind. intros m0.
      change (pv (sm m0)) with (pv m0). rewrite sc_removal_loop. apply rmap_bind. intros [[[p q] len1] m1]. cbn [sm4].
      rewrite sc_cg. apply rmap_bind. intros cq.
      assert (E : (if 1 <? len1
             then do cqp <- cg pts' (pv (sm m1) (S d) q) (S d);
                  Ok (nadd (vo (sm m1) (S d) (pv (sm m1) (S d) q))
                     (nmul (ar (sm m1) (S d) (pv (sm m1) (S d) q)) (nsub (s (S d) * cq)%R cqp)), sm m1)
             else do m2 <- singleton_area pts' (S d) q (sm m1); Ok (nzero, m2)) =
            rmap (sp (S (S d))) (if 1 <? len1
             then do cqp <- cg pts (pv m1 (S d) q) (S d);
                  Ok (nadd (vo m1 (S d) (pv m1 (S d) q))
                     (nmul (ar m1 (S d) (pv m1 (S d) q)) (nsub cq cqp)), m1)
             else do m2 <- singleton_area pts (S d) q m1; Ok (nzero, m2))).
      { destruct (1 <? len1).
        - rewrite sc_cg. apply rmap_bind. intros cqp. cbn [rmap]. unfold sp. cbn [fst snd]. do 2 f_equal.
          change (pv (sm m1)) with (pv m1).
          change (vo (sm m1) (S d) (pv m1 (S d) q)) with (pr (S (S d)) * vo m1 (S d) (pv m1 (S d) q))%R.
          change (ar (sm m1) (S d) (pv m1 (S d) q)) with (pr (S d) * ar m1 (S d) (pv m1 (S d) q))%R.
          change (pr (S (S d))) with (pr (S d) * s (S d))%R. unfold nadd, nmul, nsub; cbn. ring.
        - rewrite sc_singleton_area. apply rmap_bind. intros m2. cbn [rmap]. unfold sp. cbn [fst snd]. do 2 f_equal.
          unfold nzero; simpl; ring. }
      rewrite E. apply rmap_bind. intros [hvol m2]. unfold sp at 1. cbn [fst snd].
      rewrite <- sm_set_vo. rewrite (sc_area_step (hv_recursive pts fuel d)) by auto.
      apply rmap_bind. intros m4.
      rewrite (sc_reinsertion_loop (hv_recursive pts fuel d)) by auto.
      apply rmap_bind. intros [[ql v] m5]. cbn [sp3]. rewrite sc_cg. apply rmap_bind. intros cl.
      cbn [rmap]. unfold sp; cbn [fst snd]. do 2 f_equal.
      change (ar (sm m5) (S d) ql) with (pr (S d) * ar m5 (S d) ql)%R.
      change (pr (S (S d))) with (pr (S d) * s (S d))%R. unfold nmul, nsub; cbn. ring.
Qed.

Variable argsort : list R -> list nat.
Hypothesis Hargsort : order_determined argsort.

Lemma sc_sort_by_dimension nodes i :
  sort_by_dimension pts' argsort nodes i = sort_by_dimension pts argsort nodes i.
Proof using Hs Hargsort.
  unfold sort_by_dimension. f_equal. unfold nzero; simpl.
  assert (E : map (fun x => nth i (nth x pts' []) 0%R) nodes = map (Rmult (s i)) (map (fun x => nth i (nth x pts []) 0%R) nodes)).
  { rewrite map_map. apply map_ext. intros x. change (@nil R) with (sc s 0 []) at 1. rewrite map_nth. apply sc_nth. }
  rewrite E. symmetry. generalize (map (fun x => nth i (nth x pts []) 0%R) nodes). intros l.
  apply Hargsort; [rewrite map_length; auto|]. intros a b _ _.
  replace 0%R with (s i * 0)%R at 3 4 by ring. rewrite !map_nth. specialize (Hs i). split; intros H.
  - apply Rmult_le_compat_l; lra.
  - apply (Rmult_le_reg_l (s i)); lra.
Qed.
Lemma sc_extend nodes i m : extend pts' nodes i (sm m) = sm (extend pts nodes i m).
Proof.
  unfold extend. rewrite sc_len. revert m.
  induction nodes as [|x nodes IH]; intros m; simpl; auto. rewrite <- IH. auto.
Qed.
Lemma sc_pre_process is nodes m :
  pre_process pts' argsort is nodes (sm m) = sm (pre_process pts argsort is nodes m).
Proof using Hs Hargsort.
  revert nodes m. induction is as [|i is IH]; intros nodes m; simpl; auto.
  rewrite sc_sort_by_dimension, sc_extend. apply IH.
Qed.
Lemma sc_init_mem : init_mem pts' minf' = sm (init_mem pts minf).
Proof.
  unfold init_mem, sm. simpl. rewrite sc_len. f_equal; try (extensionality i; extensionality x; unfold nzero; simpl; ring).
  extensionality i. unfold phi. destruct (Req_EM_T minf minf); auto. contradiction.
Qed.
End Scale.

(** * The relevant points *)
Lemma aff_tail s t x p x' p' : affine_image s t (x :: p) (x' :: p') ->
  x' = (s 0%nat * x + t 0%nat)%R /\ affine_image (fun k => s (S k)) (fun k => t (S k)) p p'.
Proof.
  intros [H1 H2]. split; [apply (H2 0); simpl; lia|]. split; [simpl in H1; lia|].
  intros k Hk. apply (H2 (S k)). simpl; lia.
Qed.

Lemma aff_dom s t p p' r r' : (forall k, (0 < s k)%R) -> affine_image s t p p' -> affine_image s t r r' ->
  length p = length r -> weakly_dom p' r' = weakly_dom p r.
Proof.
  revert s t p' r r'. induction p as [|x p IH]; intros s t p' r r' Hs Hp Hr Hl.
  - destruct p' as [|x' p']; [|destruct Hp as [Hp _]; discriminate]. reflexivity.
  - destruct r as [|y r]; [discriminate|]. destruct p' as [|x' p']; [destruct Hp as [Hp _]; discriminate|].
    destruct r' as [|y' r']; [destruct Hr as [Hr _]; discriminate|].
    apply aff_tail in Hp as [-> Hp]. apply aff_tail in Hr as [-> Hr]. cbn [weakly_dom].
    assert (E : nltb (s 0%nat * y + t 0%nat)%R (s 0%nat * x + t 0%nat)%R = nltb y x).
    { rewrite <- (sltb (s 0%nat) y x) by auto.
      destruct (nltb_spec (s 0%nat * y + t 0%nat)%R (s 0%nat * x + t 0%nat)%R); destruct (nltb_spec (s 0%nat * y)%R (s 0%nat * x)%R); auto; lra. }
    rewrite E. destruct (nltb y x); auto.
    exact (IH (fun k => s (S k)) (fun k => t (S k)) p' r r' (fun k => Hs (S k)) Hp Hr ltac:(simpl in Hl; lia)).
Qed.

Lemma sc_shift s k l : sc (fun i => s (S i)) k l = sc s (S k) l.
Proof. revert k. induction l as [|x l IH]; intros k; simpl; auto. rewrite IH; auto. Qed.

Lemma aff_vsub s t p p' r r' : affine_image s t p p' -> affine_image s t r r' -> length p = length r ->
  vsub p' r' = sc s 0 (vsub p r).
Proof.
  revert s t p' r r'. induction p as [|x p IH]; intros s t p' r r' Hp Hr Hl.
  - destruct p' as [|x' p']; [|destruct Hp as [Hp _]; discriminate]. reflexivity.
  - destruct r as [|y r]; [discriminate|]. destruct p' as [|x' p']; [destruct Hp as [Hp _]; discriminate|].
    destruct r' as [|y' r']; [destruct Hr as [Hr _]; discriminate|].
    apply aff_tail in Hp as [-> Hp]. apply aff_tail in Hr as [-> Hr]. cbn [vsub sc]. f_equal.
    + unfold nsub; simpl. ring.
    + rewrite (IH _ _ p' r r' Hp Hr) by (simpl in Hl; lia). apply sc_shift.
Qed.

Lemma vsub_zero (p r : list R) : any_nonzero r = false -> length p = length r -> vsub p r = p.
Proof.
  revert p. induction r as [|y r IH]; intros [|x p] Hz Hl; try discriminate; auto.
  unfold any_nonzero in Hz. cbn [existsb] in Hz. apply orb_false_iff in Hz as [Hy Hz].
  cbn [vsub]. f_equal; [|apply IH; auto].
  apply negb_false_iff in Hy. destruct (neqb_spec y nzero) as [->|]; [|discriminate].
  unfold nsub, nzero; simpl. ring.
Qed.
(** the branch on [any(referencePoint)] makes no difference on the reals *)
Lemma relevant_sub (F : list (list R)) ref : rows_ok F ref ->
  relevant_points F ref = map (fun p => vsub p ref) (filter (fun p => weakly_dom p ref) F).
Proof.
  intros Hr. unfold relevant_points. destruct (any_nonzero ref) eqn:E; auto.
  rewrite <- (map_id (filter _ F)) at 1. apply map_ext_in. intros p Hp. apply filter_In in Hp as [Hp _].
  symmetry. apply vsub_zero; auto.
Qed.

Lemma aff_relevant s t F F' ref ref' : (forall k, (0 < s k)%R) -> rows_ok F ref -> rows_ok F' ref' ->
  affine_image s t ref ref' -> Forall2 (affine_image s t) F F' ->
  relevant_points F' ref' = map (sc s 0) (relevant_points F ref).
Proof.
  intros Hs HF HF' Hr HFF. rewrite !relevant_sub by auto. clear HF'.
  induction HFF as [|p p' F F' Hp HFF IH]; auto.
  assert (Hl : length p = length ref) by (apply HF; simpl; auto).
  cbn [filter]. rewrite (aff_dom s t p p' ref ref') by auto.
  assert (IH' := IH ltac:(intros q Hq; apply HF; simpl; auto)).
  destruct (weakly_dom p ref); auto. cbn [map]. rewrite IH'. f_equal. apply (aff_vsub s t); auto.
Qed.

(** the coordinates of the relevant points, relative to the reference point, are strictly
    above the sentinel *)
Definition strictly_above (minf : R) (F : list (list R)) (ref : list R) : Prop :=
  forall p k, In p F -> weakly_dominates p ref -> k < length ref -> (minf < nth k p 0 - nth k ref 0)%R.

Lemma weakly_dom_true (p r : list R) : length p = length r -> weakly_dom p r = true -> weakly_dominates p r.
Proof.
  intros Hl Hd. split; auto. revert r Hl Hd. induction p as [|x p IH]; intros [|y r] Hl Hd k Hk; try discriminate; [simpl in Hk; lia|].
  cbn [weakly_dom] in Hd. destruct (nltb_spec y x) as [|Hxy]; [discriminate|].
  destruct k as [|k]; simpl; [lra|]. apply IH; auto. simpl in Hk; lia.
Qed.
Lemma vsub_nth_error (p r : list R) i c : length p = length r -> nth_error (vsub p r) i = Some c ->
  i < length r /\ c = (nth i p 0 - nth i r 0)%R.
Proof.
  revert r i. induction p as [|x p IH]; intros [|y r] i Hl Hc; try discriminate; [destruct i; discriminate|].
  destruct i as [|i]; cbn [vsub nth_error] in Hc.
  - injection Hc as <-. split; [simpl; lia|reflexivity].
  - apply IH in Hc as [H1 H2]; [|simpl in Hl; lia]. split; [simpl; lia|auto].
Qed.
Lemma cg_relevant F ref x i c : rows_ok F ref -> cg (relevant_points F ref) x i = Ok c ->
  exists p, In p F /\ weakly_dominates p ref /\ i < length ref /\ c = (nth i p 0 - nth i ref 0)%R.
Proof.
  intros Hr. rewrite relevant_sub by auto. unfold cg. rewrite nth_error_map.
  destruct (nth_error (filter _ F) x) as [p|] eqn:E; simpl; [|discriminate].
  apply nth_error_In in E. apply filter_In in E as [E1 E2]. specialize (Hr p E1).
  destruct (nth_error (vsub p ref) i) as [c'|] eqn:Ec; [|discriminate]. intros Hc. injection Hc as ->.
  apply vsub_nth_error in Ec as [H1 H2]; auto. exists p. repeat split; auto.
  apply weakly_dom_true; auto.
Qed.

Lemma pr_fold s n : pr s n = fold_right Rmult 1%R (map s (seq 0 n)).
Proof.
  induction n as [|n IH]; [reflexivity|]. rewrite seq_S, map_app. simpl. rewrite IH.
  generalize (map s (seq 0 n)). intros l. induction l as [|x l IHl]; simpl; [ring|]. rewrite <- IHl. ring.
Qed.

Lemma affine_image_ext s s' t p p' : (forall k, k < length p -> s k = s' k) -> affine_image s t p p' -> affine_image s' t p p'.
Proof. intros He [H1 H2]. split; auto. intros k Hk. rewrite <- He by auto. auto. Qed.

Lemma hypervolume_affine_pos minf minf' argsort s t F F' ref ref' :
  order_determined argsort -> rows_ok F ref -> (forall k, (0 < s k)%R) ->
  affine_image s t ref ref' -> Forall2 (affine_image s t) F F' ->
  strictly_above minf F ref -> strictly_above minf' F' ref' ->
  hypervolume minf' argsort F' ref' = rmap (Rmult (pr s (length ref))) (hypervolume minf argsort F ref).
Proof.
  intros Ha HF Hs Hr HFF Hm Hm'.
  assert (Hlen : length ref' = length ref) by apply Hr.
  assert (HF' : rows_ok F' ref').
  { clear Hm Hm'. unfold rows_ok. rewrite Hlen. induction HFF as [|p p' F F' [Hp _] HFF IH]; intros q Hq; [destruct Hq|].
    destruct Hq as [<-|Hq]; [rewrite Hp; apply HF; simpl; auto|]. apply IH; auto. intros p0 Hp0. apply HF; simpl; auto. }
  unfold hypervolume. rewrite (aff_relevant s t F F' ref ref') by auto. rewrite map_length, Hlen.
  destruct (length ref) as [|d] eqn:Ed.
  { destruct (_ =? 0); cbn [rmap]; auto. f_equal. unfold nzero; simpl. ring. }
  assert (Hlow : forall x i c, cg (relevant_points F ref) x i = Ok c -> (minf < c)%R /\ (minf' < s i * c)%R).
  { intros x i c Hc. split.
    - destruct (cg_relevant F ref x i c HF Hc) as (p & H1 & H2 & H3 & ->). apply Hm; auto.
    - assert (Hc' : cg (relevant_points F' ref') x i = Ok (s i * c)%R).
      { rewrite (aff_relevant s t F F' ref ref') by auto. rewrite sc_cg, Hc. reflexivity. }
      destruct (cg_relevant F' ref' x i _ HF' Hc') as (p & H1 & H2 & H3 & ->). apply Hm'; auto. }
  rewrite (sc_init_mem s minf minf'). rewrite (sc_pre_process s minf minf' Hs _ argsort Ha).
  rewrite (sc_hv_recursive s minf minf' Hs _ Hlow). apply rmap_bind. intros [v m]. reflexivity.
Qed.

Theorem hypervolume_affine minf minf' argsort s t F F' ref ref' :
  order_determined argsort -> rows_ok F ref -> (forall k, k < length ref -> (0 < s k)%R) ->
  affine_image s t ref ref' -> Forall2 (affine_image s t) F F' ->
  strictly_above minf F ref -> strictly_above minf' F' ref' ->
  hypervolume minf' argsort F' ref' =
  rmap (Rmult (fold_right Rmult 1%R (map s (seq 0 (length ref))))) (hypervolume minf argsort F ref).
Proof.
  intros Ha HF Hs Hr HFF Hm Hm'.
  set (s' := fun k => if k <? length ref then s k else 1%R).
  assert (Es : forall k, k < length ref -> s k = s' k).
  { intros k Hk. unfold s'. apply Nat.ltb_lt in Hk as ->. auto. }
  rewrite (hypervolume_affine_pos minf minf' argsort s' t F F' ref ref'); auto.
  - f_equal. rewrite pr_fold. do 2 f_equal. apply map_ext_in. intros k Hk. apply in_seq in Hk. symmetry. apply Es. lia.
  - intros k. unfold s'. destruct (k <? length ref) eqn:E; [apply Nat.ltb_lt in E; auto|lra].
  - apply (affine_image_ext s); auto.
  - clear Hm Hm' Hr. induction HFF as [|p p' F F' Hp HFF IH]; constructor.
    + apply (affine_image_ext s); auto. rewrite (HF p) by (simpl; auto). auto.
    + apply IH. intros q Hq. apply HF; simpl; auto.
Qed.

(** the stable insertion sort depends only on the order of the entries *)
Lemma stable_order_determined : order_determined (stable_argsort (T:=R)).
Proof.
  intros l l' Hl Ho. unfold stable_argsort. rewrite <- Hl.
  assert (Hin : forall n, n <= length l ->
     fold_right (ins_idx l) [] (seq (length l - n) n) = fold_right (ins_idx l') [] (seq (length l - n) n) /\
     Forall (fun j => j < length l) (fold_right (ins_idx l) [] (seq (length l - n) n))).
  { induction n as [|n IH]; intros Hn; [split; [reflexivity|constructor]|].
    cbn [seq fold_right]. replace (S (length l - S n)) with (length l - n) by lia.
    destruct IH as [I1 I2]; [lia|]. rewrite <- I1. clear I1. set (i := length l - S n).
    assert (Hi : i < length l) by (unfold i; lia).
    generalize dependent (fold_right (ins_idx l) [] (seq (length l - n) n)). intros acc Hacc.
    induction Hacc as [|j acc Hj Hacc IHa]; cbn [ins_idx]; [split; auto|].
    assert (E : @nleb R _ (nth i l nzero) (nth j l nzero) = nleb (nth i l' nzero) (nth j l' nzero)).
    { unfold nzero; simpl. destruct (nleb_spec (nth i l 0%R) (nth j l 0%R)) as [H|H];
      destruct (nleb_spec (nth i l' 0%R) (nth j l' 0%R)) as [G|G]; auto; exfalso; specialize (Ho i j Hi Hj); tauto. }
    rewrite <- E. destruct (nleb _ _); [split; auto|]. destruct IHa as [I1 I2]. rewrite I1. split; auto.
    constructor; auto. rewrite <- I1; auto. }
  specialize (Hin (length l) (le_n _)). rewrite Nat.sub_diag in Hin. apply Hin.
Qed.
