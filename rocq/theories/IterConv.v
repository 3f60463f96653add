(** What an iteration of DpN computes: the logged values, affine objectives, descent for GD. *)
From Coq Require Import List Arith Bool Reals ZArith Lia Lra Psatz Permutation.
From Verif Require Import Num Exn ListAux MiscModel StateModel StateSpec StateProof NewtonModel NewtonProof NewtonBox NewtonPop RefModel RefSpec RefProof RefTop RefShift HVXModel HVXProof HVXTop IndModel IndSpec IndProof IndTop StepModel StepSpec StepProof ShiftModel ShiftMain StepTop StepMain StepDpn StepLast StepSolver IterModel IterSpec IterProof IterMain IterTotal.
Import ListNotations.
Open Scope R_scope.

(** * least squares *)
Lemma sumn_sq_nonneg n f : 0 <= sumn n (fun i => f i * f i).
Proof. induction n as [|n IH]; simpl. lra. pose proof (Rle_0_sqr (f n)) as H. unfold Rsqr in H. lra. Qed.
Lemma normal_equations_min m n (A : nat -> nat -> R) (r s z : nat -> R) :
  (forall k, (k < n)%nat -> sumn m (fun a => A a k * (sumn n (fun l => A a l * s l) + r a)) = 0) ->
  sumn m (fun a => (sumn n (fun l => A a l * s l) + r a) * (sumn n (fun l => A a l * s l) + r a)) <=
  sumn m (fun a => (sumn n (fun l => A a l * z l) + r a) * (sumn n (fun l => A a l * z l) + r a)).
Proof.
  intros H. set (p := fun a => sumn n (fun l => A a l * s l) + r a). set (u := fun a => sumn n (fun l => A a l * (z l - s l))).
  assert (E : forall a, sumn n (fun l => A a l * z l) + r a = p a + u a).
  { intros a. unfold p, u. assert (Ez : sumn n (fun l => A a l * z l) = sumn n (fun l => A a l * s l) + sumn n (fun l => A a l * (z l - s l))) by (rewrite <- sumn_plus; apply sumn_ext; intros; ring). lra. }
  assert (E1 : sumn m (fun a => (sumn n (fun l => A a l * z l) + r a) * (sumn n (fun l => A a l * z l) + r a)) = sumn m (fun a => p a * p a) + 2 * sumn m (fun a => p a * u a) + sumn m (fun a => u a * u a)).
  { rewrite <- sumn_scal, <- !sumn_plus. apply sumn_ext. intros a _. rewrite E. ring. }
  rewrite E1. assert (E2 : sumn m (fun a => p a * u a) = 0).
  { unfold u. assert (E3 : sumn m (fun a => p a * sumn n (fun l => A a l * (z l - s l))) = sumn m (fun a => sumn n (fun l => (z l - s l) * (A a l * p a)))).
    { apply sumn_ext. intros a _. rewrite <- sumn_scal. apply sumn_ext. intros; ring. }
    rewrite E3, sumn_swap. apply sumn_zero. intros l Hl. rewrite sumn_scal. unfold p. rewrite (H l Hl). ring. }
  rewrite E2. pose proof (sumn_sq_nonneg m u). unfold p. lra.
Qed.
(** the normal equations have a solution *)
Lemma normal_equations_solvable m n (A : nat -> nat -> R) (r : nat -> R) : exists s : list R, length s = n /\
  forall k, (k < n)%nat -> sumn m (fun a => A a k * (sumn n (fun l => A a l * nth l s 0) + r a)) = 0.
Proof.
  set (cols := map (fun k => map (fun a => A a k) (seq 0 m)) (seq 0 n)). set (b := map (fun a => - r a) (seq 0 m)).
  assert (Hc : forall c, In c cols -> length c = m). { intros c Hc. apply in_map_iff in Hc as (k & <- & _). rewrite map_length, seq_length. auto. }
  assert (Lb : length b = m) by (unfold b; rewrite map_length, seq_length; auto).
  destruct (lsq_spec m cols b Hc Lb) as [L O]. assert (Lc : length cols = n) by (unfold cols; rewrite map_length, seq_length; auto). rewrite Lc in L.
  set (s := lsq m cols b) in *. exists s. split; auto. intros k Hk.
  assert (Ck : forall k, (k < n)%nat -> nth k cols [] = map (fun a => A a k) (seq 0 m)).
  { intros j Hj. unfold cols. rewrite (nth_map_default _ _ _ 0%nat) by (rewrite seq_length; auto). rewrite seq_nth by auto. reflexivity. }
  specialize (O (nth k cols []) ltac:(apply nth_In; lia)). rewrite Ck in O by auto. set (lc := lincomb m s cols) in *.
  assert (Ll : length lc = m) by apply lincomb_length.
  rewrite (dotR_sumn m) in O by (rewrite ?map_length, ?seq_length, ?axpy_length; lia).
  apply (f_equal (Rmult (-1))) in O. rewrite Rmult_0_r in O. etransitivity; [|exact O].
  rewrite <- sumn_scal. apply sumn_ext. intros a Ha. rewrite (nth_map_default _ _ _ 0%nat) by (rewrite seq_length; auto). rewrite seq_nth by auto. cbn [plus].
  unfold axpy. rewrite (zip_with_nth _ _ _ _ 0 0) by lia. unfold b. rewrite (nth_map_default _ _ _ 0%nat) by (rewrite seq_length; auto). rewrite seq_nth by auto. cbn [plus].
  pose proof (lincomb_nth m s cols a Ha) as EL. fold lc in EL. rewrite EL. assert (Lcol : length (StateModel.column a cols) = n) by (unfold StateModel.column; rewrite map_length; exact Lc).
  rewrite (dotR_sumn n s (StateModel.column a cols) L Lcol).
  assert (E : sumn n (fun i => nth i s 0 * nth i (StateModel.column a cols) 0) = sumn n (fun l => A a l * nth l s 0)).
  { apply sumn_ext. intros l Hl. unfold StateModel.column. rewrite (nth_map_default _ _ _ []) by lia. rewrite Ck by auto. rewrite (nth_map_default _ _ _ 0%nat) by (rewrite seq_length; auto). rewrite seq_nth by auto. cbn [plus]. ring. }
  rewrite E. ring.
Qed.

Section Conv.
Variable K : dpn_cfg.
Hypothesis W : well_posed K.
Hypothesis OO : oracles_ok K.
Let c := k_prob K.
Let m := k_nobj K.

(** * the logged values *)
Lemma match_best N rs Y rs' : (0 < N)%nat -> ready K N rs -> length Y = N -> match_ K rs Y = Ok rs' ->
  best_match (reference_set rs) Y (reference_set rs') /\ matched K N rs' /\ (matched K N rs -> Permutation (reference_set rs') (reference_set rs)).
Proof using OO.
  intros HN Hr HL E. destruct (match_ready K OO N rs Y HN Hr HL) as (rs1 & E1 & Hm & Hi & Hp). assert (rs1 = rs') by congruence. subst rs1.
  split; [|auto]. split. rewrite (proj1 (matched_ref K N rs' Hm)). auto. split; auto.
  assert (HC : exists comp, rs_ref rs = [comp] /\ (N <= length comp)%nat /\ wf rs /\ rs_rematch rs = true).
  { destruct Hr as [(comp & e & M & Hf & -> & LM & RM)|(comp & e & Hf & ->)]; exists comp; repeat split; try reflexivity; try apply Hf; try discriminate. }
  destruct HC as (comp & HC1 & HC2 & HC3 & HC4).
  destruct (match_case K OO rs Y N HL HC3 (or_introl HC4) comp HC1 HC2) as (rs1 & X & M & E2 & _ & PX & _ & Hbest & ->). assert (E3 : rs' = mkRS [comp] (rs_eta rs) (Some [seq 0 N]) (rs_rematch rs) [Some M] (Some (M, ids N))) by congruence.
  subst rs'. unfold reference_set. cbn. intros P HP. apply Hbest. eapply perm_trans; eauto.
Qed.
Lemma values_spec N o gd igd rs1 : (0 < N)%nat -> good K N o -> indicator_values K (d_ref o) (s_Y (d_state o)) = Ok (gd, igd, rs1) ->
  gd_is (reference_set (d_ref o)) (s_Y (d_state o)) gd /\ igd_is (reference_set (d_ref o)) (s_Y (d_state o)) igd /\ matched K N rs1.
Proof using W OO.
  intros HN ((X & HP & H) & Hr & _) E. destruct (pop_Y K W N _ X HP H) as [LY RY]. destruct (ready_ref K N _ HN Hr) as [Hne HR].
  assert (HY : s_Y (d_state o) <> []) by (intros E0; rewrite E0 in LY; simpl in LY; lia).
  unfold indicator_values in E. destruct (gd_value (the_ind K (d_ref o)) (s_Y (d_state o)) m ltac:(cbn; lra) HY Hne RY HR) as (v & Egd & Hv & Hmd). rewrite Egd in E. cbn [bind fin] in E.
  inv_do E rs' Em. destruct (match_best N _ _ _ HN Hr LY Em) as (B & M1 & _). destruct (matched_ref K N rs' M1) as [L1 R1].
  rewrite (igdm_value _ _ _ (reference_set rs') m HY RY eq_refl) in E by (auto; lia). cbn [bind] in E. injection E as <- <- <-. split; [|split; auto].
  - split; auto. change (i_p (the_ind K (d_ref o))) with 2 in Hmd. rewrite pw_2 in Hmd by auto. exact Hmd.
  - exists (reference_set rs'). auto.
Qed.
Lemma iteration_values N o o' : (0 < N)%nat -> good K N o -> newton_iteration K o = Ok o' ->
  gd_is (reference_set (d_ref o)) (s_Y (d_state o)) (d_gd o') /\ igd_is (reference_set (d_ref o)) (s_Y (d_state o)) (d_igd o').
Proof using W OO.
  intros HN Hg H. apply iteration_pieces in H as (q & E1 & _ & _ & _ & _ & _ & _ & ->). cbn [d_gd d_igd]. destruct (values_spec N o _ _ _ HN Hg E1) as (A & B & _). auto.
Qed.
End Conv.

(** the units of the two indicators *)
Lemma sqd_nonneg p : forall q, 0 <= sqd p q.
Proof. induction p as [|a p IH]; intros [|b q]; simpl; try lra. specialize (IH q). pose proof (pow2_ge_0 (a - b)) as H. simpl in H. lra. Qed.
Lemma gd_square_le S Y gd igd : Y <> [] -> gd_is S Y gd -> igd_is S Y igd -> gd * gd <= igd.
Proof.
  intros HY (G0 & ds & Lds & Hd & ->) (M & (LM & [rest HI0] & _) & ->). assert (HI : incl M S) by (intros x Hx; apply (Permutation_in _ HI0); apply in_or_app; auto). clear rest HI0. apply Rmult_le_compat_r. { left. apply Rinv_0_lt_compat. apply lt_0_INR. destruct Y; simpl; [congruence|lia]. }
  clear HY. revert ds M Lds Hd LM HI. induction Y as [|y Y IH]; intros [|d ds] [|t M] Lds Hd LM HI; try discriminate; simpl. lra.
  assert (H0 : pw d 2 <= sqd y t).
  { destruct (Hd 0%nat ltac:(simpl; lia)) as [(r & Hr & Er) Hle]. cbn [nth] in *. specialize (Hle t (HI t (or_introl eq_refl))). unfold edist in *.
    assert (0 <= d) by (rewrite Er; apply sqrt_pos). rewrite pw_2 by auto. pose proof (sqd_nonneg y t) as Hn. pose proof (sqrt_def (sqd y t) Hn). nra. }
  assert (H1 : sumR (map (fun d => pw d 2) ds) <= sumR (zip_with sqd Y M)).
  { apply IH; auto. intros i Hi. apply (Hd (Datatypes.S i)). simpl; lia. intros x Hx. apply HI. simpl; auto. }
  lra.
Qed.
