(** The step methods of the three optimisers. *)
From Coq Require Import List Arith Bool Reals Lia Lra.
From Verif Require Import Num Exn ListAux MiscModel MiscProof StateModel NewtonModel RefModel RefProof HVXModel HVXProof StepModel StepSpec StepProof StepTop.
Import ListNotations.
Open Scope R_scope.

Section Main.
Variable solve : list (list R) -> list R -> option (list R).
Variable lstsq : list (list R) -> list R -> list R.
Hypothesis Hsolve : solve_ok solve.
Hypothesis Hlstsq : lstsq_ok lstsq.

Lemma map_Ropp_inv l l' : map Ropp l = map Ropp l' -> l = l'.
Proof. revert l'. induction l as [|a l IH]; intros [|b l'] E; try discriminate; auto. simpl in E. injection E as E1 E2. f_equal; [lra|auto]. Qed.
Lemma map_Ropp_Ropp l : map Ropp (map Ropp l) = l.
Proof. rewrite map_map. rewrite <- (map_id l) at 2. apply map_ext. intros; ring. Qed.

Lemma newton_dir_length n A b : matrix n n A -> length b = n -> length (newton_dir solve lstsq A b) = n.
Proof.
  intros HA Hb. unfold newton_dir. rewrite map_length. destruct (solve A b) as [x|] eqn:E.
  - apply (Hsolve n A b x); auto.
  - apply (Hlstsq n A b); auto.
Qed.
Lemma newton_dir_solves n A b : matrix n n A -> length b = n -> (exists y, length y = n /\ mv A y = map Ropp b) ->
  mv A (newton_dir solve lstsq A b) = map Ropp b.
Proof.
  intros HA Hb (y & Hy & Ey). unfold newton_dir. rewrite mv_opp. f_equal. destruct (solve A b) as [x|] eqn:E.
  - apply (Hsolve n A b x); auto.
  - destruct (Hlstsq n A b HA Hb) as [Hl Hmin]. specialize (Hmin (map Ropp y)). rewrite map_length, mv_opp, Ey, map_Ropp_Ropp, sqdist_self in Hmin.
    apply sqdist_zero; auto. rewrite mv_length. destruct HA; congruence.
Qed.

(** * HVN and MMDNewton *)
Lemma AM_model d nc ps A : (forall p, In p ps -> shaped d nc p) -> forall curv : bool,
  (if curv then
     do M <- RefModel.mapM (fun p => do B <- bmask (pt_act p) (pt_B p); do w <- bmask (pt_act p) (pt_dual p); Ok (matcomb d w B)) ps;
     madd A (block_diag d M)
   else Ok A) = AM d ps curv A.
Proof.
  intros Hps [|]; auto. rewrite (mapM_map _ (fun p => matcomb d (act_w p) (act_B p))); [reflexivity|].
  intros p Hp. destruct (Hps p Hp) as (H1 & H2 & H3 & H4 & H5 & H6 & H7). rewrite !bmask_ok by congruence. reflexivity.
Qed.

Lemma global_constrained d nc curv A ps : (0 < length ps)%nat -> (forall p, In p ps -> shaped d nc p) ->
  matrix (length ps * d) (length ps * d) A ->
  exists st Rm, global_step solve lstsq d nc true curv A ps = Ok (st, Rm) /\
    matrix (length ps) (d + nc) st /\ is_R d nc ps Rm /\ inactive_zero d nc ps st /\
    ((exists st', matrix (length ps) (d + nc) st' /\ linear_kkt curv d nc A ps st') -> linear_kkt curv d nc A ps st).
Proof.
  intros HN Hps HA. unfold global_step.
  destruct (compute_R_spec d nc ps Hps) as (Rm & dH & ER & HR). pose proof (compute_R_ok d nc ps Hps) as ER2.
  rewrite ER in ER2. injection ER2 as ERm EdH. rewrite ER. cbn [bind fst snd]. rewrite EdH, (AM_model d nc) by auto.
  set (xs := repeat (repeat 0 d) (length ps)).
  destruct (AM_spec d ps curv A xs HA) as (A' & EA & HA' & _).
  { intros r Hr. apply repeat_spec in Hr. rewrite Hr. apply repeat_length. } { apply repeat_length. }
  rewrite EA. cbn [bind]. destruct (kkt_spec d nc ps Hps A' HA') as (DR & EK & HDR & _). rewrite EK. cbn [bind].
  rewrite ERm, (pack_R d nc ps Hps). set (b := rhs d ps). set (n := (length ps * d + length (block_diag d (map act_D ps)))%nat) in *.
  assert (Hb : length b = n).
  { unfold b, rhs, n. rewrite app_length, (concat_length d), map_length by (intros r Hr; apply in_map_iff in Hr as (p & <- & Hp); eapply gvec_length; eauto).
    f_equal. rewrite block_diag_length. assert (G : forall l, (forall p, In p l -> In p ps) -> length (concat (map act_v l)) = length (concat (map act_D l))).
    { induction l as [|p l IH]; intros Hi; simpl; auto. rewrite !app_length, IH by (intros; apply Hi; simpl; auto). f_equal.
      assert (Hp : shaped d nc p) by (apply Hps, Hi; simpl; auto). destruct Hp as (H1 & H2 & H3 & H4 & H5 & H6 & H7).
      unfold act_v, act_D. rewrite !mask_row_length; congruence. }
    apply G. auto. }
  assert (HL : length (newton_dir solve lstsq DR b) = n) by (apply newton_dir_length; auto).
  assert (Hact : forall m, In m (map pt_act ps) -> length m = (d + nc - d)%nat).
  { intros m Hm. apply in_map_iff in Hm as (p & <- & Hp). replace (d + nc - d)%nat with nc by lia. apply (Hps p Hp). }
  destruct (unpack_pack 0 (length ps) (d + nc) d (newton_dir solve lstsq DR b) (map pt_act ps)) as (st & Est & L1 & L2 & Epack); auto.
  { lia. } { apply map_length. }
  { rewrite HL. unfold n. f_equal. exact (tot_count d nc ps Hps). }
  rewrite Est. cbn [bind]. exists st, Rm. split; [rewrite <- ERm; reflexivity|]. assert (Hst : matrix (length ps) (d + nc) st) by (split; auto).
  split; auto. split; auto. split.
  - intros i p k Ep Hk Hz. destruct (nth_error_nth' ps i p p Ep) as [Hi Epp].
    pose proof (pack_unpack 0 (length ps) (d + nc) d st (map pt_act ps)) as PU. rewrite Epack, Est in PU.
    assert (Em : st = masked 0 d st (map pt_act ps)).
    { assert (E : Ok st = Ok (masked 0 d st (map pt_act ps))) by (apply PU; auto; try lia; apply map_length). injection E as E. exact E. }
    unfold ent. rewrite Em. rewrite (masked_entry 0 (d + nc)); auto; try lia; [|rewrite map_length; lia].
    replace (d + k - d)%nat with k by lia. rewrite (nth_map_default _ _ _ p), Epp, Hz by auto.
    destruct (Nat.ltb_spec (d + k) d); [lia|]. reflexivity.
  - intros (st' & Hst' & Hk). apply (system_iff d nc ps Hps curv A A' DR st); auto. rewrite Epack. apply (newton_dir_solves n); auto.
    exists (matrix_to_Nd_vector st' d (map pt_act ps)). split.
    + rewrite (pack_parts d ps), app_length, (part_y_total d nc ps Hps st') by auto. destruct (part_x_spec d nc ps st' Hst') as [X1 X2].
      rewrite (concat_length d), X1 by auto. reflexivity.
    + apply (system_iff d nc ps Hps curv A A' DR st'); auto.
Qed.

Lemma global_unconstrained d nc curv A ps : (0 < length ps)%nat -> (forall p, In p ps -> length (pt_grad p) = d) ->
  matrix (length ps * d) (length ps * d) A ->
  exists st, global_step solve lstsq d nc false curv A ps = Ok (st, map pt_grad ps) /\ matrix (length ps) d st /\
    st = chunks (length ps) d (newton_dir solve lstsq A (concat (map pt_grad ps))).
Proof.
  intros HN Hps HA. unfold global_step, compute_R. cbn [bind fst snd].
  assert (Eb : matrix_to_Nd_vector (map pt_grad ps) d (map (fun _ : pt => @nil bool) ps) = concat (map pt_grad ps)).
  { unfold matrix_to_Nd_vector. rewrite map_map.
    replace (concat (map _ (combine _ _))) with (@nil R).
    - rewrite app_nil_r. f_equal. apply map_ext_in. intros p Hp. apply firstn_all2. rewrite Hps; auto.
    - clear. induction ps as [|p l IH]; simpl; auto. }
  rewrite Eb. set (b := concat (map pt_grad ps)).
  assert (Hb : length b = (length ps * d)%nat).
  { unfold b. rewrite (concat_length d), map_length; auto. intros r Hr. apply in_map_iff in Hr as (p & <- & Hp). auto. }
  assert (HL : length (newton_dir solve lstsq A b) = (length ps * d)%nat) by (apply newton_dir_length; auto).
  unfold Nd_vector_to_matrix. rewrite Nat.eqb_refl, (reshape_ok (length ps) d) by auto. cbn [bind].
  eexists. split; [reflexivity|]. split; auto. destruct (chunks_spec (length ps) d _ HL) as (C1 & C2 & C3). split; auto.
Qed.
Lemma block_entry N d (st : list (list R)) A i a : matrix N d st -> matrix (N * d) (N * d) A -> (i < N)%nat -> (a < d)%nat ->
  nth (i * d + a) (mv A (concat st)) 0 = sumn N (fun j => sumn d (fun b => ent A (i * d + a) (j * d + b) * ent st j b)).
Proof.
  intros [S1 S2] [A1 A2] Hi Ha. assert (Hk : (i * d + a < N * d)%nat) by nia. rewrite mv_nth by lia.
  rewrite (dotR_sumn (N * d)) by (rewrite ?(concat_length d), ?S1; auto; apply A2, nth_In; lia).
  rewrite sumn_block. apply sumn_ext. intros j Hj. apply sumn_ext. intros b Hb. unfold ent. f_equal. apply nth_concat; auto. lia.
Qed.
Lemma linear_unconstrained d curv A ps st : (forall p, In p ps -> length (pt_grad p) = d) -> matrix (length ps * d) (length ps * d) A ->
  matrix (length ps) d st -> mv A (concat st) = map Ropp (concat (map pt_grad ps)) <-> linear_kkt curv d 0 A ps st.
Proof.
  intros Hps HA Hst. assert (Hg : forall r, In r (map pt_grad ps) -> length r = d) by (intros r Hr; apply in_map_iff in Hr as (p & <- & Hp); auto).
  rewrite (list_eq_block (length ps) d); [|rewrite mv_length; apply HA|rewrite map_length, (concat_length d), map_length; auto].
  assert (Entry : forall i p a, nth_error ps i = Some p -> (a < d)%nat -> nth (i * d + a) (map Ropp (concat (map pt_grad ps))) 0 = - nth a (pt_grad p) 0).
  { intros i p a Ep Ha. destruct (nth_error_nth' ps i p p Ep) as [Hi Epp]. rewrite (nth_map_default _ _ _ 0) by (rewrite (concat_length d), map_length by auto; nia).
    f_equal. rewrite nth_concat by (auto; rewrite map_length; auto). rewrite (nth_map_default _ _ _ p), Epp by auto. reflexivity. }
  split.
  - intros E i p Ep. destruct (nth_error_nth' ps i p p Ep) as [Hi Epp]. split; [|intros k Hk; lia]. intros a Ha. specialize (E i a Hi Ha).
    rewrite (block_entry (length ps) d), (Entry i p) in E by auto. rewrite E. unfold lagrangian, asum. simpl. destruct curv; ring.
  - intros E i a Hi Ha. destruct (nth_error ps i) as [p|] eqn:Ep; [|apply nth_error_None in Ep; lia].
    rewrite (block_entry (length ps) d), (Entry i p) by auto. destruct (E i p Ep) as [Eu _]. specialize (Eu a Ha). unfold lagrangian, asum in Eu. simpl in Eu.
    destruct curv; lra.
Qed.
Lemma global_unconstrained_kkt d nc curv A ps : (0 < length ps)%nat -> (forall p, In p ps -> length (pt_grad p) = d) ->
  matrix (length ps * d) (length ps * d) A ->
  exists st, global_step solve lstsq d nc false curv A ps = Ok (st, map pt_grad ps) /\ matrix (length ps) d st /\
    ((exists st', matrix (length ps) d st' /\ linear_kkt curv d 0 A ps st') -> linear_kkt curv d 0 A ps st).
Proof.
  intros HN Hps HA. destruct (global_unconstrained d nc curv A ps HN Hps HA) as (st & E & Hst & Ec). exists st. split; auto. split; auto.
  intros (st' & Hst' & Hk). apply linear_unconstrained; auto. apply (linear_unconstrained d curv) in Hk; auto.
  assert (Hb : length (concat (map pt_grad ps)) = (length ps * d)%nat).
  { rewrite (concat_length d), map_length; auto. intros r Hr. apply in_map_iff in Hr as (p & <- & Hp). auto. }
  assert (HL : length (newton_dir solve lstsq A (concat (map pt_grad ps))) = (length ps * d)%nat) by (apply newton_dir_length; auto).
  rewrite Ec. destruct (chunks_spec (length ps) d _ HL) as (-> & _ & _). apply (newton_dir_solves (length ps * d)); auto.
  exists (concat st'). split; auto. destruct Hst' as [S1 S2]. rewrite (concat_length d), S1; auto.
Qed.
End Main.
