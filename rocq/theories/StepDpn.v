(** The step of DpN, definite systems, and the direction of the step. *)
From Coq Require Import List Arith Bool Reals Lia Lra Psatz.
From Verif Require Import Num Exn ListAux MiscModel MiscProof PrecondProof StateModel NewtonModel RefModel RefProof HVXModel HVXProof StepModel StepSpec StepProof StepTop StepMain.
Import ListNotations.
Open Scope R_scope.

Lemma block_diag_single d b : block_diag d [b] = b.
Proof. simpl. rewrite app_nil_r. rewrite <- (map_id b) at 2. apply map_ext. intros r. apply app_nil_r. Qed.

Section Dpn.
Variable solve : list (list R) -> list R -> option (list R).
Variable lstsq : list (list R) -> list R -> list R.
Variable chol : nat -> (nat -> nat -> R) -> option (nat -> nat -> R).
Hypothesis Hsolve : solve_ok solve.
Hypothesis Hlstsq : lstsq_ok lstsq.

Lemma precond_matrix n A : length A = n -> matrix n n (precond chol A).
Proof.
  intros H. unfold precond. rewrite H. split; [rewrite map_length, seq_length; auto|]. intros r Hr. apply in_map_iff in Hr as (i & <- & Hi).
  rewrite map_length, seq_length. auto.
Qed.
Lemma precond_ent n A i j : length A = n -> (i < n)%nat -> (j < n)%nat ->
  ent (precond chol A) i j = precondition_hessian n (chol n) (ent A) i j.
Proof.
  intros H Hi Hj. unfold ent, precond. rewrite H. rewrite (nth_map_default _ _ _ 0%nat) by (rewrite seq_length; auto).
  rewrite (nth_map_default _ _ _ 0%nat) by (rewrite seq_length; auto). rewrite !seq_nth by auto. reflexivity.
Qed.
Lemma mneg_matrix n A : matrix n n A -> matrix n n (mneg A).
Proof. intros [H1 H2]. split; [unfold mneg; rewrite map_length; auto|]. intros r Hr. apply in_map_iff in Hr as (r' & <- & Hr'). rewrite map_length. auto. Qed.
Lemma mneg_ent A i j : ent (mneg A) i j = - ent A i j.
Proof.
  unfold ent, mneg. destruct (Nat.lt_ge_cases i (length A)) as [Hi|Hi].
  - rewrite (nth_map_default _ _ _ []) by auto. destruct (Nat.lt_ge_cases j (length (nth i A []))) as [Hj|Hj].
    + rewrite (nth_map_default _ _ _ 0) by auto. reflexivity.
    + rewrite !nth_overflow by (rewrite ?map_length; auto). ring.
  - rewrite !(nth_overflow _ []) by (rewrite ?map_length; auto). destruct j; simpl; ring.
Qed.

(** the Hessian used by DpN at one point *)
Definition dpn_A (pre : bool) (Hr : list (list R)) := if pre then precond chol Hr else Hr.
Lemma dpn_A_matrix d pre Hr : matrix d d Hr -> matrix d d (dpn_A pre Hr).
Proof. intros H. destruct pre; simpl; auto. apply precond_matrix. apply H. Qed.

Lemma dpn_point_constrained d nc pre Hr p : matrix d d Hr -> shaped d nc p ->
  exists s r, dpn_point solve lstsq chol d nc true pre Hr p = Ok (s, r) /\ length s = (d + nc)%nat /\ is_R d nc [p] [r] /\
    inactive_zero d nc [p] [s] /\
    ((exists s', length s' = (d + nc)%nat /\ linear_kkt true d nc (dpn_A pre Hr) [p] [s']) -> linear_kkt true d nc (dpn_A pre Hr) [p] [s]).
Proof.
  intros HH Hp. assert (HA : matrix (length [p] * d) (length [p] * d) (dpn_A pre Hr)).
  { simpl. rewrite Nat.add_0_r. apply dpn_A_matrix; auto. }
  assert (Hps : forall q, In q [p] -> shaped d nc q) by (intros q [<-|[]]; auto).
  pose proof Hp as (H1 & H2 & H3 & H4 & H5 & H6 & H7). unfold dpn_point. fold (dpn_A pre Hr). rewrite H4, Nat.eqb_refl, (residual_ok d nc) by auto. cbn [bind fst snd].
  rewrite !bmask_ok by congruence. cbn [bind]. fold (act_B p) (act_w p).
  destruct (AM_spec d [p] true (dpn_A pre Hr) [repeat 0 d] HA) as (A' & EA & HA' & _).
  { intros r [<-|[]]. apply repeat_length. } { reflexivity. }
  pose proof EA as EA0. unfold AM, curv_blocks in EA. cbn [map] in EA. rewrite block_diag_single in EA. rewrite EA. cbn [bind].
  destruct (kkt_spec d nc [p] Hps A' HA') as (DR & EK & HDR & _). pose proof EK as EK0.
  cbn [map] in EK, HDR. rewrite block_diag_single in EK, HDR. simpl (length [p] * d)%nat in EK, HDR. rewrite Nat.add_0_r in EK, HDR. rewrite EK. cbn [bind].
  assert (Lv : length (act_v p) = count_true (pt_act p)) by (apply mask_row_length; congruence).
  assert (LD : length (act_D p) = count_true (pt_act p)) by (apply mask_row_length; congruence).
  set (b := gvec d p ++ act_v p). assert (Hb : length b = (d + length (act_D p))%nat) by (unfold b; rewrite app_length, (gvec_length d nc) by auto; lia).
  assert (HL : length (newton_dir solve lstsq DR b) = (d + length (act_D p))%nat) by (apply newton_dir_length; auto).
  set (x := newton_dir solve lstsq DR b) in *. unfold fill_row. rewrite HL, count_app, count_repeat, LD, Nat.eqb_refl. cbn [bind].
  assert (Ex : x = firstn d x ++ skipn d x) by (symmetry; apply firstn_skipn).
  assert (Lf : length (firstn d x) = d) by (rewrite firstn_length; lia). assert (Ls : length (skipn d x) = count_true (pt_act p)) by (rewrite skipn_length; lia).
  assert (Es : fill 0 (repeat true d ++ pt_act p) x = firstn d x ++ fill 0 (pt_act p) (skipn d x)).
  { rewrite Ex at 1. apply fill_repeat; auto. }
  rewrite Es. set (s := firstn d x ++ fill 0 (pt_act p) (skipn d x)).
  assert (Hs : length s = (d + nc)%nat) by (unfold s; rewrite app_length, fill_length; lia).
  exists s, (R_row (pt_act p) (gvec d p, act_v p, act_D p)). split; auto. split; auto. split; [|split].
  - destruct (compute_R_spec d nc [p] Hps) as (Rm & dH & ER & HR). rewrite (compute_R_ok d nc [p] Hps) in ER. injection ER as <- _. exact HR.
  - intros i q k Eq Hk Hz. destruct i as [|i]; [|destruct i; discriminate]. injection Eq as <-. unfold ent, s. simpl nth.
    rewrite app_nth2 by lia. rewrite Lf. replace (d + k - d)%nat with k by lia. apply fill_nth; auto. lia.
  - intros (s' & Hs' & Hk). assert (Hm : forall t, length t = (d + nc)%nat -> matrix (length [p]) (d + nc) [t]).
    { intros t Ht. split; auto. intros r [<-|[]]; auto. }
    assert (Sys : forall t, length t = (d + nc)%nat -> mv DR (firstn d t ++ mask_row (pt_act p) (skipn d t)) = map Ropp b <-> linear_kkt true d nc (dpn_A pre Hr) [p] [t]).
    { intros t Ht. pose proof (system_iff d nc [p] Hps true (dpn_A pre Hr) A' DR [t] HA EA0 EK0 (Hm t Ht)) as SI.
      unfold rhs, matrix_to_Nd_vector in SI. simpl in SI. rewrite !app_nil_r in SI. exact SI. }
    apply Sys; auto. unfold s. rewrite firstn_app, skipn_app, Lf, Nat.sub_diag. rewrite (firstn_all2 (firstn d x)), (skipn_all2 (firstn d x)) by lia. simpl.
    rewrite app_nil_r, mask_fill by auto. rewrite <- Ex. apply (newton_dir_solves solve lstsq Hsolve Hlstsq (d + length (act_D p))); auto.
    exists (firstn d s' ++ mask_row (pt_act p) (skipn d s')). split.
    + rewrite app_length, mask_row_length, firstn_length by (rewrite skipn_length; lia). lia.
    + apply Sys; auto.
Qed.

Lemma dpn_point_unconstrained d nc pre Hr p : matrix d d Hr -> length (pt_grad p) = d ->
  dpn_point solve lstsq chol d nc false pre Hr p = Ok (newton_dir solve lstsq (dpn_A pre Hr) (pt_grad p), pt_grad p).
Proof.
  intros HH Hg. unfold dpn_point. fold (dpn_A pre Hr). assert (HL : length (newton_dir solve lstsq (dpn_A pre Hr) (pt_grad p)) = d).
  { apply newton_dir_length; auto. apply dpn_A_matrix; auto. }
  unfold fill_row. rewrite HL, count_repeat, Nat.eqb_refl. cbn [bind]. f_equal. f_equal.
  rewrite <- (app_nil_r (repeat true d)). rewrite <- (app_nil_r (newton_dir _ _ _ _)) at 1. rewrite fill_repeat by auto. simpl. apply app_nil_r.
Qed.

(** * definite systems have a solution, which both solvers find *)
Definition definite (n : nat) (A : list (list R)) : Prop :=
  forall x, length x = n -> (exists i, (i < n)%nat /\ nth i x 0 <> 0) -> dotR x (mv A x) <> 0.

Definition axpy (t : R) (x y : list R) : list R := zip_with (fun a c => a + t * c) x y.
Lemma dotR_axpy t u x y : length x = length y -> dotR u (axpy t x y) = dotR u x + t * dotR u y.
Proof.
  revert u y. induction x as [|a x IH]; intros [|b u] [|c y] H; simpl in H; try lia; unfold axpy; cbn [zip_with]; rewrite ?dotR_nil_l, ?dotR_nil_r; try ring.
  rewrite !dotR_cons. fold (axpy t x y). rewrite IH by lia. ring.
Qed.
Lemma mv_axpy t A x y : length x = length y -> mv A (axpy t x y) = axpy t (mv A x) (mv A y).
Proof. intros H. unfold mv, axpy. rewrite zip_with_map. induction A as [|r A IH]; simpl; auto. f_equal; auto. apply dotR_axpy; auto. Qed.
Lemma axpy_length t x y : length x = length y -> length (axpy t x y) = length x.
Proof. intros H. unfold axpy. rewrite zip_with_length. lia. Qed.
Lemma sqdist_axpy t u v b : length u = length b -> length v = length b ->
  sqdist (axpy t u v) b = sqdist u b + 2 * t * dotR (axpy (-1) u b) v + t * t * dotR v v.
Proof.
  revert v b. induction u as [|a u IH]; intros [|c v] [|e b] H H'; simpl in H, H'; try lia.
  - unfold sqdist, axpy. simpl. rewrite ?dotR_nil_l. ring.
  - unfold axpy. cbn [zip_with]. fold (axpy t u v) (axpy (-1) u b). unfold sqdist. cbn [zip_with fold_right].
    fold (sqdist (axpy t u v) b) (sqdist u b). rewrite IH by lia. rewrite !dotR_cons. ring.
Qed.
Lemma dotR_self_nonneg v : 0 <= dotR v v.
Proof. induction v as [|a v IH]; [rewrite dotR_nil_l; lra|]. rewrite dotR_cons. nra. Qed.

Lemma axpy_zero u b : length u = length b -> (forall i, (i < length u)%nat -> nth i (axpy (-1) u b) 0 = 0) -> u = b.
Proof.
  intros H Hz. apply (list_eq_nth 0); auto. intros i Hi. specialize (Hz i Hi). unfold axpy in Hz. rewrite (zip_with_nth _ _ _ _ 0 0) in Hz by lia. lra.
Qed.

Lemma lstsq_definite n A b : matrix n n A -> length b = n -> definite n A -> mv A (lstsq A b) = b.
Proof.
  intros HA Hb HD. destruct (Hlstsq n A b HA Hb) as [HL Hmin]. set (x := lstsq A b) in *. assert (Lm : length (mv A x) = n) by (rewrite mv_length; apply HA).
  set (r := axpy (-1) (mv A x) b). assert (Lr : length r = n) by (unfold r; rewrite axpy_length; congruence).
  assert (Hq : forall t, 0 <= 2 * t * dotR r (mv A r) + t * t * dotR (mv A r) (mv A r)).
  { intros t. specialize (Hmin (axpy t x r)). rewrite axpy_length in Hmin by congruence. specialize (Hmin HL). rewrite mv_axpy in Hmin by congruence.
    rewrite sqdist_axpy in Hmin by (rewrite ?mv_length; destruct HA; congruence). fold r in Hmin. lra. }
  assert (Hc : dotR r (mv A r) = 0).
  { set (c := dotR r (mv A r)) in *. set (q := dotR (mv A r) (mv A r)) in *. assert (0 <= q) by apply dotR_self_nonneg.
    specialize (Hq (- c / (q + 1))). replace (2 * (- c / (q + 1)) * c + - c / (q + 1) * (- c / (q + 1)) * q) with (- (c * c) * ((q + 2) / ((q + 1) * (q + 1)))) in Hq by (field; lra).
    assert (0 < (q + 2) / ((q + 1) * (q + 1))) by (apply Rdiv_lt_0_compat; nra). destruct (Req_EM_T c 0) as [|Hc0]; auto. exfalso. assert (0 < c * c) by nra. nra. }
  apply axpy_zero; [congruence|]. intros i Hi. fold r. destruct (Req_EM_T (nth i r 0) 0) as [E|E]; auto. exfalso. apply (HD r); auto. exists i. split; auto. congruence.
Qed.
Lemma newton_dir_definite n A b : matrix n n A -> length b = n -> definite n A -> mv A (newton_dir solve lstsq A b) = map Ropp b.
Proof.
  intros HA Hb HD. unfold newton_dir. rewrite mv_opp. f_equal. destruct (solve A b) as [x|] eqn:E.
  - apply (Hsolve n A b x); auto.
  - apply (lstsq_definite n); auto.
Qed.

(** * quadratic forms *)
Lemma sumn_sum_to n f : sumn n f = sum_to n f.
Proof. induction n; simpl; congruence. Qed.
Lemma quad_mv n A x : matrix n n A -> length x = n -> dotR x (mv A x) = quad n (ent A) (fun i => nth i x 0).
Proof.
  intros [A1 A2] Hx. unfold quad. rewrite (dotR_sumn n) by (auto; rewrite mv_length; auto). rewrite sumn_sum_to. apply st_ext. intros i Hi.
  rewrite mv_nth by lia. rewrite (dotR_sumn n) by (auto; apply A2, nth_In; lia). rewrite sumn_sum_to, <- st_scal. apply st_ext. intros j Hj. unfold ent. ring.
Qed.
Lemma posdef_definite n A : matrix n n A -> posdef n (ent A) -> definite n A.
Proof. intros HA HP x Hx Hn. rewrite (quad_mv n) by auto. specialize (HP (fun i => nth i x 0) Hn). lra. Qed.
Lemma mneg_quad n A x : quad n (ent (mneg A)) x = - quad n (ent A) x.
Proof.
  unfold quad. rewrite <- (Rmult_1_l (sum_to n (fun i => sum_to n (fun j => x i * ent A i j * x j)))), <- Ropp_mult_distr_l_reverse, <- st_scal.
  apply st_ext. intros i Hi. rewrite <- st_scal. apply st_ext. intros j Hj. rewrite mneg_ent. ring.
Qed.
Lemma negdef_definite n A : matrix n n A -> posdef n (ent (mneg A)) -> definite n A.
Proof. intros HA HP x Hx Hn. rewrite (quad_mv n) by auto. specialize (HP (fun i => nth i x 0) Hn). rewrite mneg_quad in HP. lra. Qed.

(** the direction: [s] = -1 descends, [s] = 1 ascends *)
Lemma newton_dir_sign n A b : matrix n n A -> length b = n -> definite n A ->
  (forall i, (i < n)%nat -> nth i b 0 = 0) \/ (exists i, (i < n)%nat /\ nth i b 0 <> 0) ->
  let x := newton_dir solve lstsq A b in
  length x = n /\ dotR b x = - dotR x (mv A x) /\
  ((forall i, (i < n)%nat -> nth i b 0 = 0) -> forall i, nth i x 0 = 0) /\
  ((exists i, (i < n)%nat /\ nth i b 0 <> 0) -> exists i, (i < n)%nat /\ nth i x 0 <> 0).
Proof.
  intros HA Hb HD Hcase x. assert (Lx : length x = n) by (apply newton_dir_length; auto). pose proof (newton_dir_definite n A b HA Hb HD) as Ex. fold x in Ex.
  assert (Ed : dotR b x = - dotR x (mv A x)).
  { rewrite Ex, dotR_opp, (dotR_comm b x). ring. }
  split; auto. split; auto. split.
  - intros Hz i. destruct (Nat.lt_ge_cases i n) as [Hi|Hi]; [|apply nth_overflow; lia]. destruct (Req_EM_T (nth i x 0) 0) as [E|E]; auto. exfalso.
    apply (HD x Lx); [exists i; split; auto|]. rewrite Ex, dotR_opp, (dotR_sumn n) by auto.
    assert (E0 : sumn n (fun i => nth i x 0 * nth i b 0) = 0) by (apply sumn_zero; intros k Hk; rewrite Hz by auto; ring). rewrite E0. ring.
  - intros (i & Hi & Hn). destruct (Classical_Prop.classic (exists j, (j < n)%nat /\ nth j x 0 <> 0)) as [|Hno]; auto. exfalso. apply Hn.
    assert (Hx0 : forall j, (j < n)%nat -> nth j x 0 = 0).
    { intros j Hj. destruct (Req_EM_T (nth j x 0) 0); auto. exfalso. apply Hno. exists j. auto. }
    assert (E : nth i (map Ropp b) 0 = 0).
    { rewrite <- Ex, mv_nth by (destruct HA; lia). rewrite (dotR_sumn n) by (auto; apply HA, nth_In; destruct HA; lia).
      apply sumn_zero. intros k Hk. rewrite Hx0 by auto. ring. }
    rewrite (nth_map_default _ _ _ 0) in E by lia. lra.
Qed.
End Dpn.
