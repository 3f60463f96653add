(** Solvers that satisfy the assumptions made about scipy's and numpy's: a least-squares
    solution by successive orthogonal projections.  They show that the assumptions can be met. *)
From Coq Require Import List Arith Bool Reals Lia Lra Psatz.
From Verif Require Import Num Exn ListAux MiscModel MiscProof StateModel NewtonModel HVXModel HVXProof StepModel StepSpec StepProof StepTop StepMain StepDpn.
Import ListNotations.
Open Scope R_scope.

(** coefficients of the projection of [b] on the span of the columns *)
Fixpoint lsq (n : nat) (cols : list (list R)) (b : list R) : list R :=
  match cols with
  | [] => []
  | c :: cs =>
      let y := lsq n cs c in
      let z := lsq n cs b in
      let c' := axpy (-1) c (lincomb n y cs) in
      let b' := axpy (-1) b (lincomb n z cs) in
      if Req_EM_T (dotR c' c') 0 then 0 :: z
      else let t := dotR b' c' / dotR c' c' in t :: axpy (- t) z y
  end.
Definition lstsq0 (A : list (list R)) (b : list R) : list R := lsq (length A) (transpose 0 (length A) A) b.
Definition solve0 (A : list (list R)) (b : list R) : option (list R) :=
  if list_eq_dec Req_EM_T (mv A (lstsq0 A b)) b then Some (lstsq0 A b) else None.

Lemma lincomb_cons n t x c cs : length c = n -> lincomb n (t :: x) (c :: cs) = axpy t (lincomb n x cs) c.
Proof.
  intros Hc. apply (list_eq_nth 0); [rewrite axpy_length by (rewrite lincomb_length; auto); rewrite !lincomb_length; auto|].
  intros i Hi. rewrite lincomb_length in Hi. rewrite lincomb_nth by auto. unfold axpy. rewrite (zip_with_nth _ _ _ _ 0 0) by (rewrite ?lincomb_length; lia).
  rewrite lincomb_nth by auto. unfold column. cbn [map]. rewrite dotR_cons. ring.
Qed.
Lemma lincomb_nil n x : lincomb n x [] = repeat 0 n.
Proof.
  apply (list_eq_nth 0); [rewrite lincomb_length, repeat_length; auto|]. intros i Hi. rewrite lincomb_length in Hi. rewrite lincomb_nth by auto.
  unfold column. cbn [map]. rewrite dotR_nil_r. rewrite nth_repeat0. auto.
Qed.
Lemma lincomb_axpy n t x y cs : length x = length y -> lincomb n (axpy t x y) cs = axpy t (lincomb n x cs) (lincomb n y cs).
Proof.
  intros H. apply (list_eq_nth 0); [rewrite axpy_length by (rewrite !lincomb_length; auto); rewrite !lincomb_length; auto|]. intros i Hi. rewrite lincomb_length in Hi.
  rewrite lincomb_nth by auto. rewrite dotR_comm, dotR_axpy, !(dotR_comm (column i cs)) by auto. unfold axpy. rewrite (zip_with_nth _ _ _ _ 0 0) by (rewrite ?lincomb_length; lia).
  rewrite !lincomb_nth by auto. reflexivity.
Qed.
(** a vector orthogonal to all columns is orthogonal to their combinations *)
Lemma dotR_lincomb n x cs v : length v = n -> (forall c, In c cs -> length c = n) -> length x = length cs ->
  (forall c, In c cs -> dotR c v = 0) -> dotR v (lincomb n x cs) = 0.
Proof.
  intros Hv Hc. revert x. induction cs as [|c cs IH]; intros [|t x] Hx Ho; simpl in Hx; try lia.
  - rewrite lincomb_nil, dotR_comm. apply dotR_zeros.
  - rewrite lincomb_cons by (apply Hc; simpl; auto). rewrite dotR_axpy by (rewrite lincomb_length; symmetry; apply Hc; simpl; auto).
    rewrite IH; [|intros; apply Hc; simpl; auto|lia|intros; apply Ho; simpl; auto]. rewrite (dotR_comm v c), Ho by (simpl; auto). ring.
Qed.
Lemma dotR_zero_vec v : dotR v v = 0 -> forall u, dotR u v = 0.
Proof.
  induction v as [|a v IH]; intros H u; [apply dotR_nil_r|]. rewrite dotR_cons in H. pose proof (dotR_self_nonneg v). assert (Ha : a = 0) by nra.
  destruct u as [|b u]; [apply dotR_nil_l|]. rewrite dotR_cons, IH by nra. subst. ring.
Qed.

Lemma lsq_spec n cols b : (forall c, In c cols -> length c = n) -> length b = n ->
  length (lsq n cols b) = length cols /\ forall c, In c cols -> dotR c (axpy (-1) b (lincomb n (lsq n cols b) cols)) = 0.
Proof.
  revert b. induction cols as [|c cs IH]; intros b Hc Hb; [split; auto; intros c []|].
  assert (Hcn : length c = n) by (apply Hc; simpl; auto). assert (Hcs : forall c0, In c0 cs -> length c0 = n) by (intros; apply Hc; simpl; auto).
  cbn [lsq]. set (y := lsq n cs c). set (z := lsq n cs b). set (c' := axpy (-1) c (lincomb n y cs)). set (b' := axpy (-1) b (lincomb n z cs)).
  destruct (IH c Hcs Hcn) as [Ly Oy]. destruct (IH b Hcs Hb) as [Lz Oz]. fold y c' in Ly, Oy. fold z b' in Lz, Oz.
  assert (Lc' : length c' = n) by (unfold c'; rewrite axpy_length; rewrite ?lincomb_length; auto).
  assert (Lb' : length b' = n) by (unfold b'; rewrite axpy_length; rewrite ?lincomb_length; auto).
  assert (Ec : forall v, length v = n -> (forall c0, In c0 cs -> dotR c0 v = 0) -> dotR c v = dotR c' v).
  { intros v Hv Ho. unfold c'. rewrite (dotR_comm (axpy _ _ _) v), dotR_axpy, (dotR_lincomb n y cs v) by (rewrite ?lincomb_length; auto). rewrite (dotR_comm v c). ring. }
  destruct (Req_EM_T (dotR c' c') 0) as [E0|E0].
  - split; [simpl; auto|]. assert (El : lincomb n (0 :: z) (c :: cs) = lincomb n z cs).
    { rewrite lincomb_cons by auto. apply (list_eq_nth 0); [rewrite axpy_length; rewrite ?lincomb_length; auto|]. intros i Hi. unfold axpy.
      rewrite axpy_length in Hi by (rewrite lincomb_length; auto). rewrite lincomb_length in Hi. rewrite (zip_with_nth _ _ _ _ 0 0) by (rewrite ?lincomb_length; lia). ring. }
    rewrite El. fold b'. intros c0 [<-|Hin]; [|apply Oz; auto]. rewrite Ec by auto. rewrite dotR_comm. apply dotR_zero_vec. auto.
  - set (t := dotR b' c' / dotR c' c'). split; [simpl; rewrite axpy_length; congruence|].
    assert (El : axpy (-1) b (lincomb n (t :: axpy (- t) z y) (c :: cs)) = axpy (- t) b' c').
    { rewrite lincomb_cons by auto. rewrite lincomb_axpy by congruence. unfold b', c'.
      assert (La : forall r u v, length u = n -> length v = n -> length (axpy r u v) = n) by (intros; rewrite axpy_length; congruence).
      pose proof (lincomb_length n y cs) as L1. pose proof (lincomb_length n z cs) as L2.
      apply (list_eq_nth 0); [rewrite !La; auto|]. intros i Hi. rewrite La in Hi by auto.
      unfold axpy. rewrite !(zip_with_nth _ _ _ _ 0 0) by (rewrite ?zip_with_length, ?lincomb_length; lia). ring. }
    rewrite El. assert (Or : forall c0, In c0 cs -> dotR c0 (axpy (- t) b' c') = 0).
    { intros c0 Hin. rewrite dotR_axpy by congruence. rewrite Oz, Oy by auto. ring. }
    intros c0 [<-|Hin]; auto. rewrite Ec by (auto; rewrite axpy_length; congruence). rewrite dotR_axpy by congruence. rewrite (dotR_comm c' b'). unfold t. field. auto.
Qed.

Lemma mv_columns n A x : matrix n n A -> mv A x = lincomb n x (transpose 0 n A).
Proof.
  intros [A1 A2]. apply (list_eq_nth 0); [rewrite mv_length, lincomb_length; auto|]. intros i Hi. rewrite mv_length in Hi.
  rewrite mv_nth, lincomb_nth by lia. rewrite dotR_comm. f_equal. apply (list_eq_nth 0).
  - unfold column. rewrite map_length, transpose_length. apply A2, nth_In. auto.
  - intros j Hj. rewrite (A2 (nth i A [])) in Hj by (apply nth_In; auto). unfold column. rewrite (nth_map_default _ _ _ []) by (rewrite transpose_length; auto).
    rewrite transpose_row by auto. rewrite (nth_map_default _ _ _ []) by auto. reflexivity.
Qed.
Lemma transpose_cols n A c : matrix n n A -> In c (transpose 0 n A) -> length c = n.
Proof.
  intros [A1 A2] Hc. apply (In_nth _ _ []) in Hc as (i & Hi & <-). rewrite transpose_length in Hi. rewrite transpose_row, map_length by auto. auto.
Qed.
Lemma lstsq0_ok : lstsq_ok lstsq0.
Proof.
  intros n A b HA Hb. pose proof HA as [A1 A2]. unfold lstsq0. rewrite A1. destruct (lsq_spec n (transpose 0 n A) b) as [L O]; auto; [intros c; apply transpose_cols; auto|].
  set (x := lsq n (transpose 0 n A) b) in *. rewrite transpose_length in L. split; auto. intros y Hy.
  set (u := mv A x). set (v := axpy (-1) (mv A y) u). assert (Lu : length u = n) by (unfold u; rewrite mv_length; auto).
  assert (Ly : length (mv A y) = n) by (rewrite mv_length; auto). assert (Lv : length v = n) by (unfold v; rewrite axpy_length; congruence).
  assert (Ey : mv A y = axpy 1 u v).
  { apply (list_eq_nth 0); [rewrite axpy_length; congruence|]. intros i Hi. unfold v, axpy. rewrite !(zip_with_nth _ _ _ _ 0 0) by (rewrite ?zip_with_length; lia). ring. }
  rewrite Ey, sqdist_axpy by congruence.
  assert (Hz : dotR (axpy (-1) u b) v = 0).
  { set (r := axpy (-1) b u). assert (Lr : length r = n) by (unfold r; rewrite axpy_length; congruence).
    assert (Eneg : axpy (-1) u b = map Ropp r).
    { apply (list_eq_nth 0); [rewrite map_length, axpy_length; congruence|]. intros i Hi. rewrite axpy_length in Hi by congruence.
      rewrite (nth_map_default _ _ _ 0) by lia. unfold r, axpy. rewrite !(zip_with_nth _ _ _ _ 0 0) by lia. ring. }
    rewrite Eneg, dotR_comm, dotR_opp, dotR_comm.
    assert (Ev : v = lincomb n (axpy (-1) y x) (transpose 0 n A)).
    { rewrite lincomb_axpy by congruence. rewrite <- !(mv_columns n) by auto. reflexivity. }
    rewrite Ev. rewrite (dotR_lincomb n); [ring|auto|intros c; apply transpose_cols; auto|rewrite axpy_length, transpose_length; congruence|].
    intros c Hc. unfold r, u. rewrite (mv_columns n) by auto. apply O. auto. }
  rewrite Hz. pose proof (dotR_self_nonneg v). lra.
Qed.
Lemma solve0_ok : solve_ok solve0.
Proof.
  intros n A b x HA Hb E. unfold solve0 in E. destruct (list_eq_dec Req_EM_T (mv A (lstsq0 A b)) b) as [E1|]; [|discriminate]. injection E as <-.
  split; auto. apply lstsq0_ok; auto.
Qed.
