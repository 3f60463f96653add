(** HVN on a line: one iteration gives the equally spaced population. *)
From Coq Require Import List Arith Bool Reals ZArith Lia Lra Psatz Permutation.
From Verif Require Import Num Exn ListAux NDSSpec HVModel HVSpec HVDModel HVDSpec HVDProof HVXModel HVXProof HvnTwo HvnDef HvnLine.
From Verif Require Import MiscModel StateModel StateSpec StateProof NewtonModel NewtonProof NewtonBox NewtonPop RefModel StepModel StepSpec StepProof StepTop StepMain StepIter StepLast ShiftModel IterModel IterSpec IterProof IterMain IterTotal HvnModel HvnSpec HvnProof HvnMain HvnRun HvnHist.
From Verif Require PropsNewton PropsStep.
Import ListNotations.
Open Scope R_scope.

Lemma sumn_fold n f : sumn n f = fold_right Rplus 0 (map f (seq 0 n)).
Proof.
  induction n as [|n IH]; auto. cbn [sumn]. rewrite IH, seq_S, map_app. cbn [map Nat.add]. generalize (map f (seq 0 n)). intros l. induction l as [|a l IHl]; cbn [app fold_right]. lra. rewrite <- IHl. ring.
Qed.
Lemma fold_plus_perm l l' : Permutation l l' -> fold_right Rplus 0 l = fold_right Rplus 0 l'.
Proof. induction 1; cbn [fold_right]; lra. Qed.
Lemma sumn_perm n f sg : Permutation sg (seq 0 n) -> sumn n f = sumn n (fun s => f (nth s sg 0%nat)).
Proof.
  intros H. rewrite !sumn_fold. pose proof (Permutation_length H) as L. rewrite seq_length in L. rewrite <- (map_map (fun s => nth s sg 0%nat) f). rewrite <- L at 2. rewrite HVTop.map_nth_seq. apply fold_plus_perm, Permutation_map, Permutation_sym, H.
Qed.
Lemma sumn_delta n (f : nat -> R) c : sumn n (fun s => (if (c =? s)%nat then 1 else 0) * f s) = if (c <? n)%nat then f c else 0.
Proof.
  destruct (Nat.ltb_spec c n) as [H|H]. rewrite (sumn_single n c); auto. rewrite Nat.eqb_refl. ring. intros j Hj Hne. rewrite (proj2 (Nat.eqb_neq c j)) by auto. ring.
  apply sumn_zero. intros j Hj. rewrite (proj2 (Nat.eqb_neq c j)) by lia. ring.
Qed.
(** the tridiagonal matrix takes second differences *)
Lemma tri_sum N sg u s : (s < N)%nat -> sumn N (fun s' => tri s s' * u (nth s' sg 0%nat)) = ext N sg u 0 0 s - 2 * ext N sg u 0 0 (S s) + ext N sg u 0 0 (S (S s)).
Proof.
  intros H. rewrite (sumn_ext _ _ (fun s' => (if (S s =? s')%nat then 1 else 0) * u (nth s' sg 0%nat) + ((if (s =? S s')%nat then 1 else 0) * u (nth s' sg 0%nat) + (- 2) * ((if (s =? s')%nat then 1 else 0) * u (nth s' sg 0%nat))))) by (intros; unfold tri; ring).
  rewrite !HVXTop.sumn_plus, sumn_scal, !(sumn_delta N (fun s => u (nth s sg 0%nat))).
  assert (E : sumn N (fun s' => (if (s =? S s')%nat then 1 else 0) * u (nth s' sg 0%nat)) = ext N sg u 0 0 s).
  { destruct s as [|s]; cbn [ext]. apply sumn_zero. intros; cbn [Nat.eqb]; ring. cbn [Nat.eqb]. apply (sumn_delta N (fun s => u (nth s sg 0%nat))). }
  rewrite E. cbn [ext]. rewrite (proj2 (Nat.ltb_lt s N) H). ring.
Qed.
Lemma second_diff N (w : nat -> R) : (forall s, (s < N)%nat -> w s - 2 * w (S s) + w (S (S s)) = 0) -> forall k, (k <= S N)%nat -> w k = w 0%nat + INR k * (w 1%nat - w 0%nat).
Proof.
  intros H k. assert (G : (k <= S N)%nat -> w k = w 0%nat + INR k * (w 1%nat - w 0%nat) /\ ((S k <= S N)%nat -> w (S k) = w 0%nat + INR (S k) * (w 1%nat - w 0%nat))).
  { induction k as [|k IH]; intros Hk. split; intros; simpl; lra. destruct (IH ltac:(lia)) as [A B]. specialize (B Hk). split; auto. intros Hk'. specialize (H k ltac:(lia)). rewrite A, B in H. rewrite !S_INR in *. lra. }
  intros Hk. apply G; auto.
Qed.
Fixpoint pos (i : nat) (l : list nat) : nat := match l with [] => 0%nat | a :: l => if (a =? i)%nat then 0%nat else S (pos i l) end.
Lemma pos_nth l : forall s, NoDup l -> (s < length l)%nat -> pos (nth s l 0%nat) l = s.
Proof.
  induction l as [|a l IH]; intros s Hn Hs; [simpl in Hs; lia|]. inversion Hn; subst. destruct s as [|s]; cbn [nth pos]. rewrite Nat.eqb_refl; auto.
  rewrite (proj2 (Nat.eqb_neq a (nth s l 0%nat))). rewrite IH; auto. simpl in Hs; lia. intros E. apply H1. rewrite E. apply nth_In. simpl in Hs; lia.
Qed.
Lemma norm_zero l : (forall v, In v l -> v = 0) -> norm l = 0.
Proof.
  intros H. unfold norm. rewrite <- sqrt_0 at 2. f_equal. induction l as [|a l IH]; auto. cbn [map fold_right]. rewrite IH by (intros; apply H; simpl; auto). rewrite (H a (or_introl eq_refl)). ring.
Qed.
Lemma even_sorts N sg z a b : Permutation sg (seq 0 N) -> a < b -> (forall s, (s < N)%nat -> z (nth s sg 0%nat) = a + INR (S s) * ((b - a) / INR (S N))) -> sorts N z sg.
Proof.
  intros Hp Hab Hz. split; auto. intros s s' H1 H2. rewrite !Hz by lia. assert (0 < (b - a) / INR (S N)). { apply Rdiv_lt_0_compat. lra. apply lt_0_INR. lia. }
  assert (INR (S s) < INR (S s')) by (apply lt_INR; lia). nra.
Qed.
Lemma even_ext N sg z a b k : (forall s, (s < N)%nat -> z (nth s sg 0%nat) = a + INR (S s) * ((b - a) / INR (S N))) -> (k <= S N)%nat -> ext N sg z a b k = a + INR k * ((b - a) / INR (S N)).
Proof.
  intros Hz Hk. destruct k as [|k]; cbn [ext]. simpl INR. ring. destruct (Nat.ltb_spec k N) as [H|H]. apply Hz; auto. replace k with N by lia. field. apply not_0_INR. lia.
Qed.

Lemma sg_ex N x sg i : sorts N x sg -> (i < N)%nat -> exists s, (s < N)%nat /\ nth s sg 0%nat = i.
Proof.
  intros [Hp _] Hi. assert (Hin : In i sg) by (apply (Permutation_in _ (Permutation_sym Hp)); apply in_seq; lia). apply (In_nth _ _ 0%nat) in Hin as (s & Hs & E).
  exists s. split; auto. rewrite (Permutation_length Hp), seq_length in Hs. auto.
Qed.
(** injective values can be sorted *)
Lemma sort_ex (x : nat -> R) (l : list nat) : NoDup l -> (forall i j, In i l -> In j l -> i <> j -> x i <> x j) ->
  exists sg, Permutation sg l /\ forall s s', (s < s')%nat -> (s' < length l)%nat -> x (nth s sg 0%nat) < x (nth s' sg 0%nat).
Proof.
  induction l as [|c l IH]; intros Hn Hx. exists []. split; auto. simpl; intros; lia.
  inversion Hn as [|? ? Hc Hn']; subst. destruct (IH Hn') as (sg & Hp & Hs). intros; apply Hx; simpl; auto. pose proof (Permutation_length Hp) as LE.
  assert (G : forall g : list nat, (forall s s', (s < s')%nat -> (s' < length g)%nat -> x (nth s g 0%nat) < x (nth s' g 0%nat)) -> (forall i, In i g -> x i <> x c) ->
     exists g', Permutation g' (c :: g) /\ (forall s s', (s < s')%nat -> (s' < length g')%nat -> x (nth s g' 0%nat) < x (nth s' g' 0%nat))).
  { clear. induction g as [|e g IH]; intros Hs Hi. exists [c]. split; auto. simpl; intros; lia.
    destruct (Rlt_dec (x c) (x e)) as [Hlt|Hge].
    - exists (c :: e :: g). split; auto. intros s s' H1 H2. destruct s as [|s], s' as [|s']; try lia. change (x c < x (nth s' (e :: g) 0%nat)). destruct s' as [|s']. exact Hlt. apply Rlt_trans with (x e); auto. apply (Hs 0%nat (S s')); simpl in *; lia.
      change (x (nth s (e :: g) 0%nat) < x (nth s' (e :: g) 0%nat)). apply Hs; simpl in *; lia.
    - destruct IH as (g' & Hp & Hs'). intros s s' H1 H2. apply (Hs (S s) (S s')); simpl; lia. intros; apply Hi; simpl; auto. exists (e :: g'). split. rewrite Hp. apply perm_swap.
      assert (Hec : x e < x c). { specialize (Hi e (or_introl eq_refl)). lra. }
      intros s s' H1 H2. destruct s as [|s], s' as [|s']; try lia. 2:{ apply (Hs' s s'); simpl in *; lia. }
      change (x e < x (nth s' g' 0%nat)). assert (Hin : In (nth s' g' 0%nat) (c :: g)) by (apply (Permutation_in _ Hp); apply nth_In; simpl in H2; lia). destruct Hin as [<-|Hin]; auto.
      apply (In_nth _ _ 0%nat) in Hin as (r & Hr & <-). apply (Hs 0%nat (S r)); simpl; lia. }
  destruct (G sg) as (g' & Hp' & Hs'). rewrite LE. auto. intros i Hi. apply Hx; simpl; auto. right. apply (Permutation_in _ Hp Hi). intros ->. apply Hc. apply (Permutation_in _ Hp Hi).
  exists g'. split. rewrite Hp', Hp; auto. rewrite <- (Permutation_length (perm_skip c Hp)), <- (Permutation_length Hp'). auto.
Qed.
Lemma dist2_refl p : dist2 p p = 0.
Proof. unfold dist2. rewrite <- sqrt_0 at 2. f_equal. induction p as [|u p IH]; auto. simpl in *. rewrite IH. ring. Qed.
Section Even.
Variable V : hvn_cfg.
Hypothesis P : hvn_posed V.
Variables p0 p1 q0 q1 : R.
Hypothesis L : line_problem V p0 p1 q0 q1.
Let K := as_dpn V.
Let c := v_prob V.
Let W : well_posed K := hp_problem V P.
Let a := (p1 - nth 1 (v_ref V) 0) / q1.
Let b := (nth 0 (v_ref V) 0 - p0) / q0.
Definition xval (X : list (list R)) (i : nat) : R := nth 0 (nth i X []) 0.
Lemma free : vconstrained V = false.
Proof using L. unfold vconstrained. rewrite (lp_h _ _ _ _ _ L), (lp_g _ _ _ _ _ L). reflexivity. Qed.
Lemma dimp : vdim_p V = 1%nat.
Proof using L. unfold vdim_p. apply (lp_nvar _ _ _ _ _ L). Qed.
Lemma dim1 : vdim V = 1%nat.
Proof using P L. rewrite (vunconstrained_dim V P free). apply dimp. Qed.
Lemma ref2 : length (v_ref V) = 2%nat.
Proof using P L. rewrite (hp_ref V P). apply (lp_nobj _ _ _ _ _ L). Qed.
Section State.
Variables (N : nat) (t : pstate) (X : list (list R)).
Hypothesis HN : (0 < N)%nat.
Hypothesis HP : pop K N X.
Hypothesis Ht : holds K t X.
Lemma row1 i : (i < N)%nat -> nth i X [] = [xval X i].
Proof using All.
  intros Hi. destruct HP as [LX HX]. assert (Hl : length (nth i X []) = 1%nat) by (rewrite <- dim1; apply (HX (nth i X [])), nth_In; lia). unfold xval. destruct (nth i X []) as [|u [|? ?]]; try discriminate. reflexivity.
Qed.
Lemma pr1 i : (i < N)%nat -> pr (k_prob K) (nth i X []) = [xval X i].
Proof using All. intros Hi. rewrite row1 by auto. unfold pr. change (c_nvar (k_prob K)) with (c_nvar (v_prob V)). rewrite (lp_nvar _ _ _ _ _ L). reflexivity. Qed.
Lemma Ylen : length (s_Y t) = N.
Proof using All. apply (pop_Y K W N t X HP Ht). Qed.
Lemma Yrow i : (i < N)%nat -> nth i (s_Y t) [] = [p0 + q0 * xval X i; p1 - q1 * xval X i].
Proof using All.
  intros Hi. pose proof Ht as H. unfold holds, data in H. injection H as _ E _ _ _ _ _. rewrite E. destruct HP as [LX _]. rewrite (nth_map_default _ _ _ []) by lia. rewrite pr1 by auto. apply (lp_func _ _ _ _ _ L).
Qed.
Lemma Jrow : exists J, jac_of t = Some J /\ forall i, (i < N)%nat -> J i 0%nat 0%nat = q0 /\ J i 1%nat 0%nat = - q1.
Proof using All.
  pose proof Ht as H. unfold holds, data in H. injection H as _ _ E _ _ _ _. unfold jac_of. rewrite E. eexists. split; [reflexivity|]. intros i Hi. cbv beta. destruct HP as [LX _].
  rewrite (nth_map_default _ _ _ []) by lia. rewrite pr1 by auto. apply (lp_jac _ _ _ _ _ L).
Qed.
Lemma prim i : (i < N)%nat -> nth i (vprimal V t) [] = [xval X i].
Proof using All.
  intros Hi. unfold vprimal, primal. rewrite (holds_X K _ _ Ht). destruct HP as [LX _]. rewrite (nth_map_default _ _ _ []) by lia. rewrite row1 by auto. rewrite (lp_nvar _ _ _ _ _ L). reflexivity.
Qed.
Variable sg : list nat.
Hypothesis Hsg : sorts N (xval X) sg.
Lemma Yfacts : (forall y, In y (s_Y t) -> length y = 2%nat) /\ (0 < length (s_Y t))%nat /\ (forall i, (i < length (s_Y t))%nat -> coord (s_Y t) i 0 = p0 + q0 * xval X i) /\
  (forall i, (i < length (s_Y t))%nat -> coord (s_Y t) i 1 = p1 - q1 * xval X i) /\ sorts (length (s_Y t)) (xval X) sg.
Proof using All.
  rewrite Ylen. split; [|split; [auto|split; [|split; auto]]]. intros y Hy. rewrite <- (lp_nobj _ _ _ _ _ L). apply (pop_Y K W N t X HP Ht); auto.
  intros i Hi. unfold coord. rewrite Yrow by auto. reflexivity. intros i Hi. unfold coord. rewrite Yrow by auto. reflexivity.
Qed.
Lemma derivs : exists g Hs, hv_derivatives V t = Ok (g, Hs) /\ matrix N 1 g /\ matrix (N * 1) (N * 1) Hs /\
  (forall s, (s < N)%nat -> ent g (nth s sg 0%nat) 0 = q0 * q1 * (ext N sg (xval X) a b s - 2 * ext N sg (xval X) a b (S s) + ext N sg (xval X) a b (S (S s)))) /\
  (forall s s', (s < N)%nat -> (s' < N)%nat -> ent Hs (nth s sg 0%nat) (nth s' sg 0%nat) = q0 * q1 * tri s s').
Proof using All.
  destruct Yfacts as (F1 & F2 & F3 & F4 & F5). pose proof (lp_q0 _ _ _ _ _ L) as Q0. pose proof (lp_q1 _ _ _ _ _ L) as Q1.
  destruct (vprimal_rows V N X t HP Ht) as [LP _]. destruct Jrow as (J & EJ & HJ).
  pose proof (line_gradient p0 p1 q0 q1 Q0 Q1 (xval X) (s_Y t) F1 F2 F3 F4 (v_ref V) ref2 (v_minf V) (v_argsort V)) as Eg.
  destruct (line_hessian p0 p1 q0 q1 Q0 Q1 (xval X) (s_Y t) F1 F2 F3 F4 (v_ref V) ref2 (v_minf V) (v_argsort V)) as (H & EH & HH).
  assert (EO : n_obj (hv_obj V) = 2%nat) by (apply (lp_nobj _ _ _ _ _ L)). assert (EN : n_var (hv_obj V) = 1%nat) by apply dimp.
  assert (EG : exists dX, compute_gradient (v_minf V) (v_argsort V) (hv_obj V) (vprimal V t) (Some (s_Y t)) (jac_of t) = Ok (dX, dY2 (s_Y t) (v_ref V))).
  { unfold compute_gradient, obj_points. rewrite EO. change (oref (hv_obj V)) with (v_ref V). rewrite Eg. cbn [bind]. eauto. }
  destruct EG as [dX EG]. destruct (compute_hessian (v_minf V) (v_argsort V) (hv_obj V) (vprimal V t) (Some (s_Y t)) (jac_of t)) as [[dX' dX2]|e] eqn:EC.
  2:{ exfalso. unfold compute_hessian in EC. rewrite EG in EC. cbn [bind] in EC. unfold obj_points in EC. rewrite EO in EC. change (oref (hv_obj V)) with (v_ref V) in EC. rewrite EH in EC. discriminate. }
  destruct (hessian_blocks _ _ _ _ _ _ _ _ EC) as (g & H' & EG' & EH' & HB). rewrite EG in EG'. injection EG' as <- <-.
  unfold obj_points in EH'. rewrite EO in EH'. change (oref (hv_obj V)) with (v_ref V) in EH'. rewrite EH in EH'. injection EH' as <-.
  destruct (gradient_chain _ _ _ _ _ _ _ _ EG) as [_ HG].
  assert (LV : @length vec (vprimal V t) = N) by exact LP. rewrite LV, EO, EN in HG. rewrite LV, EN in HB.
  exists (grad_rows N 1 dX), (hess_rows (N * 1) dX2). unfold hv_derivatives. rewrite EC. cbn [bind fst snd]. rewrite LP, dimp. split; auto. split; [apply grad_rows_matrix|]. split; [apply hess_rows_matrix|]. rewrite EJ in *.
  split.
  - intros s Hs. pose proof (sorts_lt _ _ _ _ Hsg Hs) as Hi. unfold ent, grad_rows. rewrite (nth_map_default _ _ _ 0%nat) by (rewrite seq_length; auto). rewrite seq_nth by auto. cbn [Nat.add seq map nth].
    rewrite (HG _ 0%nat Hi ltac:(lia)). unfold obj_jac. cbn [sumn]. destruct (HJ _ Hi) as [-> ->].
    pose proof (line_slope p0 p1 q0 q1 Q0 Q1 (xval X) (s_Y t) F1 F2 F3 F4 (v_ref V) ref2 sg F5 s) as Es. rewrite Ylen in Es. specialize (Es Hs). unfold aa, bb in Es. fold a b in Es. rewrite <- Es. ring.
  - intros s s' Hs Hs'. pose proof (sorts_lt _ _ _ _ Hsg Hs) as Hi. pose proof (sorts_lt _ _ _ _ Hsg Hs') as Hj. unfold ent, hess_rows. rewrite (nth_map_default _ _ _ 0%nat) by (rewrite seq_length; lia). rewrite (nth_map_default _ _ _ 0%nat) by (rewrite seq_length; lia). rewrite !seq_nth by lia. cbn [Nat.add].
    pose proof (HB _ 0%nat _ 0%nat Hi ltac:(lia) Hj ltac:(lia)) as E. rewrite !Nat.mul_1_r, !Nat.add_0_r in E. rewrite E.
    assert (R : forall s s', (s < N)%nat -> (s' < N)%nat -> raw_block (hv_obj V) (obj_jac (hv_obj V) (vprimal V t) (Some J)) (fun i => hessian (hv_obj V) (nth i (vprimal V t) [])) (dY2 (s_Y t) (v_ref V)) H (nth s sg 0%nat) 0 (nth s' sg 0%nat) 0 = q0 * q1 * tri s s').
    { intros u u' Hu Hu'. pose proof (sorts_lt _ _ _ _ Hsg Hu) as Hui. pose proof (sorts_lt _ _ _ _ Hsg Hu') as Huj. unfold raw_block. rewrite EO.
      pose proof (line_entry p0 p1 q0 q1 Q0 Q1 (xval X) (s_Y t) F1 F2 F3 F4 (v_ref V) ref2 sg F5 H u u' HH) as Ee. rewrite Ylen in Ee. specialize (Ee Hu Hu'). cbv zeta in Ee. rewrite <- Ee.
      replace (if (nth u sg 0 =? nth u' sg 0)%nat then _ else _) with 0. rewrite Rplus_0_r. cbn [sumn]. unfold obj_jac. destruct (HJ _ Hui) as [-> ->]. destruct (HJ _ Huj) as [-> ->]. reflexivity.
      destruct (_ =? _)%nat; auto. symmetry. apply sumn_zero. intros k Hk. rewrite prim by auto. unfold hessian, hv_obj. cbn [minimization o_hess]. rewrite (lp_hess _ _ _ _ _ L). ring. }
    rewrite !R by auto. replace (tri s' s) with (tri s s'). lra. unfold tri. rewrite (Nat.eqb_sym s' (S s)), (Nat.eqb_sym (S s') s), (Nat.eqb_sym s' s). ring.
Qed.
Lemma vpoints_grad g i : (i < N)%nat -> exists p, nth_error (vpoints V t g) i = Some p /\ pt_grad p = nth i g [].
Proof using All.
  intros Hi. unfold vpoints. rewrite (holds_X K _ _ Ht). destruct HP as [-> _]. eexists. split. erewrite map_nth_error. reflexivity. rewrite (List.nth_error_nth' _ 0%nat) by (rewrite seq_length; auto). rewrite seq_nth by auto. reflexivity. reflexivity.
Qed.
Hypothesis Hpre : v_pre V = false.
Lemma sg_perm : Permutation sg (seq 0 N).
Proof using Hsg. apply Hsg. Qed.
Definition target (s : nat) : R := a + INR (S s) * ((b - a) / INR (S N)).
Lemma newton_point : exists st Rm, vstep V t = Ok (st, Rm) /\ matrix N 1 st /\ forall s, (s < N)%nat -> xval X (nth s sg 0%nat) + ent st (nth s sg 0%nat) 0 = target s.
Proof using All.
  destruct derivs as (g & Hs & Ed & Mg & MH & Hg & HH). pose proof (lp_q0 _ _ _ _ _ L) as Q0. pose proof (lp_q1 _ _ _ _ _ L) as Q1.
  set (ps := vpoints V t g). assert (LPs : length ps = N) by (unfold ps, vpoints; rewrite map_length, seq_length, (holds_X K _ _ Ht); apply HP).
  assert (Mg' : matrix N (vdim_p V) g) by (rewrite dimp; auto).
  destruct (PropsStep.C72_hvn_unconstrained (v_solve V) (v_lstsq V) (v_chol V) (hp_solve V P) (hp_lstsq V P) (vdim_p V) (vdim_d V) (v_pre V) Hs ps) as (st & E1 & M1 & HK).
  lia. apply (points_grad K N t X g HP Ht Mg'). rewrite LPs, dimp; auto. rewrite LPs, dimp, Hpre in *. cbn [PropsStep.hvn_A] in HK.
  exists st, (map pt_grad ps). split. { unfold vstep. rewrite Ed. cbn [bind fst snd]. fold ps. rewrite free, dimp, Hpre. auto. } split; auto.
  assert (KE : forall st', linear_kkt true 1 0 Hs ps st' <-> forall s, (s < N)%nat -> q0 * q1 * (ext N sg (fun i => ent st' i 0) 0 0 s - 2 * ext N sg (fun i => ent st' i 0) 0 0 (S s) + ext N sg (fun i => ent st' i 0) 0 0 (S (S s))) =
    - (q0 * q1 * (ext N sg (xval X) a b s - 2 * ext N sg (xval X) a b (S s) + ext N sg (xval X) a b (S (S s))))).
  { intros st'. assert (S1 : forall s, (s < N)%nat -> sumn (length ps) (fun j => sumn 1 (fun c => ent Hs (nth s sg 0%nat * 1 + 0) (j * 1 + c) * ent st' j c)) =
      q0 * q1 * (ext N sg (fun i => ent st' i 0) 0 0 s - 2 * ext N sg (fun i => ent st' i 0) 0 0 (S s) + ext N sg (fun i => ent st' i 0) 0 0 (S (S s)))).
    { intros s Hs'. rewrite LPs, (sumn_perm N _ sg sg_perm). rewrite <- (tri_sum N sg (fun i => ent st' i 0) s Hs'), <- sumn_scal. apply sumn_ext. intros s' Hs''. cbn [sumn]. rewrite !Nat.mul_1_r, !Nat.add_0_r, HH by auto. ring. }
    split.
    - intros HK' s Hs'. destruct (vpoints_grad g _ (sorts_lt _ _ _ _ Hsg Hs')) as (p & Ep & Eg). destruct (HK' _ p Ep) as [HK1 _]. specialize (HK1 0%nat ltac:(lia)). rewrite S1 in HK1 by auto.
      unfold lagrangian, asum in HK1. cbn [sumn] in HK1. rewrite Eg in HK1. fold (ent g (nth s sg 0%nat) 0) in HK1. rewrite Hg in HK1 by auto. lra.
    - intros HK' i p Ep. split; [|intros; lia]. intros c0 Hc. replace c0 with 0%nat by lia. assert (Hi : (i < N)%nat) by (rewrite <- LPs; apply nth_error_Some; congruence).
      destruct (sg_ex N (xval X) sg i Hsg Hi) as (s & Hs' & <-). destruct (vpoints_grad g _ Hi) as (p' & Ep' & Eg). assert (p' = p) by (unfold ps in Ep; congruence). subst p'. rewrite S1 by auto.
      unfold lagrangian, asum. cbn [sumn]. rewrite Eg. fold (ent g (nth s sg 0%nat) 0). rewrite Hg by auto. rewrite HK' by auto. ring. }
  assert (Ex : exists st', matrix N 1 st' /\ linear_kkt true 1 0 Hs ps st').
  { exists (map (fun i => [target (pos i sg) - xval X i]) (seq 0 N)). split. split. rewrite map_length, seq_length; auto. intros r Hr. apply in_map_iff in Hr as (i & <- & _). reflexivity.
    apply KE. intros s Hs'. rewrite Ropp_mult_distr_r. f_equal.
    assert (Ev : forall k, (k <= S N)%nat -> ext N sg (fun i => ent (map (fun i => [target (pos i sg) - xval X i]) (seq 0 N)) i 0) 0 0 k = a + INR k * ((b - a) / INR (S N)) - ext N sg (xval X) a b k).
    { intros k Hk. destruct k as [|k]; cbn [ext]. simpl; ring. destruct (Nat.ltb_spec k N) as [Hk'|Hk'].
      - unfold ent. rewrite (nth_map_default _ _ _ 0%nat) by (rewrite seq_length; apply (sorts_lt _ _ _ _ Hsg Hk')). rewrite seq_nth by apply (sorts_lt _ _ _ _ Hsg Hk'). cbn [nth Nat.add].
        rewrite pos_nth. reflexivity. apply (Permutation_NoDup (Permutation_sym sg_perm)), seq_NoDup. rewrite (Permutation_length sg_perm), seq_length; auto.
      - replace k with N by lia. field. apply not_0_INR. lia. }
    rewrite !Ev by lia. rewrite !S_INR. ring. }
  specialize (HK Ex). rewrite KE in HK.
  set (w := fun k => ext N sg (xval X) a b k + ext N sg (fun i => ent st i 0) 0 0 k).
  assert (W1 : forall k, (k <= S N)%nat -> w k = w 0%nat + INR k * (w 1%nat - w 0%nat)).
  { apply second_diff. intros s Hs'. specialize (HK s Hs'). unfold w. assert (q0 * q1 <> 0) by (apply Rmult_integral_contrapositive; lra). apply (Rmult_eq_reg_l (q0 * q1)); auto. lra. }
  assert (W0 : w 0%nat = a) by (unfold w; cbn [ext]; ring).
  assert (WN : w (S N) = b) by (unfold w; cbn [ext]; rewrite Nat.ltb_irrefl; ring).
  assert (HI : INR (S N) <> 0) by (apply not_0_INR; lia).
  assert (D : w 1%nat - a = (b - a) / INR (S N)). { pose proof (W1 (S N) ltac:(lia)) as E. rewrite WN, W0 in E. apply (Rmult_eq_reg_l (INR (S N))); auto. field_simplify; auto. lra. }
  intros s Hs'. pose proof (W1 (S s) ltac:(lia)) as E. rewrite W0, D in E. unfold w in E at 1. cbn [ext] in E. rewrite (proj2 (Nat.ltb_lt s N) Hs') in E. exact E.
Qed.
End State.

(** the residual vanishes at the equally spaced population *)
Lemma even_residual N t X sg : (0 < N)%nat -> pop K N X -> holds K t X -> Permutation sg (seq 0 N) -> (forall s, (s < N)%nat -> xval X (nth s sg 0%nat) = target N s) ->
  exists g, hv_gradient V t = Ok g /\ matrix N 1 g /\ forall i, (i < N)%nat -> ent g i 0 = 0.
Proof using All.
  intros HN HP Ht Hp Hz. assert (Hsg : sorts N (xval X) sg) by (apply (even_sorts N sg (xval X) a b Hp (lp_below _ _ _ _ _ L) Hz)).
  destruct (derivs N t X HN HP Ht sg Hsg) as (g & Hs & Ed & Mg & _ & Hg & _). exists g. split. apply (gradient_total V _ _ Ed). split; auto.
  intros i Hi. destruct (sg_ex N (xval X) sg i Hsg Hi) as (s & Hs' & <-). rewrite Hg by auto. rewrite !(even_ext N sg (xval X) a b) by (auto; lia). rewrite !S_INR. ring.
Qed.
Hypothesis Hpre : v_pre V = false.
Lemma full_step N t X st Rm al sg : (0 < N)%nat -> pop K N X -> holds K t X -> sorts N (xval X) sg -> vstep V t = Ok (st, Rm) -> vbacktrack 6 (vphi V t st) (norm (concat Rm)) 1 = Ok al ->
  al = 1 /\ forall s, (s < N)%nat -> xval X (nth s sg 0%nat) + ent st (nth s sg 0%nat) 0 = target N s.
Proof using All.
  intros HN HP Ht Hsg Est Eb. destruct (newton_point N t X HN HP Ht sg Hsg Hpre) as (st' & Rm' & E & Mst & Hpt). rewrite Est in E. injection E as <- <-. split; auto.
  assert (Mst' : matrix N (vdim V) st) by (rewrite dim1; auto).
  pose proof (trial_pop V N X st 1 HP Mst') as HT. destruct (vupd_total V P t N _ HN HT) as (t' & Eu & Ht').
  assert (Hz : forall s, (s < N)%nat -> xval (trial X st 1) (nth s sg 0%nat) = target N s).
  { intros s Hs. rewrite <- (Hpt s Hs). pose proof (sorts_lt _ _ _ _ Hsg Hs) as Hi. unfold xval, trial. destruct HP as [LX HX]. destruct Mst as [LS HS].
    rewrite (zip_with_nth _ _ _ _ [] []) by lia. rewrite (zip_with_nth _ _ _ _ 0 0). unfold ent. ring.
    rewrite (HX (nth (nth s sg 0%nat) X [])) by (apply nth_In; lia). fold (vdim V). pose proof dim1. unfold IterProof.dim. change (IterModel.dim_p K + IterModel.dim_d K)%nat with (vdim V). lia.
    rewrite (HS (nth (nth s sg 0%nat) st [])) by (apply nth_In; lia). lia. }
  destruct (even_residual N t' _ sg HN HT Ht' (proj1 Hsg) Hz) as (g & Eg & Mg & H0).
  assert (Ephi : vphi V t st 1 = Ok 0).
  { unfold vphi. rewrite (holds_X K _ _ Ht), Eu. cbn [bind]. rewrite Eg. cbn [bind]. rewrite free. unfold compute_R. cbn [bind fst]. f_equal. apply norm_zero. intros v Hv. apply in_concat in Hv as (r & Hr & Hv).
    apply in_map_iff in Hr as (p & <- & Hp'). apply (In_nth_error) in Hp' as [i Hi]. assert (Hi' : (i < N)%nat).
    { assert (length (vpoints V t' g) = N) by (unfold vpoints; rewrite map_length, seq_length, (holds_X K _ _ Ht'); apply HT). rewrite <- H. apply nth_error_Some. congruence. }
    destruct (vpoints_grad N t' _ HN HT Ht' sg (even_sorts N sg _ a b (proj1 Hsg) (lp_below _ _ _ _ _ L) Hz) g i Hi') as (p' & Ep & Egr). assert (p' = p) by congruence. subst p'. rewrite Egr in Hv.
    destruct Mg as [LG HG]. assert (Hl : length (nth i g []) = 1%nat) by (apply HG, nth_In; lia). specialize (H0 i Hi'). unfold ent in H0. destruct (nth i g []) as [|u [|? ?]]; try discriminate. cbn [nth] in H0. destruct Hv as [<-|[]]. auto. }
  cbn [vbacktrack] in Eb. rewrite Ephi in Eb. cbn [bind] in Eb.
  assert (Ea : armijo (/ 10 ^ 5) (Fin (norm (concat Rm))) 1 (Fin 0) = true).
  { unfold armijo, fmul, fle. replace (rleb _ _) with true; auto. symmetry. unfold rleb. destruct (Rle_dec _ _) as [|Hn]; auto. exfalso. apply Hn. apply Rmult_le_pos. lra. apply sqrt_pos. }
  rewrite Ea in Eb. congruence.
Qed.
Lemma one_layer s N X d : pop K N X -> holds K s X -> (0 < N)%nat -> hvn_layers (is_feasible c s) (s_Y s) = Ok d -> exists l, map snd d = [l].
Proof using P L.
  intros HP H HN E. destruct (pop_Y K W N s X HP H) as [LY RY].
  assert (LF : length (is_feasible c s) = length (s_Y s)) by (rewrite LY; apply (feasible_length V s N X); auto).
  destruct (hvn_layers_spec (is_feasible c s) (s_Y s) (v_nobj V) LF (hp_obj V P) RY) as (d' & E' & H1 & H2 & H3 & H4). rewrite E in E'. injection E' as <-.
  destruct (hvn_layers_keys (is_feasible c s) (s_Y s) (v_nobj V) d LF (hp_obj V P) RY E) as (q & Hq).
  assert (K0 : forall k l, In (k, l) d -> k = 0%nat).
  { intros k l Hin. assert (Hl : l <> []) by (apply (layers_nonempty V P s N X d HP H HN E); apply in_map_iff; exists (k, l); auto). destruct l as [|i l]; [congruence|]. clear Hl.
    destruct (nth i (is_feasible c s) false) eqn:Ef. 2:{ apply (H3 i k (i :: l)); simpl; auto. }
    destruct (H4 i k (i :: l) Hin (or_introl eq_refl) Ef) as [(ch & Hch & Hk) _]. destruct ch as [|j ch]; [auto|]. exfalso. cbn [feasible_chain] in Hch. destruct Hch as (Hj & Hd & _).
    assert (Hi' : (i < N)%nat) by (rewrite <- LY; apply (H1 k _ Hin); simpl; auto). assert (Hj' : (j < N)%nat). { destruct (Nat.lt_ge_cases j N); auto. rewrite nth_overflow in Hj by (rewrite LF, LY; auto). discriminate. }
    unfold row in Hd. rewrite <- LY in Hi', Hj'.
    refine (line_nondominated p0 p1 q0 q1 (lp_q0 _ _ _ _ _ L) (lp_q1 _ _ _ _ _ L) (xval X) (s_Y s) _ _ _ _ (v_ref V) ref2 i j Hi' Hj' Hd).
    intros y Hy. rewrite <- (lp_nobj _ _ _ _ _ L). auto. lia. intros r Hr. unfold coord. rewrite (Yrow N s X) by (auto; lia). reflexivity. intros r Hr. unfold coord. rewrite (Yrow N s X) by (auto; lia). reflexivity. }
  destruct d as [|[k l] d]. destruct (H2 0%nat ltac:(lia)) as (? & ? & [] & _). destruct d as [|[k' l'] d]. exists l. reflexivity.
  exfalso. destruct q as [|[|q]]; try discriminate. cbn [map seq] in Hq. injection Hq as E1 E2 _. cbn [fst] in *. rewrite (K0 k' l') in E2 by (simpl; auto). discriminate.
Qed.
(** the only layer, its Newton step and an order of its points *)
Lemma line_core o idx s d : thinned (vprimal V (n_state o)) idx -> idx <> [] -> holds K s (rows_at [] (s_X (n_state o)) idx) -> pop K (length idx) (rows_at [] (s_X (n_state o)) idx) -> hvn_layers (is_feasible c s) (s_Y s) = Ok d ->
  let N := length idx in let X := rows_at [] (s_X (n_state o)) idx in exists l sgl,
  map snd d = [l] /\ Permutation l (seq 0 N) /\ sorts N (xval (rows_at [] X l)) sgl /\ forall t, holds K t (rows_at [] X l) -> pop K N (rows_at [] X l) ->
    exists st Rm, vstep V t = Ok (st, Rm) /\ matrix N 1 st /\ forall u, (u < N)%nat -> xval (rows_at [] X l) (nth u sgl 0%nat) + ent st (nth u sgl 0%nat) 0 = target N u.
Proof using All.
  intros HT Hne Hh HP Hly N X. fold N in HP. fold X in HP, Hh.
  assert (HN : (0 < N)%nat) by (unfold N; destruct idx; [congruence|simpl; lia]).
  destruct (one_layer s N X d HP Hh HN Hly) as [l El].
  destruct (layers_total V P s N X HP Hh) as (d' & Hd' & Pl & _ & Pc). fold c in Hd'. rewrite Hly in Hd'. injection Hd' as <-. rewrite El in Pl, Pc. cbn [concat] in Pc. rewrite app_nil_r in Pc. destruct (Pl l (or_introl eq_refl)) as [Nl Bl].
  assert (Hl : Permutation l (seq 0 N)). { apply NoDup_Permutation; auto. apply seq_NoDup. intros i. rewrite in_seq. split; intros; [specialize (Bl i H); lia|apply Pc; lia]. }
  assert (Ll : length l = N) by (rewrite (Permutation_length Hl), seq_length; auto).
  set (Xl := rows_at [] X l) in *.
  assert (Hxl : forall j, (j < N)%nat -> xval Xl j = xval X (nth j l 0%nat)) by (intros j Hj; unfold xval, Xl; rewrite rows_at_nth by lia; auto).
  assert (Hdx : forall i j, (i < N)%nat -> (j < N)%nat -> i <> j -> xval X i <> xval X j).
  { intros i j Hi Hj Hn E. destruct HT as (T1 & T2 & T3 & _).
    assert (In (nth i idx 0%nat) idx) as I1 by (apply nth_In; auto). assert (In (nth j idx 0%nat) idx) as I2 by (apply nth_In; auto).
    assert (Hne' : nth i idx 0%nat <> nth j idx 0%nat) by (intros E'; apply Hn; apply (proj1 (NoDup_nth idx 0%nat) T1); auto).
    specialize (T3 _ _ I1 I2 Hne').
    assert (B : forall i, (i < N)%nat -> nth (nth i idx 0%nat) (vprimal V (n_state o)) [] = [xval X i]).
    { intros r Hr. assert (Hin : In (nth r idx 0%nat) idx) by (apply nth_In; auto). specialize (T2 _ Hin). unfold vprimal, primal in T2 |- *. rewrite map_length in T2. rewrite (nth_map_default _ _ _ []) by auto.
      rewrite <- (rows_at_nth [] _ idx) by auto. fold X. rewrite (row1 N s X HN HP Hh r Hr). rewrite (lp_nvar _ _ _ _ _ L). reflexivity. }
    rewrite !B, E, dist2_refl in T3 by auto. assert (0 < / 10 ^ 8) by (apply Rinv_0_lt_compat; apply pow_lt; lra). lra. }
  assert (Hnl : forall j, (j < N)%nat -> (nth j l 0 < N)%nat) by (intros j Hj; apply Bl, nth_In; lia).
  destruct (sort_ex (xval Xl) (seq 0 N) (seq_NoDup _ _)) as (sgl & Ps & Ss).
  { intros i j Hi Hj Hn. apply in_seq in Hi, Hj. rewrite !Hxl by lia. apply Hdx; try (apply Hnl; lia). intros E. apply Hn. apply (proj1 (NoDup_nth l 0%nat) Nl); auto; lia. }
  rewrite seq_length in Ss. assert (Hsg : sorts N (xval Xl) sgl) by (split; auto).
  exists l, sgl. split. exact El. split; auto. split; auto. intros t H3 H4. destruct (newton_point N t Xl HN H4 H3 sgl Hsg Hpre) as (st' & Rm' & E & Mst & Hpt). exists st', Rm'. auto.
Qed.
Lemma line_layer o o1 idx s d : pieces V o o1 idx s d -> let N := length idx in let X := rows_at [] (s_X (n_state o)) idx in exists l t st Rm mx al sgl,
  Permutation l (seq 0 N) /\ holds K t (rows_at [] X l) /\ pop K N (rows_at [] X l) /\ matrix N 1 st /\ rows_at [] (n_step o1) l = st /\ (forall i, (i < N)%nat -> nth i (n_size o1) 0 = al) /\
  max_step_size (v_limit V) (v_xl V) (v_xu V) (vprimal V t) (map (firstn (vdim_p V)) st) = Ok mx /\ vbacktrack 6 (vphi V t st) (norm (concat Rm)) mx = Ok al /\ vstep V t = Ok (st, Rm) /\
  sorts N (xval (rows_at [] X l)) sgl /\ forall u, (u < N)%nat -> xval (rows_at [] X l) (nth u sgl 0%nat) + ent st (nth u sgl 0%nat) 0 = target N u.
Proof using All.
  intros Q N X. pose proof (q_holds V _ _ _ _ _ Q) as Hh. fold X in Hh.
  destruct (line_core o idx s d (q_thin V _ _ _ _ _ Q) (q_idx V _ _ _ _ _ Q) (q_holds V _ _ _ _ _ Q) (q_pop V _ _ _ _ _ Q) (q_layers V _ _ _ _ _ Q)) as (l & sgl & El & Hl & Hsg & Hst). fold N X in Hl, Hsg, Hst.
  assert (Ll : length l = N) by (rewrite (Permutation_length Hl), seq_length; auto).
  destruct (layer_size V _ _ _ _ _ l Q) as (t & st & Rm & mx & al & H1 & H2 & H3 & H4 & H5 & H6 & H7 & H8 & H9 & H10). rewrite El; simpl; auto.
  rewrite (holds_X K _ _ Hh) in *. rewrite Ll in *. set (Xl := rows_at [] X l) in *.
  destruct (Hst t H3 H4) as (st' & Rm' & E & Mst & Hpt). rewrite H10 in E. injection E as <- <-.
  exists l, t, st, Rm, mx, al, sgl. do 5 (split; [exact Hl || exact H3 || exact H4 || exact Mst || exact H6|]). split. intros i Hi. apply H7. apply (Permutation_in _ (Permutation_sym Hl)). apply in_seq. lia. repeat (split; [assumption|]). exact Hpt.
Qed.
Hypothesis Hlim : v_limit V = false.
Lemma even_iteration o o1 idx s d : pieces V o o1 idx s d -> exists sg, Permutation sg (seq 0 (length idx)) /\
  (forall u u', (u < u')%nat -> (u' < length idx)%nat -> xval (s_X (n_state o)) (nth (nth u sg 0%nat) idx 0%nat) < xval (s_X (n_state o)) (nth (nth u' sg 0%nat) idx 0%nat)) /\
  forall u, (u < length idx)%nat -> nth (nth u sg 0%nat) (s_X (n_state o1)) [] = [target (length idx) u].
Proof using All.
  intros Q. pose proof (line_layer _ _ _ _ _ Q) as HL. cbv zeta in HL. set (N := length idx) in *. pose proof (q_pop V _ _ _ _ _ Q) as HP. pose proof (q_holds V _ _ _ _ _ Q) as Hh. fold N in HP. set (X := rows_at [] (s_X (n_state o)) idx) in *.
  assert (HN : (0 < N)%nat) by (unfold N; pose proof (q_idx V _ _ _ _ _ Q); destruct idx; [congruence|simpl; lia]).
  destruct HL as (l & t & st & Rm & mx & al & sgl & Hl & H3 & H4 & H5 & H6 & H7 & H8 & H9 & H10 & Hsg & Hpt).
  assert (Ll : length l = N) by (rewrite (Permutation_length Hl), seq_length; auto). rewrite Hlim in H8. unfold max_step_size in H8. cbn [negb] in H8. injection H8 as <-.
  set (Xl := rows_at [] X l) in *.
  assert (Hxl : forall j, (j < N)%nat -> xval Xl j = xval X (nth j l 0%nat)) by (intros j Hj; unfold xval, Xl; rewrite rows_at_nth by lia; auto).
  assert (Hx : forall i, (i < N)%nat -> xval X i = xval (s_X (n_state o)) (nth i idx 0%nat)) by (intros i Hi; unfold xval, X; rewrite rows_at_nth by auto; auto).
  assert (Hnl : forall j, (j < N)%nat -> (nth j l 0 < N)%nat). { intros j Hj. assert (Hin : In (nth j l 0%nat) l) by (apply nth_In; lia). apply (Permutation_in _ Hl) in Hin. apply in_seq in Hin. lia. }
  destruct (full_step N t Xl st Rm al sgl HN H4 H3 Hsg H10 H9) as [-> _].
  destruct Hsg as [Ps Ss]. assert (Hsg : sorts N (xval Xl) sgl) by (split; auto).
  assert (Lsg : length sgl = N) by (rewrite (Permutation_length Ps), seq_length; auto).
  assert (Hn : forall u, (u < N)%nat -> nth u (map (fun j => nth j l 0%nat) sgl) 0%nat = nth (nth u sgl 0%nat) l 0%nat).
  { intros u Hu. rewrite (nth_map_default _ _ _ 0%nat) by lia. reflexivity. }
  exists (map (fun j => nth j l 0%nat) sgl). split. { rewrite Ps. rewrite <- Ll at 1. rewrite HVTop.map_nth_seq. auto. } split.
  - intros u u' Hu Hu'. rewrite !Hn by lia. pose proof (sorts_lt _ _ _ _ Hsg Hu') as B1. assert (B2 : (nth u sgl 0 < N)%nat) by (apply (sorts_lt _ _ _ _ Hsg); lia).
    rewrite <- !Hx, <- !Hxl by (auto; apply Hnl; auto). apply Ss; auto.
  - intros u Hu. rewrite Hn by auto. pose proof (sorts_lt _ _ _ _ Hsg Hu) as B1. set (i := nth (nth u sgl 0%nat) l 0%nat). assert (Hi : (i < N)%nat) by (apply Hnl; auto).
    destruct (new_row V _ _ _ _ _ i Q Hi) as (R1 & R2 & R3 & R4 & R5 & R6). rewrite R3. rewrite (H7 i) by auto.
    rewrite (holds_X K _ _ Hh), (row1 N s X HN HP Hh i Hi). specialize (Hpt u Hu). rewrite (Hxl _ B1) in Hpt. fold i in Hpt. unfold ent in Hpt. rewrite <- H6 in Hpt. rewrite rows_at_nth in Hpt by lia. fold i in Hpt.
    rewrite dim1 in R5. destruct (nth i (n_step o1) []) as [|v [|? ?]]; try discriminate. cbn [nth] in Hpt. cbn [zip_with]. rewrite <- Hpt. f_equal. ring.
Qed.
End Even.
