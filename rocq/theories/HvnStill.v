(** Runs of HVN: an iteration depends on the population only, so a population that stays once stays. *)
From Coq Require Import List Arith Bool Reals ZArith Lia Lra.
From Verif Require Import Num Exn ListAux MiscModel StateModel StateSpec NewtonModel NewtonProof RefModel HVXModel StepModel ShiftModel IterModel IterSpec StepProof StepTop StepMain StepIter StepLast IterProof IterMain IterTotal HvnModel HvnSpec HvnProof HvnMain HvnRun HvnHist.
Import ListNotations.
Open Scope R_scope.

Definition same_res (a b : res pstate) : Prop := match a, b with Ok s, Ok t => data s = data t | Exn e, Exn f => e = f | _, _ => False end.
Lemma layers_loop_ext f g f' g' ls : (forall l, f l = f' l) -> (forall l a b, g l a b = g' l a b) -> forall st Rm size, layers_loop f g ls st Rm size = layers_loop f' g' ls st Rm size.
Proof.
  intros Hf Hg. induction ls as [|l ls IH]; intros st Rm size; auto. cbn [layers_loop]. rewrite Hf. destruct (f' l) as [sr|e]; auto. cbn [bind].
  destruct (put_rows st l (fst sr)); auto. cbn [bind]. destruct (put_rows Rm l (snd sr)); auto. cbn [bind]. rewrite Hg. destruct (g' l (fst sr) (snd sr)); auto. cbn [bind].
  destruct (put_rows size l _); auto. cbn [bind]. apply IH.
Qed.
Lemma vbacktrack_ext f g n p0 : (forall a, f a = g a) -> forall s, vbacktrack n f p0 s = vbacktrack n g p0 s.
Proof. intros H. induction n as [|n IH]; intros s; auto. cbn [vbacktrack]. rewrite H. destruct (g s); auto. cbn [bind]. rewrite IH. reflexivity. Qed.

Section Hvn.
Variable V : hvn_cfg.
Ltac fields := match goal with H : data ?a = data ?b |- _ => destruct a, b; unfold data in H; cbn in H; injection H as <- <- <- <- <- <- <- end.
Lemma getitem_same a b ix : data a = data b -> same_res (getitem a ix) (getitem b ix).
Proof.
  intros H. fields. unfold getitem. cbn -[take_rows take_opt bind].
  repeat match goal with |- context [bind ?r _] => destruct r; cbn [bind]; [|exact eq_refl] end. reflexivity.
Qed.
Lemma vupd_same a b X : same_res (vupd V a X) (vupd V b X).
Proof.
  unfold vupd, update. repeat match goal with |- context [bind ?r _] => destruct r; cbn [bind]; [|exact eq_refl] end. reflexivity.
Qed.
Lemma grad_same a b : data a = data b -> hv_gradient V a = hv_gradient V b.
Proof. intros H. fields. reflexivity. Qed.
Lemma deriv_same a b : data a = data b -> hv_derivatives V a = hv_derivatives V b.
Proof. intros H. fields. reflexivity. Qed.
Lemma vpoints_same a b g : data a = data b -> vpoints V a g = vpoints V b g.
Proof. intros H. fields. reflexivity. Qed.
Lemma X_same (a b : pstate) : data a = data b -> s_X a = s_X b.
Proof. intros H. fields. reflexivity. Qed.
Lemma Y_same (a b : pstate) : data a = data b -> s_Y a = s_Y b.
Proof. intros H. fields. reflexivity. Qed.
Lemma feas_same (a b : pstate) : data a = data b -> is_feasible (v_prob V) a = is_feasible (v_prob V) b.
Proof. intros H. fields. reflexivity. Qed.
Lemma vstep_same a b : data a = data b -> vstep V a = vstep V b.
Proof.
  intros H. unfold vstep. rewrite (deriv_same a b H). destruct (hv_derivatives V b); auto. cbn [bind]. rewrite (vpoints_same a b _ H). reflexivity.
Qed.
Lemma vphi_same a b st al : data a = data b -> vphi V a st al = vphi V b st al.
Proof.
  intros H. unfold vphi. rewrite (X_same a b H). pose proof (vupd_same a b (trial (s_X b) st al)) as S.
  destruct (vupd V a _) as [s|e], (vupd V b _) as [s'|e']; cbn in S; try contradiction; cbn [bind]; [|congruence].
  rewrite (grad_same s s' S). destruct (hv_gradient V s'); auto. cbn [bind]. rewrite (vpoints_same s s' _ S). reflexivity.
Qed.
Lemma layer_step_same a b l : data a = data b -> vlayer_step V a l = vlayer_step V b l.
Proof.
  intros H. unfold vlayer_step. pose proof (getitem_same a b l H) as S. destruct (getitem a l), (getitem b l); cbn in S; try contradiction; cbn [bind]; [|congruence].
  apply vstep_same; auto.
Qed.
Lemma layer_size_same a b l st Rm : data a = data b -> vlayer_size V a l st Rm = vlayer_size V b l st Rm.
Proof.
  intros H. unfold vlayer_size. pose proof (getitem_same a b l H) as S. destruct (getitem a l) as [t|], (getitem b l) as [t'|]; cbn in S; try contradiction; cbn [bind]; [|congruence].
  unfold vprimal. rewrite (X_same t t' S). destruct (max_step_size _ _ _ _ _); auto. cbn [bind]. apply vbacktrack_ext. intros al. apply vphi_same; auto.
Qed.
Lemma iteration_same o p o' : data (n_state o) = data (n_state p) -> hvn_iteration V o = Ok o' -> exists p', hvn_iteration V p = Ok p' /\ data (n_state o') = data (n_state p').
Proof.
  intros H E. unfold hvn_iteration in *. inv_do E s Es. unfold unique_state in *. assert (EP : vprimal V (n_state o) = vprimal V (n_state p)) by (unfold vprimal; rewrite (X_same _ _ H); auto).
  rewrite EP in Es. pose proof (getitem_same _ _ (check_population (v_order V) (veps V) (vprimal V (n_state p))) H) as S. rewrite Es in S.
  destruct (getitem (n_state p) _) as [t|] eqn:Et; [|contradiction]. cbn in S. cbn [bind]. inv_do E v Ev. rewrite <- (Y_same _ _ S), Ev. cbn [bind].
  inv_do E d Ed. rewrite <- (feas_same _ _ S), Ed. cbn [bind]. rewrite <- (X_same _ _ S). inv_do E r Er. destruct r as [[st Rm] size]. inv_do E s' Eu. injection E as <-.
  rewrite <- (layers_loop_ext (vlayer_step V s) (vlayer_size V s)), Er; [|intros; apply layer_step_same; auto|intros; apply layer_size_same; auto]. cbn [bind].
  pose proof (vupd_same s t (moved (s_X s) size st)) as U. rewrite Eu in U. destruct (vupd V t _) as [t'|]; [|contradiction]. cbn in U. cbn [bind]. eexists. split; eauto.
Qed.

Hypothesis P : hvn_posed V.
Lemma still_once o o' o'' : sound V o -> hvn_iterate V o = Ok o' -> hvn_iterate V o' = Ok o'' -> s_X (n_state o') = s_X (n_state o) -> s_X (n_state o'') = s_X (n_state o').
Proof.
  intros HS E1 E2 EX. pose proof (iterate_sound V P o o' HS E1) as HS'. unfold hvn_iterate in *. inv_do E1 o1 F1. injection E1 as <-. inv_do E2 o2 F2. injection E2 as <-.
  cbn [hvn_log n_state] in *. destruct HS as (N & _ & _ & H1). destruct HS' as (N' & _ & _ & H2). cbn [hvn_log n_state] in H2. unfold holds in H1, H2. rewrite EX in H2.
  destruct (iteration_same o (hvn_log V o1) o1) as (p & Ep & Sp); auto. cbn [hvn_log n_state]. congruence.
  rewrite F2 in Ep. injection Ep as ->. symmetry. apply X_same; auto.
Qed.
Lemma still_forever l : forall o o', sound V o -> hvn_iterate V o = Ok o' -> s_X (n_state o') = s_X (n_state o) -> trace (hvn_iterate V) o' l ->
  forall p, In p l -> s_X (n_state p) = s_X (n_state o).
Proof.
  induction l as [|o2 l IH]; intros o o' HS E EX Ht p Hp; [destruct Hp|]. destruct Ht as [E2 Ht]. pose proof (still_once o o' o2 HS E E2 EX) as E3.
  destruct Hp as [<-|Hp]; [congruence|]. rewrite (IH o' o2 (iterate_sound V P _ _ HS E) E2 E3 Ht p Hp). auto.
Qed.
End Hvn.
