(** Pieces of an iteration of HVN: shapes and success. *)
From Coq Require Import List Arith Bool Reals ZArith Lia Lra Permutation.
From Verif Require Import Num Exn ListAux MiscModel StateModel StateSpec StateProof NewtonModel NewtonProof NewtonBox NewtonPop RefModel HVTop HVXModel HVXProof StepModel StepSpec StepProof StepTop StepMain StepIter StepLast ShiftModel IterModel IterSpec IterProof IterMain IterTotal HvnModel HvnSpec.
From Verif Require PropsStep PropsNewton.
Import ListNotations.
Open Scope R_scope.

Lemma dist2_sym p q : dist2 p q = dist2 q p.
Proof.
  unfold dist2. f_equal. revert q. induction p as [|a p IH]; intros [|b q]; simpl; auto. rewrite IH. f_equal. lra.
Qed.
Lemma grad_rows_matrix N n dX : matrix N n (grad_rows N n dX).
Proof.
  unfold grad_rows. split. rewrite map_length, seq_length; auto. intros r Hr. apply in_map_iff in Hr as (i & <- & _). rewrite map_length, seq_length. auto.
Qed.
Lemma hess_rows_matrix n H : matrix n n (hess_rows n H).
Proof.
  unfold hess_rows. split. rewrite map_length, seq_length; auto. intros r Hr. apply in_map_iff in Hr as (i & <- & _). rewrite map_length, seq_length. auto.
Qed.
Lemma rows_at_length {A} (d : A) l idx : length (rows_at d l idx) = length idx.
Proof. apply map_length. Qed.
Lemma rows_at_nth {A} (d : A) l idx j : (j < length idx)%nat -> nth j (rows_at d l idx) d = nth (nth j idx 0%nat) l d.
Proof. intros H. unfold rows_at. rewrite (nth_map_default _ _ _ 0%nat) by auto. auto. Qed.

Section Hvn.
Variable V : hvn_cfg.
Hypothesis P : hvn_posed V.
Let K := as_dpn V.
Let c := v_prob V.
Let W : well_posed K := hp_problem V P.
Let Hrw : rowwise_all c := wp_rows K W.

(** * parts of a state *)
Lemma getitem_holds s X N idx : pop K N X -> holds K s X -> idx <> [] -> (forall i, In i idx -> (i < N)%nat) ->
  exists t, getitem s idx = Ok t /\ holds K t (rows_at [] X idx) /\ pop K (length idx) (rows_at [] X idx) /\ n_jac t = n_jac s.
Proof using P.
  intros HP H Hne Hb. assert (HN : (0 < N)%nat). { destruct idx as [|i idx]; [congruence|]. specialize (Hb i (or_introl eq_refl)). lia. }
  destruct HP as [LX HX]. destruct (take_rows_exists X idx) as (X' & E). { intros i Hi. rewrite LX. auto. }
  pose proof (rows_taken X idx X' E) as ->. fold (rows_at [] X idx) in *.
  assert (PX : pop K (length idx) (rows_at [] X idx)). { split. apply rows_at_length. intros x Hx. apply HX. apply (take_rows_in _ _ _ _ E). auto. }
  destruct (upd_total K W init N X HN (conj LX HX)) as (s1 & E1 & H1).
  destruct (getitem_update (zero_row K) (zero_mat K) c Hrw init init X s1 idx _ E1 E Hne) as (a & b & Ea & Eb & Ed).
  assert (Hb' : holds K b (rows_at [] X idx)). { apply (upd_holds K W init (length idx)); auto. destruct idx; [congruence|simpl; lia]. }
  assert (Hs : data s = data s1) by (unfold holds in H, H1; congruence).
  unfold getitem in *. unfold data in Hs. injection Hs as Q1 Q2 Q3 Q4 Q5 Q6 Q7. rewrite Q1, Q2, Q3, Q4, Q5, Q6, Q7.
  clear Q1 Q2 Q3 Q4 Q5 Q6 Q7.
  inv_do Ea r1 F1. rewrite F1. inv_do Ea r2 F2. rewrite F2. inv_do Ea r3 F3. rewrite F3. inv_do Ea r4 F4. rewrite F4. inv_do Ea r5 F5. rewrite F5. inv_do Ea r6 F6. rewrite F6. inv_do Ea r7 F7. rewrite F7.
  injection Ea as <-. cbn [bind]. eexists. split; [reflexivity|]. split; [|split; auto]. unfold holds in *. rewrite <- Hb', <- Ed. reflexivity.
Qed.
Lemma pop_dim N X : pop K N X -> forall x, In x X -> length x = vdim V.
Proof using. intros [_ H] x Hx. apply H. auto. Qed.
Lemma vupd_total s0 N X : (0 < N)%nat -> pop K N X -> exists s, vupd V s0 X = Ok s /\ holds K s X.
Proof using P. apply (upd_total K W). Qed.
Lemma vprimal_rows N X s : pop K N X -> holds K s X -> length (vprimal V s) = N /\ forall x, In x (vprimal V s) -> length x = vdim_p V.
Proof using.
  intros [HN HX] H. unfold vprimal, primal. rewrite (holds_X K s X H), map_length. split; auto. intros x Hx. apply in_map_iff in Hx as (y & <- & Hy).
  rewrite firstn_length. specialize (HX y Hy). unfold IterProof.dim, IterModel.dim_p in HX. unfold vdim_p. change (k_prob K) with (v_prob V) in HX. lia.
Qed.

(** * the Newton step of a layer *)
Lemma vunconstrained_dim : vconstrained V = false -> vdim V = vdim_p V.
Proof using P. intros H. unfold vdim. change (vdim_d V) with (IterModel.dim_d K). rewrite (unconstrained_dim K (wp_counts K W) H). lia. Qed.
Lemma vstep_total s N X g Hs : (0 < N)%nat -> pop K N X -> holds K s X -> hv_derivatives V s = Ok (g, Hs) ->
  exists st Rm, vstep V s = Ok (st, Rm) /\ matrix N (vdim V) st /\ matrix N (vdim V) Rm.
Proof using P.
  intros HN HP H E. unfold vstep. rewrite E. cbn [bind fst snd]. destruct (vprimal_rows N X s HP H) as [LP _].
  assert (Hg : matrix N (vdim_p V) g /\ matrix (N * vdim_p V) (N * vdim_p V) Hs).
  { unfold hv_derivatives in E. inv_do E gh Eg. injection E as <- <-. rewrite LP. split. apply grad_rows_matrix. apply hess_rows_matrix. }
  destruct Hg as [Hg HH]. change (vpoints V s g) with (points_of K s g).
  assert (LPs : length (points_of K s g) = N) by (rewrite points_length; rewrite (holds_X _ _ _ H); apply HP).
  destruct (vconstrained V) eqn:Ec.
  - destruct (PropsStep.C72_hvn (v_solve V) (v_lstsq V) (v_chol V) (hp_solve V P) (hp_lstsq V P) (vdim_p V) (vdim_d V) (v_pre V) Hs (points_of K s g)) as (st & Rm & E1 & M1 & [M2 _] & _).
    lia. apply (points_shaped K W N s X g Ec HP H Hg). rewrite LPs. auto. rewrite LPs in *. exists st, Rm. split; auto.
  - destruct (PropsStep.C72_hvn_unconstrained (v_solve V) (v_lstsq V) (v_chol V) (hp_solve V P) (hp_lstsq V P) (vdim_p V) (vdim_d V) (v_pre V) Hs (points_of K s g)) as (st & E1 & M1 & _).
    lia. apply (points_grad K N s X g HP H Hg). rewrite LPs. auto. rewrite LPs in *. exists st, (map pt_grad (points_of K s g)). split; auto. rewrite (vunconstrained_dim Ec).
    split; auto. split. rewrite map_length. auto. intros r Hr. apply in_map_iff in Hr as (p & <- & Hp). apply (points_grad K N s X g HP H Hg p Hp).
Qed.
Lemma compute_R_total s N X g : pop K N X -> holds K s X -> matrix N (vdim_p V) g ->
  exists Rm dH, compute_R (vdim_p V) (vdim_d V) (vconstrained V) (vpoints V s g) = Ok (Rm, dH) /\ matrix N (vdim V) Rm.
Proof using P.
  intros HP H Hg. change (vpoints V s g) with (points_of K s g).
  assert (LPs : length (points_of K s g) = N) by (rewrite points_length; rewrite (holds_X _ _ _ H); apply HP).
  destruct (vconstrained V) eqn:Ec.
  - destruct (compute_R_spec (vdim_p V) (vdim_d V) (points_of K s g) (points_shaped K W N s X g Ec HP H Hg)) as (Rm & dH & E & M & _). rewrite LPs in M. exists Rm, (Some dH). split; auto.
  - exists (map pt_grad (points_of K s g)), None. split; [reflexivity|]. rewrite (vunconstrained_dim Ec). split. rewrite map_length; auto.
    intros r Hr. apply in_map_iff in Hr as (p & <- & Hp). apply (points_grad K N s X g HP H Hg p Hp).
Qed.

(** * the line search *)
(** derivatives exist at all populations of [n] points *)
Definition differentiable_at (n : nat) : Prop := forall t X, pop K n X -> holds K t X -> exists gh, hv_derivatives V t = Ok gh.
Lemma gradient_total t gh : hv_derivatives V t = Ok gh -> hv_gradient V t = Ok (fst gh).
Proof using.
  unfold hv_derivatives, hv_gradient, compute_hessian. intros E. inv_do E q Eq. injection E as <-. inv_do Eq G EG. rewrite EG. cbn [bind]. destruct G as [dX g].
  inv_do Eq Hm EH. injection Eq as <-. reflexivity.
Qed.
Lemma trial_pop N X st al : pop K N X -> matrix N (vdim V) st -> pop K N (trial X st al).
Proof using.
  intros [LX HX] [LS HS]. unfold trial. assert (LT : length (zip_with (zip_with (fun x t => x + al * t)) X st) = N) by (rewrite NewtonProof.zip_with_length; congruence).
  split; auto. intros x Hx. apply (In_nth _ _ []) in Hx as (i & Hi & <-).
  rewrite LT in Hi. rewrite (zip_with_nth _ _ _ _ [] []) by lia.
  assert (L1 : length (nth i X []) = IterProof.dim K) by (apply HX, nth_In; lia). assert (L2 : length (nth i st []) = IterProof.dim K) by (apply HS, nth_In; lia).
  rewrite NewtonProof.zip_with_length; congruence.
Qed.
Lemma vphi_total s N X st al : (0 < N)%nat -> differentiable_at N -> pop K N X -> holds K s X -> matrix N (vdim V) st -> exists p, vphi V s st al = Ok p /\ 0 <= p.
Proof using P.
  intros HN Hd HP H Hst. unfold vphi. rewrite (holds_X _ _ _ H). pose proof (trial_pop N X st al HP Hst) as HT.
  destruct (vupd_total s N _ HN HT) as (s' & E & H'). rewrite E. cbn [bind]. destruct (Hd s' _ HT H') as (gh & Eg). rewrite (gradient_total _ _ Eg). cbn [bind].
  assert (Hg : matrix N (vdim_p V) (fst gh)).
  { unfold hv_derivatives in Eg. inv_do Eg q Eq. injection Eg as <-. cbn [fst]. destruct (vprimal_rows N _ s' HT H') as [-> _]. apply grad_rows_matrix. }
  destruct (compute_R_total s' N _ _ HT H' Hg) as (Rm & dH & ER & _). rewrite ER. cbn [bind fst]. eexists. split; [reflexivity|]. apply sqrt_pos.
Qed.
Lemma vbacktrack_total phi phi0 n : (forall s, exists p, phi s = Ok p) -> forall s, exists a, vbacktrack n phi phi0 s = Ok a.
Proof using.
  intros Hp. induction n as [|n IH]; intros s; cbn [vbacktrack]. eauto. destruct (Hp s) as [p ->]. cbn [bind]. destruct (armijo _ _ _ _); eauto.
Qed.
(** the step size is an accepted one or the last one *)
Lemma vbacktrack_spec phi phi0 n : forall s a, vbacktrack n phi phi0 s = Ok a ->
  exists k, (k <= n)%nat /\ a = s * (/ 2) ^ k /\ (forall j, (j < k)%nat -> exists p, phi (s * (/ 2) ^ j) = Ok p /\ armijo (/ 10 ^ 5) (Fin phi0) (s * (/ 2) ^ j) (Fin p) = false) /\
    (k = n \/ exists p, phi a = Ok p /\ armijo (/ 10 ^ 5) (Fin phi0) a (Fin p) = true).
Proof using.
  induction n as [|n IH]; intros s a; cbn [vbacktrack].
  - intros H. injection H as <-. exists 0%nat. split; auto. split. simpl; lra. split; [intros; lia|auto].
  - intros H. inv_do H p Ep. destruct (armijo _ _ _ _) eqn:Ea.
    + injection H as <-. exists 0%nat. split; [lia|]. split. simpl; lra. split; [intros; lia|]. eauto.
    + apply IH in H as (k & Hk & -> & H1 & H2). exists (S k). split; [lia|]. split. simpl; lra. split.
      * intros [|j] Hj. exists p. simpl. rewrite Rmult_1_r. auto. destruct (H1 j ltac:(lia)) as (q & E1 & E2). exists q. simpl. rewrite <- Rmult_assoc. auto.
      * destruct H2 as [->|H2]; auto.
Qed.
End Hvn.
