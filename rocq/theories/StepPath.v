(** Along the Newton step the root-finding problem changes at the rate - R. *)
From Coq Require Import List Arith Bool Reals Lia Lra.
From Coquelicot Require Import Coquelicot.
From Verif Require Import Num Exn ListAux MiscModel StateModel NewtonModel RefModel HVXModel HVXProof HVXTop StepModel StepSpec StepProof StepTop StepMain.
Import ListNotations.
Open Scope R_scope.

(** [path t] are the data of the [N] points after the step [t * st]: the derivative of the
    indicator changes with the Hessian [A], the constraints and their gradients with the
    derivatives stored in the points, and the active constraints stay the same near 0 *)
Definition along (d nc N : nat) (A st : list (list R)) (path : R -> nat -> pt) : Prop :=
  locally 0 (fun t => forall i, (i < N)%nat -> pt_act (path t i) = pt_act (path 0 i)) /\
  forall i, (i < N)%nat ->
    (forall a, (a < d)%nat -> is_derive (fun t : R => nth a (pt_grad (path t i)) 0) 0
        (sumn N (fun j => sumn d (fun b => ent A (i * d + a) (j * d + b) * ent st j b)))) /\
    (forall k, (k < nc)%nat -> is_derive (fun t : R => nth k (pt_dual (path t i)) 0) 0 (ent st i (d + k))) /\
    (forall k, (k < nc)%nat -> is_derive (fun t : R => nth k (pt_cval (path t i)) 0) 0 (sumn d (fun a => ent (pt_D (path 0 i)) k a * ent st i a))) /\
    (forall k a, (k < nc)%nat -> (a < d)%nat ->
        is_derive (fun t : R => ent (pt_D (path t i)) k a) 0 (sumn d (fun b => curvature (path 0 i) k a b * ent st i b))).
Definition points (N : nat) (f : nat -> pt) : list pt := map f (seq 0 N).
(** sum of the squares of the entries *)
Definition sqnorm (N w : nat) (M : list (list R)) : R := sumn N (fun i => sumn w (fun j => ent M i j * ent M i j)).

Lemma points_length N f : length (points N f) = N. Proof. unfold points. rewrite map_length, seq_length. auto. Qed.
Lemma points_nth N f i : (i < N)%nat -> nth_error (points N f) i = Some (f i).
Proof. intros H. unfold points. rewrite nth_error_map, (List.nth_error_nth' _ 0%nat) by (rewrite seq_length; auto). rewrite seq_nth by auto. reflexivity. Qed.

Section Path.
Variables (d nc N : nat) (A st : list (list R)) (path : R -> nat -> pt).
Hypothesis Halong : along d nc N A st path.
Hypothesis Hkkt : linear_kkt true d nc A (points N (path 0)) st.

Lemma lagrangian_rate i a : (i < N)%nat -> (a < d)%nat ->
  is_derive (fun t : R => lagrangian nc (path t i) a) 0 (- lagrangian nc (path 0 i) a).
Proof.
  intros Hi Ha. destruct Halong as [Hact HD]. destruct (HD i Hi) as (Hg & Hdual & Hv & HDD).
  destruct (Hkkt i (path 0 i) (points_nth N (path 0) i Hi)) as [Hu _]. rewrite <- (Hu a Ha). rewrite points_length.
  apply (is_derive_ext_loc (fun t : R => nth a (pt_grad (path t i)) 0 +
     sumn nc (fun k => if nth k (pt_act (path 0 i)) false then nth k (pt_dual (path t i)) 0 * ent (pt_D (path t i)) k a else 0))).
  { revert Hact. apply filter_imp. intros t Ht. unfold lagrangian, asum. rewrite (Ht i Hi). reflexivity. }
  rewrite Rplus_assoc. apply (is_derive_plus (fun t : R => nth a (pt_grad (path t i)) 0)); [apply Hg; auto|].
  unfold asum. rewrite <- sumn_plus. apply sumn_derive. intros k Hk. destruct (nth k (pt_act (path 0 i)) false).
  - evar_last. apply (is_derive_mult (fun t : R => nth k (pt_dual (path t i)) 0) (fun t : R => ent (pt_D (path t i)) k a)); [apply Hdual; auto|apply HDD; auto|intros n m; apply Rmult_comm].
    unfold plus, mult; simpl. ring.
  - evar_last. apply is_derive_const. unfold zero; simpl. ring.
Qed.
Lemma cval_rate i k : (i < N)%nat -> (k < nc)%nat -> nth k (pt_act (path 0 i)) false = true ->
  is_derive (fun t : R => nth k (pt_cval (path t i)) 0) 0 (- nth k (pt_cval (path 0 i)) 0).
Proof.
  intros Hi Hk Hac. destruct Halong as [Hact HD]. destruct (HD i Hi) as (Hg & Hdual & Hv & HDD).
  destruct (Hkkt i (path 0 i) (points_nth N (path 0) i Hi)) as [_ Hl]. rewrite <- (Hl k Hk Hac). apply Hv; auto.
Qed.

(** the entries of R *)
Definition R_entry (p : pt) (j : nat) : R :=
  if (j <? d)%nat then lagrangian nc p j else if nth (j - d) (pt_act p) false then nth (j - d) (pt_cval p) 0 else 0.
Lemma R_entry_rate i j : (i < N)%nat -> (j < d + nc)%nat -> is_derive (fun t : R => R_entry (path t i) j) 0 (- R_entry (path 0 i) j).
Proof.
  intros Hi Hj. unfold R_entry. destruct (Nat.ltb_spec j d) as [Hl|Hl]; [apply lagrangian_rate; auto|].
  apply (is_derive_ext_loc (fun t : R => if nth (j - d) (pt_act (path 0 i)) false then nth (j - d) (pt_cval (path t i)) 0 else 0)).
  { destruct Halong as [Hact _]. revert Hact. apply filter_imp. intros t Ht. rewrite (Ht i Hi). reflexivity. }
  destruct (nth (j - d) (pt_act (path 0 i)) false) eqn:E.
  - apply cval_rate; auto. lia.
  - evar_last. apply is_derive_const. unfold zero; simpl. ring.
Qed.
Lemma merit_rate : is_derive (fun t : R => sumn N (fun i => sumn (d + nc) (fun j => R_entry (path t i) j * R_entry (path t i) j))) 0
  (-2 * sumn N (fun i => sumn (d + nc) (fun j => R_entry (path 0 i) j * R_entry (path 0 i) j))).
Proof.
  rewrite <- sumn_scal. apply sumn_derive. intros i Hi. rewrite <- sumn_scal. apply sumn_derive. intros j Hj.
  evar_last. apply (is_derive_mult (fun t : R => R_entry (path t i) j) (fun t : R => R_entry (path t i) j)); [apply R_entry_rate; auto|apply R_entry_rate; auto|intros n m; apply Rmult_comm].
  unfold plus, mult; simpl. ring.
Qed.
End Path.

Lemma is_R_entry d nc ps Rm : is_R d nc ps Rm -> forall i p j, nth_error ps i = Some p -> (j < d + nc)%nat -> ent Rm i j = R_entry d nc p j.
Proof.
  intros [_ H] i p j Ep Hj. destruct (H i p Ep) as [H1 H2]. unfold R_entry. destruct (Nat.ltb_spec j d) as [Hl|Hl]; auto.
  rewrite <- H2 by lia. f_equal. lia.
Qed.
Lemma is_R_sqnorm d nc N f Rm : is_R d nc (points N f) Rm -> sqnorm N (d + nc) Rm = sumn N (fun i => sumn (d + nc) (fun j => R_entry d nc (f i) j * R_entry d nc (f i) j)).
Proof.
  intros H. unfold sqnorm. apply sumn_ext. intros i Hi. apply sumn_ext. intros j Hj. rewrite (is_R_entry d nc (points N f) Rm H i (f i) j) by (auto; apply points_nth; auto). reflexivity.
Qed.

(** the squared norm of what [compute_R] returns along the step *)
Definition merit_of (d nc N : nat) (r : res (list (list R) * option (list (list (list R))))) : R :=
  match r with Ok (Rm, _) => sqnorm N (d + nc) Rm | Exn _ => 0 end.
Lemma merit_derive d nc N A st path : (forall t i, (i < N)%nat -> shaped d nc (path t i)) -> along d nc N A st path ->
  linear_kkt true d nc A (points N (path 0)) st ->
  is_derive (fun t : R => merit_of d nc N (compute_R d nc true (points N (path t)))) 0
            (-2 * merit_of d nc N (compute_R d nc true (points N (path 0)))).
Proof.
  intros Hs Ha Hk.
  assert (E : forall t, merit_of d nc N (compute_R d nc true (points N (path t))) = sumn N (fun i => sumn (d + nc) (fun j => R_entry d nc (path t i) j * R_entry d nc (path t i) j))).
  { intros t. destruct (compute_R_spec d nc (points N (path t))) as (Rm & dH & ER & HR).
    - intros p Hp. apply in_map_iff in Hp as (i & <- & Hi). apply in_seq in Hi. apply Hs. lia.
    - rewrite ER. simpl. apply is_R_sqnorm. auto. }
  rewrite E. apply (is_derive_ext (fun t : R => sumn N (fun i => sumn (d + nc) (fun j => R_entry d nc (path t i) j * R_entry d nc (path t i) j)))); [intros t; symmetry; apply E|].
  eapply merit_rate; eauto.
Qed.
