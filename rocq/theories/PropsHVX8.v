(** C59: with eight objectives the Hessian returned in decision space is wrong. *)
From Coq Require Import List Arith Lia ZArith Reals Lra.
From Coquelicot Require Import Coquelicot.
From Verif Require Import Num Exn ListAux NDSModel NDSSpec HVModel HVSpec HVTheory HVTop HVHom HVExtra
  HVDModel HVDSpec HVDTheory HVDProof HVDTop HVHTheory HVHProof HVDHom HVDFacts HVXModel HVXSpec HVXProof HVChain HVSym HVXTop HVDEval.
Import ListNotations.
Open Scope R_scope.

(** the second derivative is unique where the front is in general position *)
Lemma second_X_unique n f J ref X i v j w c c' : (2 <= length ref)%nat -> maps n (length ref) f ->
  (forall x, In x X -> length x = n) -> good ref (map f X) ->
  (i < length X)%nat -> (v < n)%nat -> (j < length X)%nat -> (w < n)%nat ->
  (forall x, length x = n -> jac_at n (length ref) f (J x) x) ->
  is_second_X f ref X i v j w c -> is_second_X f ref X i v j w c' -> c = c'.
Proof.
  intros Hm2 Hmaps HX Hg Hi Hv Hj Hw HJ H1 H2.
  set (D := fun t => sumn (length ref) (fun k => gradf (map f (set_coord X j w t)) ref i k * J (nth i (set_coord X j w t) []) k v)).
  assert (HD : locally (coord X j w) (fun t => is_partial_X f ref (set_coord X j w t) i v (D t))).
  { assert (Hp : lpath (length ref) (fun t => f (set_at w t (nth j X []))) (fun k => J (nth j X []) k w) (nth j (map f X) []) (coord X j w)).
    { rewrite (nth_map_f n f ref) by auto. apply (point_lpath n f J ref); auto; [apply HX, nth_In; auto|]. apply HJ. apply HX, nth_In; auto. }
    assert (HjF : (j < length (map f X))%nat) by (rewrite map_length; auto).
    assert (Hloc := good_local ref (map f X) Hg j _ _ _ HjF Hp).
    revert Hloc. apply filter_imp. intros t Ht. unfold D. apply (grad_X n f J ref); auto.
    - apply (rows_set n f ref); auto.
    - rewrite (set_coord_map n f ref) by auto. exact Ht.
    - unfold set_coord. rewrite set_at_length; auto.
    - apply HJ. apply (rows_set n f ref Hm2 Hmaps X j w t HX Hj). apply nth_In. unfold set_coord. rewrite set_at_length; auto. }
  rewrite <- (is_derive_unique _ _ _ (H1 D HD)). apply (is_derive_unique _ _ _ (H2 D HD)).
Qed.

Definition id_jac (x : vec) : mat := fun k v => if (k =? v)%nat then 1 else 0.
Definition obj8 : hvobj := mkObj 8 8 (map IZR r8) (fun x => x) id_jac (fun _ _ _ _ => 0) true.

Lemma id_jac_at x n m : length x = n -> (m <= n)%nat -> jac_at n m (fun x => x) (id_jac x) x.
Proof.
  intros Hx Hm k v Hk Hv. unfold id_jac.
  apply (is_derive_ext (fun t => if (k =? v)%nat then t else nth k x 0)).
  - intros t. rewrite nth_set_at by lia. reflexivity.
  - destruct (k =? v)%nat; [apply @is_derive_id|apply @is_derive_const].
Qed.
Lemma id_hess_at x n m : hess_at n m id_jac (fun _ _ _ => 0) x.
Proof. intros k v w Hk Hv Hw. split; auto. unfold id_jac. apply @is_derive_const. Qed.

Lemma sumn_pick m v (f : nat -> R) : (v < m)%nat -> sumn m (fun k => (if (k =? v)%nat then 1 else 0) * f k) = f v.
Proof.
  intros Hv. rewrite (sumn_single m v); auto; [rewrite Nat.eqb_refl; ring|].
  intros j _ Hj. destruct (Nat.eqb_spec j v); [contradiction|ring].
Qed.

(** the two entries of the computed blocks that belong to the same pair of variables *)
Lemma run8_both : exists H, compute_HVdY2 (IZR (-100)) stable_argsort 8 (ofZ F8) (map IZR r8) = Ok H /\
  hentry H 0 1 1 0 = -936 /\ hentry H 1 0 0 1 = -1080.
Proof. eexists. split; [apply compute_HVdY2_run; vm_compute; reflexivity|]. split; reflexivity. Qed.

(** Five points that are their own objective vectors: the returned entry is -1008, the
    second derivative -1080. *)
Theorem C59_true_hessian_refuted : exists minf argsort o X dX dX2 i v j w,
  argsort_stable argsort /\ n_obj o = 8%nat /\ length (o_ref o) = n_obj o /\ minimization o = true /\
  maps (n_var o) (n_obj o) (o_func o) /\ X <> [] /\ (forall x, In x X -> length x = n_var o) /\
  general_position (map (func o) X) (oref o) /\ inside (map (func o) X) (oref o) /\ above_all minf (map (func o) X) (oref o) /\
  (forall x, length x = n_var o -> jac_at (n_var o) (n_obj o) (o_func o) (o_jac o x) x) /\
  (forall x, In x X -> hess_at (n_var o) (n_obj o) (o_jac o) (o_hess o x) x) /\
  (i < length X)%nat /\ (v < n_var o)%nat /\ (j < length X)%nat /\ (w < n_var o)%nat /\
  compute_hessian minf argsort o X None None = Ok (dX, dX2) /\
  ~ is_second_X (func o) (oref o) X i v j w (dX2 (i * n_var o + v)%nat (j * n_var o + w)%nat).
Proof.
  destruct run8_both as (H & EH & H1 & H2). unfold hentry in H1, H2.
  set (X := ofZ F8). assert (EX : map (func obj8) X = ofZ F8) by (apply map_id).
  assert (Hr : rows_ok (ofZ F8) (map IZR r8)) by (apply rows_ok_zdec; reflexivity).
  assert (HG : general_position (ofZ F8) (map IZR r8)) by (apply gp_dec; reflexivity).
  assert (Hin : inside (ofZ F8) (map IZR r8)) by (apply inside_dec; reflexivity).
  assert (Hab : above_all (IZR (-100)) (ofZ F8) (map IZR r8)) by (apply above_all_dec; reflexivity).
  assert (Hgood : good (map IZR r8) (map (func obj8) X)) by (rewrite EX; split; auto).
  assert (HX : forall x, In x X -> length x = 8%nat) by exact Hr.
  assert (HJ : forall x, length x = 8%nat -> jac_at 8 8 (fun x => x) (id_jac x) x) by (intros x Hx; apply id_jac_at; auto).
  destruct (whole_gradient (IZR (-100)) stable_argsort stable_argsort_ok (ofZ F8) (map IZR r8) ltac:(discriminate) Hr
    ltac:(simpl; lia) Hab (or_intror (or_introl HG)) (fun _ => Hin)) as (g & Eg & _).
  change (length (map IZR r8)) with 8%nat in Eg.
  assert (Ec : exists dX, compute_gradient (IZR (-100)) stable_argsort obj8 X None None = Ok (dX, g)).
  { unfold compute_gradient. change (obj_points obj8 X None) with (map (func obj8) X). rewrite EX.
    change (n_obj obj8) with 8%nat. change (oref obj8) with (map IZR r8). rewrite Eg. cbn [bind]. eexists. reflexivity. }
  destruct Ec as (dX & Ec).
  assert (Ec2 : exists dX2, compute_hessian (IZR (-100)) stable_argsort obj8 X None None = Ok (dX, dX2)).
  { unfold compute_hessian. rewrite Ec. cbn [bind]. change (obj_points obj8 X None) with (map (func obj8) X). rewrite EX.
    change (n_obj obj8) with 8%nat. change (oref obj8) with (map IZR r8). rewrite EH. cbn [bind]. eexists. reflexivity. }
  destruct Ec2 as (dX2 & Ec2).
  exists (IZR (-100)), stable_argsort, obj8, X, dX, dX2, 0%nat, 1%nat, 1%nat, 0%nat.
  change (oref obj8) with (map IZR r8). change (n_var obj8) with 8%nat. change (n_obj obj8) with 8%nat.
  split; [exact stable_argsort_stable|]. split; [reflexivity|]. split; [reflexivity|]. split; [reflexivity|].
  split; [intros x Hx; exact Hx|]. split; [discriminate|]. split; [exact HX|].
  rewrite EX. split; [exact HG|]. split; [exact Hin|]. split; [exact Hab|]. split; [exact HJ|].
  split; [intros x _; apply id_hess_at|].
  assert (LX : length X = 5%nat) by reflexivity. rewrite LX.
  split; [lia|]. split; [lia|]. split; [lia|]. split; [lia|]. split; [exact Ec2|]. intros Hc.
  destruct (hessian_blocks (IZR (-100)) stable_argsort obj8 X None None dX dX2 Ec2) as (g' & H' & _ & EH' & Hb).
  change (obj_points obj8 X None) with (map (func obj8) X) in EH'. rewrite EX in EH'.
  change (n_obj obj8) with 8%nat in EH'. change (oref obj8) with (map IZR r8) in EH'. rewrite EH in EH'. injection EH' as <-.
  specialize (Hb 0%nat 1%nat 1%nat 0%nat). change (n_var obj8) with 8%nat in Hb.
  rewrite Hb in Hc by (simpl; lia).
  assert (Hraw : forall i v j w, i <> j -> (v < 8)%nat -> (w < 8)%nat ->
    raw_block obj8 (obj_jac obj8 X None) (fun i => hessian obj8 (nth i X [])) g' H i v j w
    = nth v (nth i (nth w (nth j H []) []) []) 0).
  { intros i v j w Hij Hv Hw. unfold raw_block. destruct (Nat.eqb_spec i j); [contradiction|].
    change (n_obj obj8) with 8%nat.
    rewrite (sumn_ext 8 _ (fun k => (if (k =? v)%nat then 1 else 0) * nth k (nth i (nth w (nth j H []) []) []) 0)).
    - rewrite (sumn_pick 8 v) by auto. ring.
    - intros k Hk.
      rewrite (sumn_ext 8 _ (fun l => (if (l =? w)%nat then 1 else 0) * ((if (k =? v)%nat then 1 else 0) * nth k (nth i (nth l (nth j H []) []) []) 0))).
      + rewrite (sumn_pick 8 w (fun l => (if (k =? v)%nat then 1 else 0) * nth k (nth i (nth l (nth j H []) []) []) 0)) by auto. reflexivity.
      + intros l Hl. change (obj_jac obj8 X None i k v) with (if (k =? v)%nat then 1 else 0).
        change (obj_jac obj8 X None j l w) with (if (l =? w)%nat then 1 else 0). ring. }
  rewrite !Hraw in Hc by lia. rewrite H1, H2 in Hc.
  assert (Ht := hess_X 8 (func obj8) id_jac (fun _ _ _ _ => 0) (map IZR r8) ltac:(simpl; lia)
    (fun x Hx => Hx) 6 eq_refl X 0 1 1 0 HX Hgood ltac:(simpl; lia) ltac:(lia) ltac:(simpl; lia) ltac:(lia) HJ
    (id_hess_at _ _ _)).
  assert (E : forall c, is_second_X (func obj8) (map IZR r8) X 0 1 1 0 c -> c = -1080).
  { intros c Hcc. refine (second_X_unique 8 (func obj8) id_jac (map IZR r8) X 0 1 1 0 c (-1080) _ _ HX Hgood _ _ _ _ HJ Hcc _); try (simpl; lia).
    - intros x Hx; exact Hx.
    - match type of Ht with is_second_X _ _ _ _ _ _ _ ?c' => replace (-1080) with c'; [exact Ht|] end.
      change (@map (list R) (list R) (func obj8) X) with (ofZ F8). change (length (map IZR r8)) with 8%nat.
      rewrite (sumn_ext 8 _ (fun k => (if (k =? 1)%nat then 1 else 0) * hessf (ofZ F8) (map IZR r8) 6 0 k 1 0)).
      + rewrite (sumn_pick 8 1 (fun k => hessf (ofZ F8) (map IZR r8) 6 0 k 1 0)) by lia. exact true8.
      + intros k Hk. rewrite (sumn_ext 8 _ (fun l => (if (l =? 0)%nat then 1 else 0) * hessf (ofZ F8) (map IZR r8) 6 0 k 1 l)).
        * rewrite (sumn_pick 8 0 (fun l => hessf (ofZ F8) (map IZR r8) 6 0 k 1 l)) by lia.
          change (id_jac (nth 0 X []) k 1%nat) with (if (k =? 1)%nat then 1 else 0). change (0 =? 1)%nat with false. cbv iota. ring.
        * intros l Hl. change (id_jac (nth 1 X []) l 0%nat) with (if (l =? 0)%nat then 1 else 0). ring. }
  specialize (E _ Hc). lra.
Qed.
Print Assumptions C59_true_hessian_refuted.
