(** Property theorems: automatic differentiation of the hypervolume (C172, C173). *)
From Coq Require Import List Arith Lia ZArith Reals Lra.
From Coquelicot Require Import Coquelicot.
From Verif Require Import Num Exn ListAux NDSSpec HVModel HVSpec HVHom HVDModel HVDSpec HVDHom HVXModel HVXSpec HVXProof HVXTop HVDEval PropsHVX AdModel AdSpec AdProof AdMain.
Import ListNotations.
Open Scope R_scope.

(** * C172 *)
(** the functions of a flat vector return the hypervolume of its rows, and a ValueError if it cannot be cut into rows *)
Theorem C172_wrappers : forall minf argsort m f ref (Y : list vec) v, (1 <= m)%nat -> (forall y, In y Y -> length y = m) ->
  HVY minf argsort m ref (concat Y) = hypervolume minf argsort Y ref /\
  HVX minf argsort m f ref (concat Y) = hypervolume minf argsort (map f Y) ref /\
  ((length v mod m)%nat <> O -> HVY minf argsort m ref v = Exn ValueError /\ HVX minf argsort m f ref v = Exn ValueError).
Proof.
  intros minf argsort m f ref Y v Hm HY. unfold HVY, HVX. rewrite reshape_concat by auto. split; [reflexivity|]. split; [reflexivity|].
  intros Hv. unfold reshape. rewrite (proj2 (Nat.eqb_neq m 0)) by lia. rewrite (proj2 (Nat.eqb_neq _ 0)) by auto. split; reflexivity.
Qed.
Print Assumptions C172_wrappers.

(** if autograd differentiates correctly, the results are the true derivatives in decision space,
    for any number of objectives from two on *)
Theorem C172_true_derivatives : forall minf argsort AJ AH s X, argsort_ok argsort -> jacobian_ok minf argsort AJ -> hessian_ok minf argsort AH ->
  let o := a_obj s in maps (n_var o) (n_obj o) (o_func o) -> (forall x, In x X -> length x = n_var o) -> length (o_ref o) = n_obj o ->
  regular minf (map (func o) X) (oref o) -> current s ->
  (forall x, length x = n_var o -> jac_at (n_var o) (n_obj o) (o_func o) (o_jac o x) x) ->
  (forall x, In x X -> hess_at (n_var o) (n_obj o) (o_jac o) (o_hess o x) x) ->
  exists a s', automatic minf argsort AJ AH s X = Ok (a, s') /\ a_obj s' = o /\ current s' /\
  forall i v j w, (i < length X)%nat -> (v < n_var o)%nat -> (j < length X)%nat -> (w < n_var o)%nat ->
    is_partial_X (func o) (oref o) X i v (d_X a (i * n_var o + v)%nat) /\
    is_second_X (func o) (oref o) X i v j w (d_X2 a (i * n_var o + v)%nat (j * n_var o + w)%nat).
Proof. intros minf argsort AJ AH s X Ha HJ HH o Hmp HX Hl Hr Hc J1 H1. apply (automatic_true minf argsort Ha AJ AH HJ HH o X Hmp HX Hl Hr s eq_refl Hc J1 H1). Qed.
Print Assumptions C172_true_derivatives.

(** the entry HVdY is the gradient with respect to the objective values of the user's function,
    also when maximising *)
Theorem C172_objective_gradient : forall minf argsort AJ AH s X, argsort_ok argsort -> jacobian_ok minf argsort AJ -> hessian_ok minf argsort AH ->
  let o := a_obj s in maps (n_var o) (n_obj o) (o_func o) -> (forall x, In x X -> length x = n_var o) -> length (o_ref o) = n_obj o ->
  regular minf (map (func o) X) (oref o) -> current s ->
  exists a s', automatic minf argsort AJ AH s X = Ok (a, s') /\
    is_gradient (fun v => HVY minf argsort (n_obj o) (oref o) (if minimization o then v else map (fun c => -1 * c) v)) (concat (map (o_func o) X)) (d_Y a).
Proof. intros minf argsort AJ AH s X Ha HJ HH o Hmp HX Hl Hr Hc. apply (automatic_gradient minf argsort Ha AJ AH HJ HH o X Hmp HX Hl Hr s eq_refl Hc). Qed.
Print Assumptions C172_objective_gradient.

(** both ways of computing the derivatives agree in all four entries *)
Theorem C172_agree : forall minf argsort AJ AH s X, argsort_ok argsort -> jacobian_ok minf argsort AJ -> hessian_ok minf argsort AH ->
  let o := a_obj s in maps (n_var o) (n_obj o) (o_func o) -> (forall x, In x X -> length x = n_var o) -> length (o_ref o) = n_obj o ->
  regular minf (map (func o) X) (oref o) -> current s -> (n_obj o <= 5)%nat \/ (n_obj o = 6%nat /\ argsort_stable argsort) ->
  exists a s' Z b, automatic minf argsort AJ AH s X = Ok (a, s') /\ analytic minf argsort o X = Ok (Z, b) /\
    let N := (length X * n_obj o)%nat in
    (forall c, d_X a c = d_X b c) /\ (forall r, (r < N)%nat -> d_Y a r = d_Y b r) /\
    (forall p q, d_X2 a p q = d_X2 b p q) /\ (forall r c, (r < N)%nat -> (c < N)%nat -> d_Y2 a r c = d_Y2 b r c).
Proof. intros minf argsort AJ AH s X Ha HJ HH o Hmp HX Hl Hr Hc Hm. apply (automatic_agrees minf argsort Ha AJ AH HJ HH o X Hmp HX Hl Hr s eq_refl Hc Hm). Qed.
Print Assumptions C172_agree.

(** the dictionary of [_compute_hessian] holds the values of [compute_derivatives] and the user's objective values *)
Theorem C172_dictionary : forall minf argsort o X Z b, analytic minf argsort o X = Ok (Z, b) ->
  Z = map (o_func o) X /\ exists dX dX2, compute_hessian minf argsort o X None None = Ok (dX, dX2) /\ d_X b = dX /\ d_X2 b = dX2.
Proof.
  intros minf argsort o X Z b. unfold analytic, compute_hessian, compute_gradient. cbn [obj_points obj_jac].
  destruct (compute_HVdY _ _ _ _ _) as [g|e]; cbn [bind]; [|discriminate]. destruct (compute_HVdY2 _ _ _ _ _) as [H|e]; cbn [bind]; [|discriminate].
  intros E. injection E as <- <-. split; [|eexists _, _; split; [reflexivity|split; reflexivity]].
  unfold func. destruct (minimization o); auto. rewrite map_map. apply map_ext. intros x. apply vneg_involutive.
Qed.
Print Assumptions C172_dictionary.

(** * C173 *)
(** a reference point set before the first call is used.  Missing: one set afterwards, which is ignored (below) *)
Theorem C173_before_first_call_partial : forall r o, current (set_ref r (fresh o)) /\ o_ref (a_obj (set_ref r (fresh o))) = r /\
  func (a_obj (set_ref r (fresh o))) = func o /\ n_obj (a_obj (set_ref r (fresh o))) = n_obj o /\
  oref (a_obj (set_ref r (fresh o))) = if minimization o then r else map (fun c => -1 * c) r.
Proof. intros r o. split; [split; left; reflexivity|]. split; [reflexivity|]. split; [reflexivity|]. split; reflexivity. Qed.
Print Assumptions C173_before_first_call_partial.
(** after the first call the reference point of the automatic derivatives is fixed: setting another one changes nothing *)
Theorem C173_frozen_reference : forall minf argsort AJ AH s X a s' r X', automatic minf argsort AJ AH s X = Ok (a, s') ->
  rmap fst (automatic minf argsort AJ AH (set_ref r s') X') = rmap fst (automatic minf argsort AJ AH s' X').
Proof.
  intros minf argsort AJ AH s X a s' r X' E. unfold automatic in E. destruct (AJ _ _) as [g|]; cbn [bind] in E; [|discriminate]. destruct (AH _ _) as [H|]; cbn [bind] in E; [|discriminate].
  injection E as _ <-. unfold automatic, set_ref. cbn [a_obj a_jac a_hes n_obj].
  change (func (mkObj (n_var (a_obj s)) (n_obj (a_obj s)) r (o_func (a_obj s)) (o_jac (a_obj s)) (o_hess (a_obj s)) (minimization (a_obj s)))) with (func (a_obj s)).
  destruct (AJ _ _) as [g'|]; cbn [bind]; [|reflexivity]. destruct (AH _ _) as [H'|]; cbn [bind]; reflexivity.
Qed.
Print Assumptions C173_frozen_reference.

Lemma ex_regular r : (10 <= r)%Z -> regular (IZR (-100)) ex_Y (map IZR [r; 10]%Z) \/ (50 < r)%Z.
Proof.
  intros H. destruct (Z_lt_dec 50 r) as [|Hr]; [right; lia|left]. assert (H1 : 10 <= IZR r) by (apply (IZR_le 10); auto). assert (H2 : IZR r <= 50) by (apply (IZR_le r 50); lia).
  split; [simpl; lia|]. split; [discriminate|]. split; [intros p [<-|[<-|[]]]; reflexivity|]. unfold ex_Y. cbn [map].
  split; [split|split].
  - intros i k Hi Hk j Hj Hne. destruct i as [|[|]], j as [|[|]], k as [|[|]]; simpl in *; try lia; unfold coord; simpl; lra.
  - intros i k Hi Hk. destruct i as [|[|]], k as [|[|]]; simpl in *; try lia; unfold coord; simpl; lra.
  - intros i k Hi Hk. destruct i as [|[|]], k as [|[|]]; simpl in *; try lia; unfold coord; simpl; lra.
  - intros i k Hi Hk. destruct i as [|[|]], k as [|[|]]; simpl in *; try lia; unfold coord; simpl; lra.
Qed.
Lemma ex_regular10 : regular (IZR (-100)) (map (func ex_obj) ex_X) (oref ex_obj).
Proof. rewrite ex_Y_eq. destruct (ex_regular 10) as [H|H]; [lia|exact H|lia]. Qed.
Example C172_meets : exists a s', automatic (IZR (-100)) stable_argsort AJ0 AH0 (fresh ex_obj) ex_X = Ok (a, s') /\ current s' /\
  maps 2 2 ex_func /\ regular (IZR (-100)) (map (func ex_obj) ex_X) (oref ex_obj).
Proof.
  destruct (C172_true_derivatives (IZR (-100)) stable_argsort AJ0 AH0 (fresh ex_obj) ex_X stable_argsort_ok (AJ0_ok _ _) (AH0_ok _ _)) as (a & s' & E & _ & Hc & _).
  - intros x _. reflexivity.
  - intros x [<-|[<-|[]]]; reflexivity.
  - reflexivity.
  - exact ex_regular10.
  - split; left; reflexivity.
  - exact ex_jac_ok.
  - intros x [<-|[<-|[]]]; apply ex_hess_ok; reflexivity.
  - exists a, s'. split; [exact E|]. split; [exact Hc|]. split; [intros x _; reflexivity|exact ex_regular10].
Qed.

(** two points, reference point (10, 10) in the first call and (10, 20) in the second: the second
    call still returns -5 for a derivative that is -15 *)
Theorem C173_reference_refuted : forall AJ AH, jacobian_ok (IZR (-100)) stable_argsort AJ -> hessian_ok (IZR (-100)) stable_argsort AH ->
  exists s X r a s' a' s'' Z b, a_jac s = None /\ a_hes s = None /\
    automatic (IZR (-100)) stable_argsort AJ AH s X = Ok (a, s') /\
    automatic (IZR (-100)) stable_argsort AJ AH (set_ref r s') X = Ok (a', s'') /\
    analytic (IZR (-100)) stable_argsort (a_obj (set_ref r s')) X = Ok (Z, b) /\
    d_Y a' 0%nat = -5 /\ d_Y b 0%nat = -15.
Proof.
  intros AJ AH HJ HH.
  destruct (C172_agree (IZR (-100)) stable_argsort AJ AH (fresh ex_obj) ex_X stable_argsort_ok HJ HH) as (a & s' & Z & b & E & Eb & _ & Hy & _).
  - intros x _. reflexivity.
  - intros x [<-|[<-|[]]]; reflexivity.
  - reflexivity.
  - exact ex_regular10.
  - split; left; reflexivity.
  - left. simpl. lia.
  - assert (Hs : exists H, s' = mkAd ex_obj (Some (oref ex_obj)) (Some (oref ex_obj)) /\ AJ (HVY (IZR (-100)) stable_argsort 2 (oref ex_obj)) (concat (map (func ex_obj) ex_X)) = Ok (d_Y a)
       /\ AH (HVY (IZR (-100)) stable_argsort 2 (oref ex_obj)) (concat (map (func ex_obj) ex_X)) = Ok H).
    { unfold automatic in E. cbn [fresh a_obj a_jac a_hes] in E. change (n_obj ex_obj) with 2%nat in E. destruct (AJ _ _) as [g|]; cbn [bind] in E; [|discriminate].
      destruct (AH _ _) as [H|]; cbn [bind] in E; [|discriminate]. injection E as <- <-. exists H. split; [reflexivity|]. split; reflexivity. }
    destruct Hs as (H & -> & E1 & E2).
    assert (Eg : exists g, compute_HVdY (IZR (-100)) stable_argsort 2 ex_Y (map IZR [10; 10]%Z) = Ok g /\ coord g 0 0 = -5).
    { eexists. split; [apply compute_HVdY_run; vm_compute; reflexivity|]. rewrite coord_IZR. reflexivity. }
    assert (Eg' : exists g, compute_HVdY (IZR (-100)) stable_argsort 2 ex_Y (map IZR [10; 20]%Z) = Ok g /\ coord g 0 0 = -15).
    { eexists. split; [apply compute_HVdY_run; vm_compute; reflexivity|]. rewrite coord_IZR. reflexivity. }
    assert (EH' : exists h, compute_HVdY2 (IZR (-100)) stable_argsort 2 ex_Y (map IZR [10; 20]%Z) = Ok h).
    { eexists. apply compute_HVdY2_run. vm_compute. reflexivity. }
    destruct Eg as (g & Eg & Vg). destruct Eg' as (g' & Eg' & Vg'). destruct EH' as (h & EH').
    assert (Vb : d_Y b 0%nat = -5).
    { unfold analytic in Eb. cbn [fresh a_obj] in Eb. rewrite ex_Y_eq in Eb. change (n_obj ex_obj) with 2%nat in Eb. change (oref ex_obj) with (map IZR [10; 10]%Z) in Eb.
      rewrite Eg in Eb. cbn [bind] in Eb. destruct (compute_HVdY2 _ _ _ _ _) as [h'|]; cbn [bind] in Eb; [|discriminate]. injection Eb as <- <-. exact Vg. }
    eexists (fresh ex_obj), ex_X, (map IZR [10; 20]%Z), a, _, (dictionary ex_obj ex_X (d_Y a) H), _, _, _. split; [reflexivity|]. split; [reflexivity|]. split; [exact E|].
    split; [unfold automatic, set_ref; cbn [a_obj a_jac a_hes n_obj]; change (n_obj ex_obj) with 2%nat;
      change (func (mkObj (n_var ex_obj) 2 (map IZR [10; 20]%Z) (o_func ex_obj) (o_jac ex_obj) (o_hess ex_obj) (minimization ex_obj))) with (func ex_obj);
      rewrite E1; cbn [bind]; rewrite E2; cbn [bind]; reflexivity|].
    split; [unfold analytic, set_ref; cbn [a_obj n_obj]; change (n_obj ex_obj) with 2%nat;
      change (func (mkObj (n_var ex_obj) 2 (map IZR [10; 20]%Z) (o_func ex_obj) (o_jac ex_obj) (o_hess ex_obj) (minimization ex_obj))) with (func ex_obj);
      rewrite ex_Y_eq; change (oref (mkObj _ _ _ _ _ _ _)) with (map IZR [10; 20]%Z); rewrite Eg'; cbn [bind]; rewrite EH'; cbn [bind]; reflexivity|].
    split; [|exact Vg'].
    change (d_Y (dictionary ex_obj ex_X (d_Y a) H) 0%nat) with (d_Y a 0%nat). rewrite Hy by (simpl; lia). exact Vb.
Qed.
Print Assumptions C173_reference_refuted.
