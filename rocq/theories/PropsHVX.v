(** Property theorems: derivatives in decision space (C10, C11, C58, C59). *)
From Coq Require Import List Arith Lia ZArith Reals Lra.
From Coquelicot Require Import Coquelicot.
From Verif Require Import Num Exn ListAux NDSSpec HVModel HVSpec HVHom HVDModel HVDSpec HVXModel HVXSpec HVXProof HVXTop HVDEval.
Import ListNotations.
Open Scope R_scope.

(** an object with two variables and two objectives used in the examples *)
Definition ex_func (x : vec) : vec := [nth 0 x 0 * nth 1 x 0; (nth 0 x 0 - 3) * (nth 0 x 0 - 3) + nth 1 x 0].
Definition ex_jac (x : vec) : mat := fun k v =>
  match k, v with O, O => nth 1 x 0 | O, _ => nth 0 x 0 | _, O => 2 * (nth 0 x 0 - 3) | _, _ => 1 end.
Definition ex_hess (x : vec) (k : nat) : mat := fun v w =>
  match k, v, w with O, O, S _ => 1 | O, S _, O => 1 | S _, O, O => 2 | _, _, _ => 0 end.
Definition ex_obj : hvobj := mkObj 2 2 (map IZR [10; 10]%Z) ex_func ex_jac ex_hess true.
Definition ex_X : list vec := map (map IZR) [[1; 1]; [3; 1]]%Z.
Definition ex_Y : list vec := map (map IZR) [[1; 5]; [3; 1]]%Z.
Lemma ex_Y_eq : map (func ex_obj) ex_X = ex_Y.
Proof. unfold func, ex_X, ex_Y. cbn. unfold ex_func. cbn. repeat f_equal; lra. Qed.
Lemma ex_jac_ok x : length x = 2%nat -> jac_at 2 2 ex_func (ex_jac x) x.
Proof.
  destruct x as [|a [|b [|]]]; try discriminate. intros _ k v Hk Hv.
  destruct k as [|[|]], v as [|[|]]; try lia; unfold ex_func, ex_jac; cbn; auto_derive; auto; ring.
Qed.
Lemma ex_hess_ok x : length x = 2%nat -> hess_at 2 2 ex_jac (ex_hess x) x.
Proof.
  destruct x as [|a [|b [|]]]; try discriminate. intros _ k v w Hk Hv Hw. split.
  - destruct k as [|[|]], v as [|[|]], w as [|[|]]; try lia; unfold ex_jac, ex_hess; cbn; auto_derive; auto; ring.
  - destruct k as [|[|]], v as [|[|]], w as [|[|]]; try lia; reflexivity.
Qed.

(** * C10 *)
Theorem C10_chain_rule : forall minf argsort o X Y YdX dX g,
  compute_gradient minf argsort o X Y YdX = Ok (dX, g) ->
  compute_HVdY minf argsort (n_obj o) (obj_points o X Y) (oref o) = Ok g /\
  forall i v, (i < length X)%nat -> (v < n_var o)%nat ->
    dX (i * n_var o + v)%nat = sumn (n_obj o) (fun k => coord g i k * obj_jac o X YdX i k v).
Proof. exact gradient_chain. Qed.
Print Assumptions C10_chain_rule.

(** row [i] does not depend on the Jacobian of any other point *)
Theorem C10_no_other_jacobian : forall minf argsort o X Y J J' dX dX' g g' i v,
  compute_gradient minf argsort o X Y (Some J) = Ok (dX, g) ->
  compute_gradient minf argsort o X Y (Some J') = Ok (dX', g') ->
  (i < length X)%nat -> (v < n_var o)%nat -> (forall k, (k < n_obj o)%nat -> J i k v = J' i k v) ->
  dX (i * n_var o + v)%nat = dX' (i * n_var o + v)%nat.
Proof.
  intros minf argsort o X Y J J' dX dX' g g' i v E E' Hi Hv HJ.
  destruct (gradient_chain _ _ _ _ _ _ _ _ E) as [H1 H2], (gradient_chain _ _ _ _ _ _ _ _ E') as [H3 H4].
  rewrite H1 in H3. injection H3 as <-. rewrite H2, H4 by auto. apply sumn_ext. intros k Hk. simpl. rewrite HJ; auto.
Qed.
Print Assumptions C10_no_other_jacobian.

Theorem C10_hessian_symmetric : forall minf argsort o X Y YdX dX dX2,
  compute_hessian minf argsort o X Y YdX = Ok (dX, dX2) -> forall a b, dX2 a b = dX2 b a.
Proof. exact hessian_symmetric. Qed.
Print Assumptions C10_hessian_symmetric.

(** * C58: the gradient returned in decision space is the gradient of the hypervolume of
    the image, for every smooth objective function and any number of objectives *)
Theorem C58_true_gradient : forall minf argsort o X,
  argsort_ok argsort -> (2 <= n_obj o)%nat -> length (o_ref o) = n_obj o ->
  maps (n_var o) (n_obj o) (o_func o) -> X <> [] -> (forall x, In x X -> length x = n_var o) ->
  general_position (map (func o) X) (oref o) -> inside (map (func o) X) (oref o) -> above_all minf (map (func o) X) (oref o) ->
  (forall x, In x X -> jac_at (n_var o) (n_obj o) (o_func o) (o_jac o x) x) ->
  exists dX g, compute_gradient minf argsort o X None None = Ok (dX, g) /\
  forall i v, (i < length X)%nat -> (v < n_var o)%nat ->
    is_partial_X (func o) (oref o) X i v (dX (i * n_var o + v)%nat).
Proof. intros minf argsort o X Ha H2 Hl Hm Hne HX. exact (true_gradient minf argsort Ha o H2 Hl Hm X Hne HX). Qed.
Print Assumptions C58_true_gradient.

(** * C59: the same for the Hessian matrix, two to five objectives, and six if the sort of
    the hypervolume code is stable.  Missing: more objectives (false for eight, see
    C09_hessian_refuted). *)
Theorem C59_true_hessian_partial : forall minf argsort o X,
  argsort_ok argsort -> (2 <= n_obj o <= 5)%nat \/ (n_obj o = 6%nat /\ argsort_stable argsort) -> length (o_ref o) = n_obj o ->
  maps (n_var o) (n_obj o) (o_func o) -> X <> [] -> (forall x, In x X -> length x = n_var o) ->
  general_position (map (func o) X) (oref o) -> inside (map (func o) X) (oref o) -> above_all minf (map (func o) X) (oref o) ->
  (forall x, length x = n_var o -> jac_at (n_var o) (n_obj o) (o_func o) (o_jac o x) x) ->
  (forall x, In x X -> hess_at (n_var o) (n_obj o) (o_jac o) (o_hess o x) x) ->
  exists dX dX2, compute_hessian minf argsort o X None None = Ok (dX, dX2) /\
  forall i v j w, (i < length X)%nat -> (v < n_var o)%nat -> (j < length X)%nat -> (w < n_var o)%nat ->
    is_partial_X (func o) (oref o) X i v (dX (i * n_var o + v)%nat) /\
    is_second_X (func o) (oref o) X i v j w (dX2 (i * n_var o + v)%nat (j * n_var o + w)%nat).
Proof.
  intros minf argsort o X Ha Hmo Hl Hm Hne HX HG Hin Hab HJ HH.
  assert (H2 : (2 <= n_obj o)%nat) by (destruct Hmo as [|[]]; lia).
  assert (H5 : (n_obj o <= 5)%nat \/ (n_obj o = 6%nat /\ argsort_stable argsort)) by (destruct Hmo as [|]; [left; lia|auto]).
  exact (true_hessian minf argsort Ha o H2 Hl Hm X Hne HX HG Hin Hab H5 HJ HH).
Qed.
Print Assumptions C59_true_hessian_partial.

(** the hypotheses of C10, C58 and C59 hold for a smooth non-linear problem *)
Example C59_nonvacuous : exists dX dX2,
  compute_hessian (IZR (-100)) stable_argsort ex_obj ex_X None None = Ok (dX, dX2) /\
  (forall i v j w, (i < 2)%nat -> (v < 2)%nat -> (j < 2)%nat -> (w < 2)%nat ->
    is_partial_X (func ex_obj) (oref ex_obj) ex_X i v (dX (i * 2 + v)%nat) /\
    is_second_X (func ex_obj) (oref ex_obj) ex_X i v j w (dX2 (i * 2 + v)%nat (j * 2 + w)%nat)).
Proof.
  apply (C59_true_hessian_partial (IZR (-100)) stable_argsort ex_obj ex_X); auto; try (simpl; lia).
  - exact stable_argsort_ok.
  - intros x _. reflexivity.
  - discriminate.
  - intros x [<-|[<-|[]]]; reflexivity.
  - rewrite ex_Y_eq. apply gp_dec. reflexivity.
  - rewrite ex_Y_eq. apply inside_dec. reflexivity.
  - rewrite ex_Y_eq. apply above_all_dec. reflexivity.
  - exact ex_jac_ok.
  - intros x [<-|[<-|[]]]; apply ex_hess_ok; reflexivity.
Qed.
Example C58_nonvacuous : exists dX g, compute_gradient (IZR (-100)) stable_argsort ex_obj ex_X None None = Ok (dX, g).
Proof.
  destruct (C58_true_gradient (IZR (-100)) stable_argsort ex_obj ex_X) as (dX & g & E & _); eauto; try (simpl; lia).
  - exact stable_argsort_ok.
  - intros x _. reflexivity.
  - discriminate.
  - intros x [<-|[<-|[]]]; reflexivity.
  - rewrite ex_Y_eq. apply gp_dec. reflexivity.
  - rewrite ex_Y_eq. apply inside_dec. reflexivity.
  - rewrite ex_Y_eq. apply above_all_dec. reflexivity.
  - intros x [<-|[<-|[]]]; apply ex_jac_ok; reflexivity.
Qed.
Example C10_nonvacuous : exists dX dX2, compute_hessian (IZR (-100)) stable_argsort ex_obj ex_X None None = Ok (dX, dX2).
Proof. destruct C59_nonvacuous as (dX & dX2 & E & _). eauto. Qed.

(** * C11 *)

(** minimisation: both ways of calling [compute] agree.  Missing: maximisation, where
    the claim is false (below). *)
Theorem C11_consistent_partial : forall minf argsort o X, minimization o = true ->
  compute minf argsort o (Some X) None = compute minf argsort o None (Some (map (o_func o) X)).
Proof. intros minf argsort o X Hm. unfold compute, func. rewrite Hm. reflexivity. Qed.
Print Assumptions C11_consistent_partial.
Example C11_nonvacuous : exists o X v, minimization o = true /\ X <> [] /\
  compute (IZR (-100)) stable_argsort o (Some X) None = Ok v /\ v = 73.
Proof.
  exists ex_obj, ex_X, 73. split; [reflexivity|]. split; [discriminate|]. split; [|reflexivity].
  unfold compute. rewrite ex_Y_eq. change (oref ex_obj) with (map IZR [10; 10]%Z). unfold ex_Y.
  rewrite hypervolume_run. vm_compute hypervolume. reflexivity.
Qed.

(** one point, two objectives to be maximised: the value is 1 from X and 0 from Y *)
Theorem C11_consistent_refuted : exists minf argsort o X, argsort_ok argsort /\ minimization o = false /\
  compute minf argsort o (Some X) None = Ok 1 /\
  compute minf argsort o None (Some (map (o_func o) X)) = Ok 0.
Proof.
  exists (IZR (-100)), stable_argsort,
    (mkObj 2 2 (map IZR [0; 0]%Z) (fun x => x) (fun _ k v => if Nat.eqb k v then 1 else 0) (fun _ _ _ _ => 0) false),
    (map (map IZR) [[1; 1]]%Z).
  split; [exact stable_argsort_ok|]. split; [reflexivity|].
  assert (Er : forall z : Z, -1 * IZR z = IZR (- z)) by (intros; rewrite opp_IZR; ring).
  assert (Ev : forall l : list Z, vneg (map IZR l) = map IZR (map Z.opp l)).
  { intros l. unfold vneg. rewrite !map_map. apply map_ext. auto. }
  split.
  - match goal with |- ?l = _ => change l with (hypervolume (IZR (-100)) stable_argsort [vneg (map IZR [1; 1]%Z)] (vneg (map IZR [0; 0]%Z))) end.
    rewrite !Ev. change [map IZR (map Z.opp [1; 1]%Z)] with (map (map IZR) [[-1; -1]]%Z).
    rewrite hypervolume_run. vm_compute hypervolume. reflexivity.
  - match goal with |- ?l = _ => change l with (hypervolume (IZR (-100)) stable_argsort (map (map IZR) [[1; 1]]%Z) (vneg (map IZR [0; 0]%Z))) end.
    rewrite !Ev. rewrite hypervolume_run. vm_compute hypervolume. reflexivity.
Qed.
Print Assumptions C11_consistent_refuted.
