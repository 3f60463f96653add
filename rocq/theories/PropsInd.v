(** Property theorems: generational and inverted generational distance. *)
From Coq Require Import List Arith Bool Reals Lia Lra Permutation.
From Coquelicot Require Import Coquelicot.
From Verif Require Import Num Exn ListAux HVDSpec HVDProof NewtonModel NewtonProof HVXModel HVXSpec
  RefModel RefProof RefSpec RefTop IndSpec IndModel IndProof IndGD IndIGD IndTop.
Import ListNotations.
Open Scope R_scope.

(** the indicators of the specification *)
Definition GDp (p : R) (ref : list (list R)) : list (list R) -> R -> Prop := fun Y v => mean_dist p Y ref v.
Definition IGDp (p : R) (ref : list (list R)) : list (list R) -> R -> Prop := fun Y v => mean_dist p ref Y v.

(** * A concrete objective function for the examples: f(a, b) = (a^2, b) *)
Definition ex_f (x : list R) : list R := [nth 0 x 0 * nth 0 x 0; nth 1 x 0].
Definition ex_J (x : list R) (a k : nat) : R := match a, k with 0%nat, 0%nat => 2 * nth 0 x 0 | 1%nat, 1%nat => 1 | _, _ => 0 end.
Definition ex_H (x : list R) (a k l : nat) : R := match a, k, l with 0%nat, 0%nat, 0%nat => 2 | _, _, _ => 0 end.
Definition ex_o (ref : list (list R)) (p : R) : ind := mk_ind ref ex_f ex_J ex_H p.
Lemma ex_smooth ref p : smooth (ex_o ref p) 2 2.
Proof.
  split.
  - intros x _. reflexivity.
  - intros x Hx k v Hk Hv. destruct x as [|a [|b [|]]]; simpl in Hx; try lia.
    destruct k as [|[|k]]; [| |lia]; (destruct v as [|[|v]]; [| |lia]); simpl; auto_derive; auto; ring.
  - intros x Hx k v w Hk Hv Hw. destruct x as [|a [|b [|]]]; simpl in Hx; try lia.
    destruct k as [|[|k]]; [| |lia]; (destruct v as [|[|v]]; [| |lia]); (destruct w as [|[|w]]; [| |lia]); simpl; (split; [auto_derive; auto; ring|auto]).
Qed.
Definition ex_X : list (list R) := [[2; 3]; [0; 1]].
Definition ex_ref : list (list R) := [[4; 0]; [0; 0]].
Ltac rows_tac := let a := fresh in let b := fresh in intros a b; simpl in b; repeat (destruct b as [<-|b]; [reflexivity|]); destruct b.
Lemma ex_near0 : nearest (ex_f [2; 3]) ex_ref [4; 0].
Proof.
  split; [simpl; auto|]. intros r' [<-|[<-|[]]]; [auto|right]. apply edist_lt. simpl. lra.
Qed.
Lemma ex_pos0 : 0 < edist (ex_f [2; 3]) [4; 0].
Proof. apply edist_pos. simpl. lra. Qed.

(** * C39 *)
(** [compute] returns the [p]-th root of the mean of the [p]-th powers of the distances *)
Theorem C39_gd_value : forall o Y m, 0 < i_p o -> Y <> [] -> i_ref o <> [] -> rows m Y -> rows m (i_ref o) ->
  exists v, gd_compute o None (Some Y) = Ok (Fin v) /\ 0 <= v /\ GDp (i_p o) (i_ref o) Y (pw v (i_p o)).
Proof. exact gd_value. Qed.
Print Assumptions C39_gd_value.

(** the gradient returned is that of GD^p *)
Theorem C39_gd_gradient : forall o n m X Y J hes i k r, smooth o n m -> rows m (i_ref o) -> rows n X ->
  agree o X Y J -> 0 < i_p o -> (i < length X)%nat -> (k < n)%nat ->
  nearest (i_func o (nth i X [])) (i_ref o) r -> 0 < edist (i_func o (nth i X [])) r \/ 2 <= i_p o ->
  exists G H g, gd_derivatives o X Y J hes = Ok (G, H) /\ nth_error (nth i G []) k = Some (Fin g) /\
    is_partial_I (GDp (i_p o) (i_ref o)) (i_func o) X i k g.
Proof.
  intros o n m X Y J hes i k r Hs HR HX Hag Hp Hi Hk Hn Hc.
  assert (HR0 : i_ref o <> []) by (destruct Hn as [Hn _]; intros E; rewrite E in Hn; destruct Hn).
  assert (HX0 : X <> []) by (destruct X; simpl in *; [lia|congruence]).
  destruct (gd_deriv_value o n m Hs HR0 HR X HX0 HX Y J hes Hag) as (G & H & E & L1 & L2 & L3 & E1 & _).
  destruct (gd_partial n m (i_func o) (i_jac o) (sm_maps o n m Hs) (sm_jac o n m Hs) (i_ref o) (i_p o) HR0 HR Hp X i k r HX Hi Hk Hn Hc) as (q & Hq & HP).
  exists G, (if hes then Some H else None). eexists. split; [exact E|]. split; [|exact HP].
  specialize (E1 i k Hi Hk). rewrite (nth_error_nth' _ NaN) by (rewrite L3; auto). rewrite E1.
  assert (Enear : near o X i = r) by (unfold near, amin; apply nearest_argmin; auto). unfold dst. rewrite Enear, Hq. reflexivity.
Qed.
Print Assumptions C39_gd_gradient.
Example C39_case : smooth (ex_o ex_ref 3) 2 2 /\ rows 2 ex_ref /\ rows 2 ex_X /\ agree (ex_o ex_ref 3) ex_X None None /\
  nearest (ex_f (nth 0 ex_X [])) ex_ref [4; 0] /\ 0 < edist (ex_f (nth 0 ex_X [])) [4; 0].
Proof.
  split; [apply ex_smooth|]. split; [rows_tac|]. split; [rows_tac|]. split; [split; auto|]. split; [apply ex_near0|apply ex_pos0].
Qed.

(** * C40 *)
(** for p = 2 the Hessian blocks are the second derivatives (also at distance zero) and mixed
    second derivatives in two different points vanish *)
Theorem C40_gd_hessian_partial : forall o n m X Y J i k l r, smooth o n m -> rows m (i_ref o) -> rows n X ->
  agree o X Y J -> i_p o = 2 -> (i < length X)%nat -> (k < n)%nat -> (l < n)%nat ->
  nearest (i_func o (nth i X [])) (i_ref o) r ->
  exists G H c, gd_derivatives o X Y J true = Ok (G, Some H) /\ nth l (nth k (nth i H []) []) NaN = Fin c /\
    is_second_I (GDp 2 (i_ref o)) (i_func o) X i k i l c /\
    forall j l', (j < length X)%nat -> i <> j -> is_second_I (GDp 2 (i_ref o)) (i_func o) X i k j l' 0.
Proof.
  intros o n m X Y J i k l r Hs HR HX Hag Hp Hi Hk Hl Hn.
  assert (HR0 : i_ref o <> []) by (destruct Hn as [Hn _]; intros E; rewrite E in Hn; destruct Hn).
  assert (HX0 : X <> []) by (destruct X; simpl in *; [lia|congruence]).
  destruct (gd_deriv_value o n m Hs HR0 HR X HX0 HX Y J true Hag) as (G & H & E & L1 & L2 & L3 & _ & E1).
  exists G, H. eexists. split; [exact E|]. specialize (E1 i k l Hi Hk Hl).
  assert (Enear : near o X i = r) by (unfold near, amin; apply nearest_argmin; auto). rewrite Enear in E1.
  assert (Eq : reqb (i_p o) 2 = true) by (unfold reqb; destruct (Req_EM_T (i_p o) 2); congruence). rewrite Eq in E1.
  split; [rewrite E1; cbn [fadd]; rewrite Rplus_0_l; reflexivity|]. rewrite Hp. split.
  - apply (gd_second_2 n m (i_func o) (i_jac o) (sm_maps o n m Hs) (sm_jac o n m Hs) (i_ref o) 2 HR0 HR ltac:(lra) (i_hess o) (sm_hess o n m Hs)); auto.
  - intros j l' Hj Hij. apply (gd_second_off n m (i_func o) (i_jac o) (sm_maps o n m Hs) (sm_jac o n m Hs) (i_ref o) 2 HR0 HR ltac:(lra) X i k j l' r); auto. right; lra.
Qed.
Print Assumptions C40_gd_hessian_partial.

(** for every other exponent: the second derivative of GD^p, and what is returned; they differ
    by the factor |d|^(p-2) of the last term *)
Theorem C40_gd_hessian_general : forall o n m X Y J i k l r, smooth o n m -> rows m (i_ref o) -> rows n X ->
  agree o X Y J -> 0 < i_p o -> (i < length X)%nat -> (k < n)%nat -> (l < n)%nat ->
  nearest (i_func o (nth i X [])) (i_ref o) r -> 0 < edist (i_func o (nth i X [])) r ->
  exists G H a b, gd_derivatives o X Y J true = Ok (G, Some H) /\
    nth l (nth k (nth i H []) []) NaN = Fin (a + b) /\
    is_second_I (GDp (i_p o) (i_ref o)) (i_func o) X i k i l (a + Rpower (edist (i_func o (nth i X [])) r) (i_p o - 2) * b).
Proof.
  intros o n m X Y J i k l r Hs HR HX Hag Hp Hi Hk Hl Hn Hpos.
  assert (HR0 : i_ref o <> []) by (destruct Hn as [Hn _]; intros E; rewrite E in Hn; destruct Hn).
  assert (HX0 : X <> []) by (destruct X; simpl in *; [lia|congruence]).
  destruct (gd_deriv_value o n m Hs HR0 HR X HX0 HX Y J true Hag) as (G & H & E & L1 & L2 & L3 & _ & E1).
  specialize (E1 i k l Hi Hk Hl). assert (Enear : near o X i = r) by (unfold near, amin; apply nearest_argmin; auto).
  unfold dst in E1. rewrite Enear in E1. set (d := edist (i_func o (nth i X [])) r) in *.
  pose proof (gd_second n m (i_func o) (i_jac o) (sm_maps o n m Hs) (sm_jac o n m Hs) (i_ref o) (i_p o) HR0 HR Hp (i_hess o) (sm_hess o n m Hs) X i k l r HX Hi Hk Hl Hn Hpos) as HS.
  fold d in HS.
  exists G, H, (i_p o / INR (length X) * ((i_p o - 2) * Rpower d (i_p o - 4) * ip m (i_func o) (i_jac o) (nth i X []) r k * ip m (i_func o) (i_jac o) (nth i X []) r l)),
    (i_p o / INR (length X) * curv m (i_func o) (i_jac o) (i_hess o) (nth i X []) r k l).
  split; [exact E|]. assert (HN : INR (length X) <> 0) by (apply not_0_INR; lia). split.
  - rewrite E1. unfold npow, reqb. destruct (Req_EM_T (i_p o) 2) as [E2|_].
    + cbn [fadd]. f_equal. f_equal. rewrite E2. replace (2 - 2) with 0 by ring. ring.
    + destruct (Req_EM_T d 0); [lra|]. cbn [fmul fadd]. f_equal. f_equal. field. auto.
  - match type of HS with is_second_I _ _ _ _ _ _ _ ?v => match goal with |- is_second_I _ _ _ _ _ _ _ ?w => replace w with v; [exact HS|ring] end end.
Qed.
Print Assumptions C40_gd_hessian_general.
Example C40_case : agree (ex_o ex_ref 2) ex_X None None /\ nearest (ex_f (nth 0 ex_X [])) ex_ref [4; 0] /\ 0 < edist (ex_f (nth 0 ex_X [])) [4; 0].
Proof. split; [split; auto|]. split; [apply ex_near0|apply ex_pos0]. Qed.

(** the claim for every p is false: GD^4 of one point on the line *)
Definition ln_o (ref : list (list R)) (p : R) : ind := mk_ind ref (fun x => [nth 0 x 0]) (fun _ _ _ => 1) (fun _ _ _ _ => 0) p.
Lemma ln_smooth ref p : smooth (ln_o ref p) 1 1.
Proof.
  split.
  - intros x _. reflexivity.
  - intros x Hx k v Hk Hv. destruct x as [|a [|]]; simpl in Hx; try lia.
    destruct k; [|lia]; destruct v; [|lia]; simpl. auto_derive; auto.
  - intros x Hx k v w Hk Hv Hw. simpl. split; auto. apply @is_derive_const.
Qed.
Theorem C40_gd_hessian_refuted : exists o n m X r i k l G H a b, smooth o n m /\ rows m (i_ref o) /\ rows n X /\ 0 < i_p o /\
  (i < length X)%nat /\ (k < n)%nat /\ (l < n)%nat /\
  nearest (i_func o (nth i X [])) (i_ref o) r /\ 0 < edist (i_func o (nth i X [])) r /\
  gd_derivatives o X None None true = Ok (G, Some H) /\ nth l (nth k (nth i H []) []) NaN = Fin a /\
  is_second_I (GDp (i_p o) (i_ref o)) (i_func o) X i k i l b /\ a <> b.
Proof.
  assert (Hn : nearest (i_func (ln_o [[0]] 4) (nth 0 [[2]] [])) (i_ref (ln_o [[0]] 4)) [0]) by (split; [simpl; auto|intros r' [<-|[]]; auto]).
  assert (Hs : sqd [2] [0] = 2 * 2) by (simpl; ring).
  assert (Hpos : 0 < edist (i_func (ln_o [[0]] 4) (nth 0 [[2]] [])) [0]) by (apply edist_pos; simpl; lra).
  assert (Hd : edist (i_func (ln_o [[0]] 4) (nth 0 [[2]] [])) [0] = 2) by (unfold edist; simpl i_func; simpl nth; rewrite Hs; apply sqrt_square; lra).
  assert (Hr : rows 1 (i_ref (ln_o [[0]] 4))) by rows_tac.
  assert (HX : rows 1 [[2]]) by rows_tac.
  destruct (C40_gd_hessian_general (ln_o [[0]] 4) 1 1 [[2]] None None 0 0 0 [0] (ln_smooth _ _) Hr HX) as (G & H & a & b & E1 & E2 & E3); simpl; auto; try lra; try (split; auto).
  destruct (gd_deriv_value (ln_o [[0]] 4) 1 1 (ln_smooth _ _) ltac:(simpl; congruence) Hr [[2]] ltac:(congruence) HX None None true ltac:(split; auto)) as (G' & H' & E & _ & _ & _ & _ & E4).
  rewrite E in E1. injection E1 as <- <-. specialize (E4 0%nat 0%nat 0%nat ltac:(simpl; lia) ltac:(lia) ltac:(lia)).
  rewrite E2 in E4.
  assert (En : near (ln_o [[0]] 4) [[2]] 0 = [0]) by (unfold near, amin; apply nearest_argmin; auto).
  unfold dst in E4. rewrite En, Hd in E4. change (i_p (ln_o [[0]] 4)) with 4 in *. rewrite Hd in E3.
  unfold npow, reqb in E4. destruct (Req_EM_T 4 2); [lra|]. destruct (Req_EM_T 2 0); [lra|]. cbn [fadd fmul] in E4.
  replace (4 - 4) with 0 in E4 by ring. rewrite Rpower_O in E4 by lra. unfold ip, curv in E4. simpl in E4. injection E4 as E4.
  assert (Ep : Rpower 2 (4 - 2) = 4). { replace (4 - 2) with (INR 2) by (simpl; ring). rewrite Rpower_pow by lra. simpl. ring. }
  rewrite Ep in E3.
  (* the value returned is 36, the second derivative 48 *)
  destruct (Req_dec (a + b) (a + 4 * b)) as [Eb|Hne].
  - exfalso. assert (Hb : b = 0) by lra. subst b. assert (Ha : a = 36) by lra.
    pose proof (gd_second 1 1 (i_func (ln_o [[0]] 4)) (i_jac (ln_o [[0]] 4)) (sm_maps _ _ _ (ln_smooth [[0]] 4)) (sm_jac _ _ _ (ln_smooth [[0]] 4)) [[0]] 4 ltac:(congruence) Hr ltac:(lra)
      (i_hess (ln_o [[0]] 4)) (sm_hess _ _ _ (ln_smooth [[0]] 4)) [[2]] 0 0 0 [0] HX ltac:(simpl; lia) ltac:(lia) ltac:(lia) Hn Hpos) as HS.
    rewrite Hd in HS. rewrite Ep in HS. replace (4 - 4) with 0 in HS by ring. rewrite Rpower_O in HS by lra.
    unfold ip, curv in HS. simpl in HS.
    (* second derivatives are unique *)
    assert (HN : locally (coord [[2]] 0 0) (fun t => (0 < edist (i_func (ln_o [[0]] 4) (nth 0 [[2]] [])) [0] -> 0 < edist (i_func (ln_o [[0]] 4) (set_at 0 t (nth 0 [[2]] []))) [0]) /\
       exists q, npow (edist (i_func (ln_o [[0]] 4) (set_at 0 t (nth 0 [[2]] []))) [0]) (4 - 2) = Fin q /\
       is_partial_I (I_gd [[0]] 4) (i_func (ln_o [[0]] 4)) (set_coord [[2]] 0 0 t) 0 0 (4 / INR 1 * q * ip 1 (i_func (ln_o [[0]] 4)) (i_jac (ln_o [[0]] 4)) (set_at 0 t (nth 0 [[2]] [])) [0] 0))).
    { apply (gd_partial_near 1 1 (i_func (ln_o [[0]] 4)) (i_jac (ln_o [[0]] 4)) (sm_maps _ _ _ (ln_smooth [[0]] 4)) (sm_jac _ _ _ (ln_smooth [[0]] 4)) [[0]] 4 ltac:(congruence) Hr ltac:(lra) [[2]] 0 0 0 [0]); simpl; auto. }
    set (D := fun t : R => 4 / INR 1 * (match npow (edist (i_func (ln_o [[0]] 4) (set_at 0 t (nth 0 [[2]] []))) [0]) (4 - 2) with Fin q => q | _ => 0 end)
       * ip 1 (i_func (ln_o [[0]] 4)) (i_jac (ln_o [[0]] 4)) (set_at 0 t (nth 0 [[2]] [])) [0] 0).
    assert (HD : locally (coord [[2]] 0 0) (fun t => is_partial_I (I_gd [[0]] 4) (i_func (ln_o [[0]] 4)) (set_coord [[2]] 0 0 t) 0 0 (D t))).
    { assert (G0 : forall t q : R, npow (edist (i_func (ln_o [[0]] 4) (set_at 0 t (nth 0 [[2]] []))) [0]) (4 - 2) = Fin q ->
        4 / INR 1 * q * ip 1 (i_func (ln_o [[0]] 4)) (i_jac (ln_o [[0]] 4)) (set_at 0 t (nth 0 [[2]] [])) [0] 0 = D t) by (intros t q Hq; unfold D; rewrite Hq; auto).
      revert HN. apply filter_imp. intros t [_ (q & Hq & HP)]. exact (eq_ind _ (fun v => is_partial_I (I_gd [[0]] 4) (i_func (ln_o [[0]] 4)) (set_coord [[2]] 0 0 t) 0 0 v) HP _ (G0 t q Hq)). }
    pose proof (is_derive_unique _ _ _ (HS D HD)) as U1. pose proof (is_derive_unique _ _ _ (E3 D HD)) as U2. lra.
  - exists (ln_o [[0]] 4), 1%nat, 1%nat, [[2]], [0], 0%nat, 0%nat, 0%nat, G', H', (a + b), (a + 4 * b).
    split; [apply ln_smooth|]. split; auto. split; auto. simpl i_p. split; [lra|]. split; [simpl; lia|]. split; [lia|]. split; [lia|]. split; auto. 
Qed.
Print Assumptions C40_gd_hessian_refuted.

(** * C41 *)
Theorem C41_igd_value : forall o Y m, 0 < i_p o -> Y <> [] -> i_ref o <> [] -> i_M o = length (i_ref o) -> rows m Y -> rows m (i_ref o) ->
  exists v, igd_compute o None (Some Y) = Ok (Fin v) /\ 0 <= v /\ IGDp (i_p o) (i_ref o) Y (pw v (i_p o)).
Proof. exact igd_value. Qed.
Print Assumptions C41_igd_value.

(** without matching: gradient and Hessian are those of IGD^2 (whatever the exponent of the object) *)
Theorem C41_igd_derivatives_partial : forall o n m X Y J i k l, smooth o n m -> i_ref o <> [] -> rows m (i_ref o) -> rows n X ->
  agree o X Y J -> i_M o = length (i_ref o) -> (i < length X)%nat -> (k < n)%nat -> (l < n)%nat ->
  (forall r, In r (i_ref o) -> exists j, nearest_ix r (map (i_func o) X) j) ->
  exists G H, igd_derivatives o None X Y J true = Ok (G, Some H) /\ igd_derivatives o None X Y J false = Ok (G, None) /\
    is_partial_I (IGDp 2 (i_ref o)) (i_func o) X i k (nth k (nth i G []) 0) /\
    is_second_I (IGDp 2 (i_ref o)) (i_func o) X i k i l (nth l (nth k (nth i H []) []) 0) /\
    forall j, (j < length X)%nat -> i <> j -> is_second_I (IGDp 2 (i_ref o)) (i_func o) X i k j l 0.
Proof.
  intros o n m X Y J i k l Hs HR0 HR HX Hag HM Hi Hk Hl HC.
  assert (HX0 : X <> []) by (destruct X; simpl in *; [lia|congruence]).
  destruct (igd_deriv_value o n m Hs HR0 HR X Y J true HX0 HX Hag HM) as (G & H & E & L1 & L2 & E1 & E2).
  exists G, H. split; [exact E|]. split.
  { revert E. unfold igd_derivatives. destruct (i_M o); [discriminate|]. destruct (get_YJ o X Y J) as [Y' J']. destruct (igd_indices o Y') as [[[[D idx] cells] cnt]|]; cbn [bind]; [|discriminate].
    destruct (negb (length Y' =? length X)); [discriminate|]. intros E. injection E as <- <-. reflexivity. }
  rewrite E1, E2 by auto. split; [|split].
  - apply (igd_partial n m (i_func o) (i_jac o) (sm_maps o n m Hs) (sm_jac o n m Hs) (i_ref o) HR0 HR); auto.
  - apply (igd_second n m (i_func o) (i_jac o) (sm_maps o n m Hs) (sm_jac o n m Hs) (i_ref o) HR0 HR (i_hess o) (sm_hess o n m Hs)); auto.
  - intros j Hj Hij. apply (igd_second_off n m (i_func o) (i_jac o) (sm_maps o n m Hs) (sm_jac o n m Hs) (i_ref o) HR0 HR); auto.
Qed.
Print Assumptions C41_igd_derivatives_partial.
Lemma ex_cells : forall r, In r ex_ref -> exists j, nearest_ix r (map ex_f ex_X) j.
Proof.
  intros r [<-|[<-|[]]].
  - exists 0%nat. split; [simpl; lia|]. intros [|[|j]] Hj Hne; simpl in Hj; try lia. apply edist_lt. simpl. lra.
  - exists 1%nat. split; [simpl; lia|]. intros [|[|j]] Hj Hne; simpl in Hj; try lia. apply edist_lt. simpl. lra.
Qed.
Example C41_case : agree (ex_o ex_ref 2) ex_X None None /\ i_M (ex_o ex_ref 2) = length ex_ref /\
  forall r, In r ex_ref -> exists j, nearest_ix r (map ex_f ex_X) j.
Proof. split; [split; auto|]. split; auto. apply ex_cells. Qed.

(** with matching, as long as the matched rows stay the same near the point, the gradient is N
    times the derivative of the value that [compute] returns *)
Theorem C41_igd_matching_partial : forall o n m mt M X Y J hes i k, smooth o n m -> rows n X -> rows m M -> length M = length X ->
  agree o X Y J -> (i < length X)%nat -> (k < n)%nat ->
  locally (coord X i k) (fun t => mt (map (i_func o) (set_coord X i k t)) = Ok M) ->
  exists G H, igd_derivatives o (Some mt) X Y J hes = Ok (G, H) /\
    (exists h, locally (coord X i k) (fun t => igdm_compute o mt (Some (set_coord X i k t)) None = Ok (h t))) /\
    forall h, locally (coord X i k) (fun t => igdm_compute o mt (Some (set_coord X i k t)) None = Ok (h t)) ->
      is_derive h (coord X i k) (nth k (nth i G []) 0 / INR (length X)).
Proof.
  intros o n m mt M X Y J hes i k Hs HX HM HL Hag Hi Hk Hmt.
  assert (HX0 : X <> []) by (destruct X; simpl in *; [lia|congruence]).
  assert (Hmt0 : mt (map (i_func o) X) = Ok M).
  { pose proof (locally_singleton _ _ Hmt) as E. rewrite <- E. f_equal. f_equal. unfold set_coord, coord. rewrite !set_at_same; auto. rewrite (HX _ (nth_In _ _ Hi)). auto. }
  destruct (igdm_deriv_value o n m mt M X Y J hes Hs HX0 HX Hag Hmt0 HL HM) as (G & H & E & L1 & L2 & E1 & _).
  exists G, (if hes then Some H else None). split; [exact E|].
  set (h0 := fun t : R => sumR (zip_with sqd (map (i_func o) (set_coord X i k t)) M) / INR (length (map (i_func o) (set_coord X i k t)))).
  assert (HV : locally (coord X i k) (fun t => igdm_compute o mt (Some (set_coord X i k t)) None = Ok (h0 t))).
  { revert Hmt. apply filter_imp. intros t Ht.
    change (igdm_compute o mt (Some (set_coord X i k t)) None) with (igdm_compute o mt None (Some (map (i_func o) (set_coord X i k t)))).
    apply (igdm_value o mt _ M m); auto.
    - intros E'. apply (f_equal (@length _)) in E'. rewrite map_length in E'. unfold set_coord in E'. rewrite set_at_length in E'. simpl in E'. lia.
    - apply (map_f_rows n m); [apply Hs|]. apply set_coord_rows; auto.
    - rewrite map_length. unfold set_coord. rewrite set_at_length. auto. }
  split; [eexists; exact HV|]. intros h Hh. rewrite E1 by auto.
  replace (2 * _ / INR (length X)) with (2 / INR (length X) * ip m (i_func o) (i_jac o) (nth i X []) (nth i M []) k) by (unfold Rdiv; ring).
  apply (is_derive_ext_loc h0).
  - generalize (filter_and _ _ HV Hh). apply filter_imp. intros t [A B]. rewrite A in B. congruence.
  - apply (match_partial n m (i_func o) (i_jac o) (sm_maps o n m Hs) (sm_jac o n m Hs) M X i k HX HM HL Hi Hk h0). intros t. reflexivity.
Qed.
Print Assumptions C41_igd_matching_partial.
Example C41_matching_case : locally (coord ex_X 0 0) (fun t => (fun _ : list (list R) => Ok ex_ref) (map ex_f (set_coord ex_X 0 0 t)) = Ok ex_ref) /\
  length ex_ref = length ex_X.
Proof. split; auto. apply filter_forall. auto. Qed.

(** the same for the Hessian blocks, with the matched rows [M] held fixed *)
Theorem C41_igd_matching_hessian_partial : forall o n m mt M X Y J i k l, smooth o n m -> rows n X -> rows m M -> length M = length X ->
  agree o X Y J -> (i < length X)%nat -> (k < n)%nat -> (l < n)%nat -> mt (map (i_func o) X) = Ok M ->
  exists G H, igd_derivatives o (Some mt) X Y J true = Ok (G, Some H) /\
    is_second_I (fun Y v => v = sumR (zip_with sqd Y M) / INR (length Y)) (i_func o) X i k i l (nth l (nth k (nth i H []) []) 0 / INR (length X)).
Proof.
  intros o n m mt M X Y J i k l Hs HX HM HL Hag Hi Hk Hl Hmt0.
  assert (HX0 : X <> []) by (destruct X; simpl in *; [lia|congruence]).
  destruct (igdm_deriv_value o n m mt M X Y J true Hs HX0 HX Hag Hmt0 HL HM) as (G & H & E & L1 & L2 & _ & E1).
  exists G, H. split; [exact E|]. rewrite E1 by auto.
  replace (2 * _ / INR (length X)) with (2 / INR (length X) * curv m (i_func o) (i_jac o) (i_hess o) (nth i X []) (nth i M []) k l) by (unfold Rdiv; ring).
  apply (match_second n m (i_func o) (i_jac o) (sm_maps o n m Hs) (sm_jac o n m Hs) (i_hess o) (sm_hess o n m Hs) M X i k l); auto.
Qed.
Print Assumptions C41_igd_matching_hessian_partial.

(** so the claim for the matching variant is false as soon as there are two points *)
Theorem C41_igd_matching_refuted : exists o mt X i k G h, smooth o 1 1 /\ length X = 2%nat /\ igd_derivatives o (Some mt) X None None false = Ok (G, None) /\
  (forall t, igdm_compute o mt (Some (set_coord X i k t)) None = Ok (h t)) /\ ~ is_derive h (coord X i k) (nth k (nth i G []) 0).
Proof.
  assert (HX : rows 1 [[1]; [11]]) by rows_tac. assert (HM : rows 1 [[0]; [10]]) by rows_tac.
  pose proof (ln_smooth [[0]; [10]] 2) as Hs. pose (o := ln_o [[0]; [10]] 2). pose (mt := fun _ : list (list R) => @Ok (list (list R)) [[0]; [10]]).
  destruct (C41_igd_matching_partial o 1 1 mt [[0]; [10]] [[1]; [11]] None None false 0 0 Hs HX HM) as (G & H & E & _ & HD);
    [reflexivity|split; auto|simpl; lia|lia|apply filter_forall; reflexivity|].
  destruct (igdm_deriv_value o 1 1 mt [[0]; [10]] [[1]; [11]] None None false Hs) as (G' & H' & E' & _ & _ & E1 & _);
    [congruence|exact HX|split; auto|reflexivity|reflexivity|exact HM|].
  rewrite E in E'. injection E' as <- ->.
  assert (Hh : exists h, forall t, igdm_compute o mt (Some (set_coord [[1]; [11]] 0 0 t)) None = Ok (h t)) by (eexists; intros t; reflexivity).
  destruct Hh as (h & Hh).
  exists o, mt, [[1]; [11]], 0%nat, 0%nat, G, h. split; [exact Hs|]. split; auto. split; [exact E|]. split; auto. intros HD2.
  pose proof (is_derive_unique _ _ _ (HD h (filter_forall _ Hh))) as U1. pose proof (is_derive_unique _ _ _ HD2) as U2. rewrite U1 in U2.
  rewrite (E1 0%nat 0%nat) in U2 by (simpl; lia). unfold ip in U2. simpl in U2. lra.
Qed.
Print Assumptions C41_igd_matching_refuted.

(** * C42 *)
Theorem C42_igd_cells : forall o Y m, Y <> [] -> i_ref o <> [] -> rows m Y -> rows m (i_ref o) ->
  exists D idx cells cnt, igd_indices o Y = Ok (D, idx, cells, cnt) /\ length idx = length (i_ref o) /\ length cells = length Y /\ length cnt = length Y /\
    (forall j, (j < length (i_ref o))%nat -> (nth j idx 0 < length Y)%nat /\
       set_dist (nth j (i_ref o) []) Y (edist (nth j (i_ref o) []) (nth (nth j idx 0%nat) Y []))) /\
    (forall i j, (i < length Y)%nat -> In j (nth i cells []) <-> (j < length (i_ref o))%nat /\ nth j idx 0%nat = i) /\
    Permutation (concat cells) (seq 0 (length (i_ref o))) /\
    (forall i, (i < length Y)%nat -> nth i cnt 0%nat = length (nth i cells [])) /\
    fold_right Nat.add 0%nat cnt = length (i_ref o).
Proof. exact igd_cells. Qed.
Print Assumptions C42_igd_cells.
Example C42_case : [[4; 3]; [0; 1]] <> [] /\ ex_ref <> [] /\ rows 2 [[4; 3]; [0; 1]] /\ rows 2 ex_ref.
Proof. split; [congruence|]. split; [unfold ex_ref; congruence|]. split; rows_tac. Qed.
