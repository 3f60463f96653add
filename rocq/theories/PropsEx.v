(** Property theorems: parametrised fronts of the examples. *)
From Coq Require Import List Arith Bool Reals ZArith Lia Lra.
From Coquelicot Require Import Coquelicot.
From Verif Require Import Exn ExModel ExSpec ExProof.
Import ListNotations.
Open Scope R_scope.

(** two pieces, straight lines *)
Definition ex_ps : list piece :=
  [mkPiece (fun u => [u; 2 - u]) (fun _ => [1; -1]) (fun _ => [0; 0]);
   mkPiece (fun u => [2 + u; 0 - u]) (fun _ => [1; -1]) (fun _ => [0; 0])].
Ltac rc := repeat match goal with |- context [Rle_dec ?a ?b] => destruct (Rle_dec a b); try lra | |- context [Req_EM_T ?a ?b] => destruct (Req_EM_T a b); try lra end.

(** * C143 *)
(** for parameters in [0, 1] the pieces are run through one after the other *)
Theorem C143_curve : forall ps t, ps <> [] -> 0 <= t <= 1 ->
  pw_objective get_index ps t = Ok (joined (map p_obj ps) t).
Proof. exact objective_joined. Qed.
Print Assumptions C143_curve.
(** the piece and its parameter *)
Theorem C143_index : forall ps sel t, ps <> [] -> 0 <= t <= 1 ->
  exists k p u, nth_error ps k = Some p /\ 0 <= u <= 1 /\ t = (INR k + u) / INR (length ps) /\ (t < 1 -> u < 1) /\
  call get_index ps sel t = Ok (sel p u).
Proof.
  intros ps sel t HN Ht. destruct (call_in ps sel t HN Ht) as (k & p & Hk & En & B & C & _ & E).
  exists k, p, (INR (length ps) * t - INR k). split; auto. split. lra. split. field. apply not_0_INR. lia. split. intros. specialize (C H). lra. auto.
Qed.
Print Assumptions C143_index.
(** parameters above 1 are rejected *)
Theorem C143_above : forall ps sel t, ps <> [] -> 1 < t -> call get_index ps sel t = Exn IndexError.
Proof. exact call_above. Qed.
Print Assumptions C143_above.
(** parameters below 0 are not: the last piece answers, far outside of its parameters *)
Theorem C143_below_refuted : exists ps t, ps <> [] /\ t < 0 /\ call get_index ps p_obj t = Ok [0; 2].
Proof.
  exists [nth 0 ex_ps (mkPiece (fun _ => []) (fun _ => []) (fun _ => [])); mkPiece (fun u => [u + 3; - u - 1]) (fun _ => [1; -1]) (fun _ => [0; 0])], (- / 2).
  split. discriminate. split. lra. erewrite call_below. 2: simpl; reflexivity. 2: simpl; lra. simpl. f_equal. f_equal. field. f_equal. field.
Qed.
Print Assumptions C143_below_refuted.
Example C143_meets : ex_ps <> [] /\ 0 <= / 4 <= 1 /\ pw_objective get_index ex_ps (/ 4) = Ok [/ 2; 3 / 2].
Proof.
  split. discriminate. split. lra. unfold pw_objective. rewrite (call_inside ex_ps p_obj 0 (nth 0 ex_ps (mkPiece (fun _ => []) (fun _ => []) (fun _ => [])))); auto.
  simpl. f_equal. f_equal. field. f_equal. field. simpl. lra.
Qed.

(** * C144 *)
(** a piece whose Jacobian and Hessian are right *)
Definition right_piece (p : piece) : Prop := forall u, 0 < u < 1 -> curve_derive (p_obj p) u (p_jac p u) /\ curve_derive (p_jac p) u (p_hess p u).
(** inside of a piece the Jacobian is the derivative divided by the number N of pieces, the
    Hessian the second derivative divided by N^2 *)
Theorem C144_derivatives_partial : forall ps k p t, nth_error ps k = Some p -> right_piece p -> INR k < INR (length ps) * t < INR k + 1 ->
  exists J H, pw_jacobian get_index ps t = Ok J /\ pw_hessian get_index ps t = Ok H /\
  curve_derive (joined (map p_obj ps)) t (scale (INR (length ps)) J) /\
  forall i, (i < 2)%nat -> is_derive_n (fun u => nth i (joined (map p_obj ps) u) 0) 2 t (INR (length ps) ^ 2 * nth i H 0).
Proof.
  intros ps k p t En Hp Ht. exists (p_jac p (INR (length ps) * t - INR k)), (p_hess p (INR (length ps) * t - INR k)).
  unfold pw_jacobian, pw_hessian. rewrite !(call_inside ps _ k p t En) by lra. split; auto. split; auto.
  rewrite <- (map_length p_obj ps) in Ht |- *. split.
  - apply (joined_derive (map p_obj ps) k t (p_obj p)); auto. apply map_nth_error; auto. apply Hp. lra.
  - intros i Hi. apply (joined_derive2 (map p_obj ps) k t (p_obj p) (p_jac p)); auto. apply map_nth_error; auto. intros; apply Hp; auto. apply Hp. lra.
Qed.
Print Assumptions C144_derivatives_partial.
Lemma ex_right : right_piece (nth 0 ex_ps (mkPiece (fun _ => []) (fun _ => []) (fun _ => []))).
Proof.
  intros u _. split; (split; [reflexivity|]; intros i Hi; destruct i as [|[|i]]; [| |lia]; simpl; auto_derive; auto; ring).
Qed.
(** so the Jacobian is not the derivative *)
Theorem C144_jacobian_refuted : exists ps t J, (exists k p, nth_error ps k = Some p /\ right_piece p /\ INR k < INR (length ps) * t < INR k + 1) /\
  pw_jacobian get_index ps t = Ok J /\ ~ curve_derive (joined (map p_obj ps)) t J.
Proof.
  exists ex_ps, (/ 4), [1; -1]. assert (K : INR 0 < INR (length ex_ps) * / 4 < INR 0 + 1) by (simpl; lra).
  split. exists 0%nat. eexists. split. reflexivity. split. apply ex_right. auto.
  destruct (C144_derivatives_partial ex_ps 0 _ (/ 4) eq_refl ex_right K) as (J & H & EJ & _ & DJ & _).
  assert (E : pw_jacobian get_index ex_ps (/ 4) = Ok [1; -1]) by (unfold pw_jacobian; rewrite (call_inside ex_ps p_jac 0 _ (/ 4) eq_refl); auto; lra).
  split; auto. intros [_ D]. rewrite EJ in E. injection E as ->. destruct DJ as [_ DJ].
  specialize (D 0%nat ltac:(lia)). specialize (DJ 0%nat ltac:(lia)). apply is_derive_unique in D, DJ. rewrite D in DJ. simpl in DJ. lra.
Qed.
Print Assumptions C144_jacobian_refuted.
(** a Newton step computed with gradient and Hessian so divided is N times the right one *)
Theorem C144_newton : forall N H g d, (0 < N)%nat -> solves H d (map Ropp g) ->
  solves (map (map (Rmult (INR N * INR N))) H) (map (Rmult (/ INR N)) d) (map Ropp (scale (INR N) g)).
Proof.
  intros N H g d HN HS. replace (map Ropp (scale (INR N) g)) with (map (Rmult (INR N)) (map Ropp g)).
  apply solves_scaled; auto. apply not_0_INR. lia. unfold scale. rewrite !map_map. apply map_ext. intros; ring.
Qed.
Print Assumptions C144_newton.
Example C144_meets : nth_error ex_ps 0 = Some (nth 0 ex_ps (mkPiece (fun _ => []) (fun _ => []) (fun _ => []))) /\
  right_piece (nth 0 ex_ps (mkPiece (fun _ => []) (fun _ => []) (fun _ => []))) /\ INR 0 < INR (length ex_ps) * / 4 < INR 0 + 1 /\
  solves [[2]] [3] (map Ropp [-6]).
Proof. split; auto. split. apply ex_right. split. simpl. lra. unfold solves, dot. simpl. f_equal. ring. Qed.

(** * C145 *)
(** B-splines: the derivatives are right inside of a piece and are replaced by 0 at both ends of
    every piece, so also at parameters k / N in the interior *)
Theorem C145_inside : forall f df d2f, (forall u, 0 < u < 1 -> curve_derive f u (df u) /\ curve_derive df u (d2f u)) -> right_piece (BS f df d2f).
Proof.
  intros f df d2f H u Hu. destruct (H u Hu) as [A B].
  assert (E : forall v, 0 < v < 1 -> reqb v 0 || reqb v 1 = false).
  { intros v Hv. replace (reqb v 0) with false by (symmetry; apply reqb_false; lra). apply reqb_false. lra. }
  cbn [p_obj p_jac p_hess BS]. rewrite E by auto. split; auto. destruct B as [L B]. split; auto.
  intros i Hi. apply (is_derive_ext_loc (fun v => nth i (df v) 0)); auto.
  apply (locally_interval _ u 0 1); simpl; try lra. intros y Y0 Y1. rewrite E; auto.
Qed.
Print Assumptions C145_inside.
Theorem C145_ends : forall ps k t, (forall p, In p ps -> exists f df d2f, p = BS f df d2f) -> ps <> [] -> (k <= length ps)%nat -> t = INR k / INR (length ps) ->
  pw_jacobian get_index ps t = Ok [0; 0] /\ pw_hessian get_index ps t = Ok [0; 0].
Proof.
  intros ps k t Hp HN Hk Et. assert (P : 0 < INR (length ps)) by (apply lt_0_INR; destruct ps; simpl; [congruence|lia]).
  assert (NT : INR (length ps) * t = INR k) by (subst t; field; lra). assert (Kp := pos_INR k). assert (Kn := le_INR _ _ Hk).
  assert (Ht : 0 <= t <= 1) by (split; apply (Rmult_le_reg_l (INR (length ps))); auto; lra).
  assert (Q : forall sel, exists p u, In p ps /\ (u = 0 \/ u = 1) /\ call get_index ps sel t = Ok (sel p u)).
  { intros sel. destruct (call_in ps sel t HN Ht) as (j & p & Hj & En & B & _ & _ & E). exists p, (INR (length ps) * t - INR j).
    split. eapply nth_error_In; eauto. split; auto. rewrite NT in *. destruct B as [B1 B2]. apply INR_le in B1. rewrite <- S_INR in B2. apply INR_le in B2.
    destruct (Nat.eq_dec k j) as [->|]. left. ring. right. replace k with (S j) by lia. rewrite S_INR. ring. }
  assert (Z : forall u, u = 0 \/ u = 1 -> reqb u 0 || reqb u 1 = true).
  { intros u [->| ->]. replace (reqb 0 0) with true by (symmetry; apply reqb_true; auto). auto. replace (reqb 1 1) with true by (symmetry; apply reqb_true; auto). apply orb_true_r. }
  unfold pw_jacobian, pw_hessian. split.
  - destruct (Q p_jac) as (p & u & Hin & Hu & ->). destruct (Hp p Hin) as (f & df & d2f & ->). cbn [p_jac BS]. rewrite Z; auto.
  - destruct (Q p_hess) as (p & u & Hin & Hu & ->). destruct (Hp p Hin) as (f & df & d2f & ->). cbn [p_hess BS]. rewrite Z; auto.
Qed.
Print Assumptions C145_ends.
(** a straight line cut in two: the derivative at the cut is not 0, the Jacobian is *)
Theorem C145_interior_refuted : exists ps t, 0 < t < 1 /\ curve_derive (fun u => [2 * u; 2 - 2 * u]) t [2; -2] /\
  (forall u, 0 <= u <= 1 -> pw_objective get_index ps u = Ok [2 * u; 2 - 2 * u]) /\ pw_jacobian get_index ps t = Ok [0; 0].
Proof.
  set (ps := [BS (fun u => [u; 2 - u]) (fun _ => [1; -1]) (fun _ => [0; 0]); BS (fun u => [1 + u; 1 - u]) (fun _ => [1; -1]) (fun _ => [0; 0])]).
  exists ps, (/ 2). split. lra. split.
  { split; auto. intros i Hi; destruct i as [|[|i]]; [| |lia]; simpl; auto_derive; auto; ring. }
  split.
  - intros u Hu. unfold pw_objective. destruct (call_in ps p_obj u ltac:(discriminate) Hu) as (k & p & Hk & En & _ & _ & _ & ->). simpl in Hk.
    destruct k as [|[|k]]; [| |lia]; simpl in En; injection En as <-; cbn [BS p_obj]; simpl; f_equal; f_equal; [ring|f_equal; ring|ring|f_equal; ring].
  - apply (C145_ends ps 1 (/ 2)). intros p [<-|[<-|[]]]; eauto. discriminate. simpl; lia. simpl. field.
Qed.
Print Assumptions C145_interior_refuted.
Example C145_meets : (forall u, 0 < u < 1 -> curve_derive (fun u => [u; 2 - u]) u [1; -1] /\ curve_derive (fun _ => [1; -1]) u [0; 0]) /\ (1 <= 2)%nat /\ / 2 = INR 1 / INR 2.
Proof.
  split. intros u _. split; (split; [reflexivity|]; intros i Hi; destruct i as [|[|i]]; [| |lia]; simpl; auto_derive; auto; ring).
  split. lia. simpl. field.
Qed.

(** * C146 *)
(** the second version of [get_index] (subset_selection): the same piece away from the ends of the
    pieces; in general a piece whose parameter exceeds 1 by at most the tolerance, except just
    above 0 *)
Theorem C146_same : forall N t, (0 < N)%nat -> 0 <= t <= 1 -> (forall k, (k <= N)%nat -> Rabs (t - INR k / INR N) > / 100000000 + / 100000) ->
  get_index2 N t = get_index N t.
Proof. intros. apply get_index2_same; auto. lia. Qed.
Print Assumptions C146_same.
Theorem C146_index_partial : forall ps sel t, ps <> [] -> 0 <= t <= 1 -> ~ 0 < t <= / 100000000 ->
  exists k p u, nth_error ps k = Some p /\ t = (INR k + u) / INR (length ps) /\ 0 <= u <= 1 + INR (length ps) * (/ 100000000 + / 100000 * t) /\
  call get_index2 ps sel t = Ok (sel p u).
Proof.
  intros ps sel t HN Ht Hs. assert (HN' : length ps <> 0%nat) by (destruct ps; simpl; congruence). assert (P := INR_pos _ HN').
  destruct (get_index2_in (length ps) t HN' Ht Hs) as (k & Hk & E & B).
  destruct (nth_error ps k) as [p|] eqn:En; [|apply nth_error_None in En; lia].
  exists k, p, (INR (length ps) * t - INR k). split; auto. split. field; lra. split.
  - destruct B as [B1 B2]. apply (Rmult_le_compat_l (INR (length ps))) in B1, B2; try lra.
    replace (INR (length ps) * (INR k / INR (length ps))) with (INR k) in B1 by (field; lra).
    replace (INR (length ps) * ((INR k + 1) / INR (length ps) + / 100000000 + / 100000 * t)) with (INR k + 1 + INR (length ps) * (/ 100000000 + / 100000 * t)) in B2 by (field; lra). lra.
  - unfold call. destruct ps as [|q qs] eqn:Eps; [congruence|]. rewrite <- Eps in *. rewrite E, !py_nth_pos, En. cbn [bind].
    rewrite nth_error_intervals by lia. cbn [bind]. f_equal. f_equal. field. lra.
Qed.
Print Assumptions C146_index_partial.
(** just above 0 the last piece answers, far outside of its parameters *)
Theorem C146_start_refuted : exists ps t, ps <> [] /\ 0 < t <= 1 /\ exists p, last (map Some ps) None = Some p /\ nth_error ps 0 <> Some p /\
  call get_index2 ps p_obj t = Ok (p_obj p (INR (length ps) * (t - 1))) /\ INR (length ps) * (t - 1) < -1.
Proof.
  exists ex_ps, (/ 100000000). split. discriminate. split. lra. eexists. split. reflexivity. split.
  intros H. apply (f_equal (fun o => match o with Some p => nth 0 (p_obj p 0) 0 | None => 0 end)) in H. simpl in H. lra.
  split; [|simpl; lra]. unfold call. cbn [ex_ps]. fold ex_ps. rewrite get_index2_small; try (simpl; lra); [|simpl; lia].
  change (-1)%Z with (- Z.of_nat 1)%Z. rewrite !py_nth_neg by (simpl; lia). simpl. f_equal. f_equal. field. f_equal. field.
Qed.
Print Assumptions C146_start_refuted.
Example C146_meets : (0 < 2)%nat /\ 0 <= / 4 <= 1 /\ (forall k, (k <= 2)%nat -> Rabs (/ 4 - INR k / INR 2) > / 100000000 + / 100000) /\ ex_ps <> [] /\ ~ 0 < / 4 <= / 100000000.
Proof.
  split. lia. split. lra. split. intros k Hk. destruct k as [|[|[|k]]]; [| | |lia]; simpl; unfold Rabs; destruct (Rcase_abs _); lra. split. discriminate. lra.
Qed.

(** * C147 *)
(** cubic splines: on the half-open interval of a piece the value is that of the polynomial of
    this piece, and inside the other two are its derivatives *)
Theorem C147_value : forall coefs breaks i x a b c d lo hi, increasing breaks -> nth_error coefs i = Some [a; b; c; d] ->
  nth_error breaks i = Some lo -> nth_error breaks (S i) = Some hi -> lo <= x < hi ->
  exists dy d2y, front_approx coefs breaks x = Ok (poly [a; b; c; d] (x - lo), dy, d2y) /\
    front_approx_dent coefs breaks x = Ok (poly [a; b; c; d] (x - lo), dy, d2y).
Proof.
  intros coefs breaks i x a b c d lo hi HI Hc Hl Hh Hx.
  assert (E : last_le x breaks 0 None = Some i). { apply (last_le_at x breaks i lo); auto. lra. intros b' Hb. rewrite Hh in Hb. injection Hb as <-. lra. }
  assert (Hi : (i < length coefs)%nat) by (apply nth_error_Some; congruence).
  unfold front_approx, front_approx_dent. rewrite E, Hl. replace (Nat.min (length coefs - 1) i) with i by lia. rewrite Hc.
  eexists. eexists. rewrite <- cubic_poly. cbv [cubic]. simpl. split; reflexivity.
Qed.
Print Assumptions C147_value.
Theorem C147_derivatives : forall coefs breaks i x a b c d lo hi, increasing breaks -> nth_error coefs i = Some [a; b; c; d] ->
  nth_error breaks i = Some lo -> nth_error breaks (S i) = Some hi -> lo < x < hi ->
  exists y dy d2y, smooth2 y dy d2y x /\ locally x (fun u => front_approx coefs breaks u = Ok (y u, dy u, d2y u)) /\
    locally x (fun u => front_approx_dent coefs breaks u = Ok (y u, dy u, d2y u)).
Proof.
  intros coefs breaks i x a b c d lo hi HI Hc Hl Hh Hx.
  set (Q := fun u => cubic [a; b; c; d] (u - lo)).
  exists (fun u => fst (fst (Q u))), (fun u => snd (fst (Q u))), (fun u => snd (Q u)). split; [split|].
  - apply filter_forall. intros u. unfold Q. apply (is_derive_ext (fun u => poly [a; b; c; d] (u - lo))). intros; rewrite cubic_poly; auto.
    evar_last. apply (is_derive_comp (poly [a; b; c; d]) (fun u => u - lo)). apply cubic_derive. auto_derive; auto. apply Rmult_1_l.
  - unfold Q. evar_last. apply (is_derive_comp (fun v => snd (fst (cubic [a; b; c; d] v))) (fun u => u - lo)). apply cubic_derive2. auto_derive; auto. apply Rmult_1_l.
  - assert (Hi : (i < length coefs)%nat) by (apply nth_error_Some; congruence).
    assert (E : forall u, lo < u < hi -> last_le u breaks 0 None = Some i). { intros u Hu. apply (last_le_at u breaks i lo); auto. lra. intros b' Hb. rewrite Hh in Hb. injection Hb as <-. lra. }
    split; apply (locally_interval _ x lo hi); simpl; try lra; intros u U0 U1; unfold front_approx, front_approx_dent; rewrite E, Hl by lra.
    + replace (Nat.min (length coefs - 1) i) with i by lia. rewrite Hc. unfold Q. reflexivity.
    + rewrite Hc. unfold Q. reflexivity.
Qed.
Print Assumptions C147_derivatives.
(** below the first break: IndexError *)
Theorem C147_below : forall coefs breaks x, (forall b, In b breaks -> x < b) -> front_approx coefs breaks x = Exn IndexError /\ front_approx_dent coefs breaks x = Exn IndexError.
Proof. intros coefs breaks x H. unfold front_approx, front_approx_dent. rewrite last_le_none; auto. Qed.
Print Assumptions C147_below.
(** if there is a break at the right end (one break more than pieces), the value there is that of
    the last piece at its left end, so the approximation jumps; the other version raises *)
Theorem C147_right_end : forall coefs breaks n x a b c d, increasing breaks -> length coefs = S n -> length breaks = S (S n) ->
  nth_error coefs n = Some [a; b; c; d] -> nth_error breaks (S n) = Some x ->
  front_approx coefs breaks x = Ok (d, c, 2 * b) /\ front_approx_dent coefs breaks x = Exn IndexError.
Proof.
  intros coefs breaks n x a b c d HI Lc Lb Hc Hb.
  assert (E : last_le x breaks 0 None = Some (S n)). { apply (last_le_at x breaks (S n) x); auto. lra. intros b' Hb'. assert (S (S n) < length breaks)%nat by (apply nth_error_Some; congruence). lia. }
  unfold front_approx, front_approx_dent. rewrite E, Hb. rewrite Lc. replace (Nat.min (S n - 1) (S n)) with n by lia. rewrite Hc.
  split. f_equal. unfold cubic. simpl. f_equal. f_equal; ring. ring.
  assert (N : nth_error coefs (S n) = None) by (apply nth_error_None; lia). rewrite N. auto.
Qed.
Print Assumptions C147_right_end.
Theorem C147_jump_refuted : exists coefs breaks, increasing breaks /\ nth_error breaks 0 = Some 0 /\ nth_error breaks 1 = Some 1 /\ length breaks = 2%nat /\
  (forall x, 0 <= x < 1 -> exists dy d2y, front_approx coefs breaks x = Ok (1 - x, dy, d2y)) /\ exists dy d2y, front_approx coefs breaks 1 = Ok (1, dy, d2y).
Proof.
  exists [[0; 0; -1; 1]], [0; 1].
  assert (HI : increasing [0; 1]). { intros i j a b Hij Ha Hb. destruct i as [|[|[|i]]], j as [|[|[|j]]]; simpl in *; try lia; try discriminate. injection Ha as <-. injection Hb as <-. lra. }
  split; auto. split; auto. split; auto. split; auto. split.
  - intros x Hx. destruct (C147_value [[0; 0; -1; 1]] [0; 1] 0 x 0 0 (-1) 1 0 1 HI eq_refl eq_refl eq_refl Hx) as (dy & d2y & E & _). exists dy, d2y. rewrite E.
    f_equal. f_equal. f_equal. unfold poly. simpl. ring.
  - exists (-1), (2 * 0). apply (C147_right_end [[0; 0; -1; 1]] [0; 1] 0 1 0 0 (-1) 1); auto.
Qed.
Print Assumptions C147_jump_refuted.
Example C147_meets : increasing [0; 1; 2] /\ nth_error [[1; 0; 0; 0]; [2; 1; 0; 1]] 1 = Some [2; 1; 0; 1] /\ nth_error [0; 1; 2] 1 = Some 1 /\ nth_error [0; 1; 2] 2 = Some 2 /\ 1 < 3 / 2 < 2 /\
  (forall b, In b [0; 1; 2] -> -1 < b).
Proof.
  split. intros i j a b Hij Ha Hb. destruct i as [|[|[|[|i]]]], j as [|[|[|[|j]]]]; simpl in *; try lia; try discriminate; injection Ha as <-; injection Hb as <-; lra.
  repeat (split; auto); try lra. intros b Hb. simpl in Hb. destruct Hb as [<-|[<-|[<-|[]]]]; lra.
Qed.

(** * C148 *)
(** the constraint "on the curve" has the right gradient and Hessian *)
Theorem C148_right : forall f (y dy d2y : R -> R) (x z : R), locally x (fun u => f u = Ok (y u, dy u, d2y u)) -> smooth2 y dy d2y x ->
  exists g H, curve_h f x z = Ok (y x - z) /\ curve_h_jac f x z = Ok g /\ curve_h_hess f x z = Ok H /\
  gradient2 (fun a b => y a - b) x z g /\ hessian2 (fun a b => y a - b) x z H.
Proof.
  intros f y dy d2y x z Hf [Hy Hd]. assert (E : f x = Ok (y x, dy x, d2y x)) by (apply (locally_singleton _ _ Hf)).
  assert (Dy := locally_singleton _ _ Hy).
  exists [dy x; -1], [[d2y x; 0]; [0; 0]]. unfold curve_h, curve_h_jac, curve_h_hess. rewrite E. cbn [bind fst snd]. repeat (split; auto).
  - exists (dy x), (-1). split; auto. split. apply derive_minus_c. apply Dy. auto_derive; auto; ring.
  - exists (fun a _ => dy a), (fun _ _ => -1), [d2y x; 0], [0; 0]. split; auto.
    assert (K : forall u v, is_derive y u (dy u) -> is_derive (fun a => y a - v) u (dy u)).
    { intros u v Du. apply derive_minus_c. auto. }
    split. revert Hy. apply filter_imp. auto. split. revert Hy. apply filter_imp. intros u Hu. apply filter_forall. intros v. split. auto. auto_derive; auto; ring.
    split. exists (d2y x), 0. split; auto. split; auto. auto_derive; auto. exists 0, 0. split; auto. split; auto_derive; auto.
Qed.
Print Assumptions C148_right.
(** in scaled coordinates the factors of the scaling are missing *)
Theorem C148_scaled_partial : forall f (y dy d2y : R -> R) (l1 u1 l2 u2 x z : R), let X := x * (u1 - l1) + l1 in locally X (fun u => f u = Ok (y u, dy u, d2y u)) -> smooth2 y dy d2y X ->
  exists a b, scaled_h f l1 u1 l2 u2 x z = Ok (y X - (z * (u2 - l2) + l2)) /\ scaled_h_jac f l1 u1 l2 u2 x z = Ok [a; b] /\
  gradient2 (fun p q => y (p * (u1 - l1) + l1) - (q * (u2 - l2) + l2)) x z [(u1 - l1) * a; (u2 - l2) * b].
Proof.
  intros f y dy d2y l1 u1 l2 u2 x z X Hf [Hy Hd]. assert (E : f X = Ok (y X, dy X, d2y X)) by (apply (locally_singleton _ _ Hf)).
  assert (Dy := locally_singleton _ _ Hy). exists (dy X), (-1). unfold scaled_h, scaled_h_jac, curve_h, curve_h_jac, scaled. fold X. rewrite E. cbn [bind fst snd]. split; auto. split; auto.
  exists ((u1 - l1) * dy X), ((u2 - l2) * -1). split; auto. split.
  - apply (derive_minus_c (fun u => y (u * (u1 - l1) + l1))).
    apply (is_derive_comp y (fun u => u * (u1 - l1) + l1)). apply Dy. auto_derive; auto. ring.
  - auto_derive; auto. ring.
Qed.
Print Assumptions C148_scaled_partial.
(** with the bounds of TwoOnOne/example.py (lines 30-31) the reported gradient is wrong whatever the curve *)
Theorem C148_scaled_refuted : forall f (y dy d2y : R -> R) (x z : R), let l1 := 6.83341008507533 in let u1 := 21.95 in let l2 := 0 in let u2 := 9.07976975741695 in
  locally (x * (u1 - l1) + l1) (fun u => f u = Ok (y u, dy u, d2y u)) -> smooth2 y dy d2y (x * (u1 - l1) + l1) ->
  exists g, scaled_h_jac f l1 u1 l2 u2 x z = Ok g /\ ~ gradient2 (fun p q => y (p * (u1 - l1) + l1) - (q * (u2 - l2) + l2)) x z g.
Proof.
  intros f y dy d2y x z l1 u1 l2 u2 Hf Hs. exists [dy (x * (u1 - l1) + l1); -1].
  unfold scaled_h_jac, curve_h_jac, scaled. rewrite (locally_singleton _ _ Hf). cbn [bind fst snd]. split; auto. intros (a & b & [= <- <-] & _ & D).
  assert (D2 : is_derive (fun q => y (x * (u1 - l1) + l1) - (q * (u2 - l2) + l2)) z (- (u2 - l2))) by (auto_derive; auto; ring).
  apply is_derive_unique in D, D2. rewrite D in D2. unfold u2, l2 in D2. lra.
Qed.
Print Assumptions C148_scaled_refuted.
Example C148_meets : locally (/ 2) (fun u => (fun u => Ok (u * u, 2 * u, 2)) u = Ok ((fun u => u * u) u, (fun u => 2 * u) u, (fun _ => 2) u)) /\
  smooth2 (fun u => u * u) (fun u => 2 * u) (fun _ => 2) (/ 2).
Proof. split. apply filter_forall. auto. split. apply filter_forall. intros u. auto_derive; auto. ring. auto_derive; auto. ring. Qed.

(** * C149 *)
(** points on the boundary: a gradient in objective space times the Jacobian keeps the entries of
    coordinates other than 0 and 1 and clears the others *)
Theorem C149_cleared : forall x g j, length g = length x -> (j < length x)%nat ->
  dot g (map (fun r => nth j r 0) (id_jac x)) = if Req_EM_T (nth j x 0) 0 then 0 else if Req_EM_T (nth j x 0) 1 then 0 else nth j g 0.
Proof.
  intros x g j Hg Hj. unfold id_jac. rewrite map_map. set (n := length x) in *.
  set (c := if Req_EM_T (nth j x 0) 0 then 0 else if Req_EM_T (nth j x 0) 1 then 0 else 1).
  rewrite (map_ext_in _ (fun i => if (i =? j)%nat then c else 0)).
  2:{ intros i Hi. apply in_seq in Hi. erewrite (nth_indep _ _ (_ (length x))) by (rewrite map_length, seq_length; auto). rewrite map_nth, seq_nth by auto. cbn [Nat.add].
      destruct (i =? j)%nat eqn:E; auto. apply Nat.eqb_eq in E. subst i. cbn [andb]. unfold c, reqb. destruct (Req_EM_T (nth j x 0) 0); auto. destruct (Req_EM_T (nth j x 0) 1); auto. }
  assert (S : forall j c g k, dot g (map (fun i => if (i =? k + j)%nat then c else 0) (seq k (length g))) = c * nth j g 0).
  { clear. induction j as [|j IH]; intros c g k; destruct g as [|a g]; unfold dot; simpl; try ring.
    - rewrite Nat.add_0_r, Nat.eqb_refl. cut (forall m, (k < m)%nat -> fold_right Rplus 0 (map (fun p => fst p * snd p) (combine g (map (fun i => if (i =? k)%nat then c else 0) (seq m (length g))))) = 0).
      intros H. rewrite H by lia. ring. clear. induction g as [|b g IH]; intros m Hm; simpl; auto. destruct (m =? k)%nat eqn:E. apply Nat.eqb_eq in E. lia. rewrite IH by lia. ring.
    - replace (k =? k + S j)%nat with false by (symmetry; apply Nat.eqb_neq; lia). specialize (IH c g (S k)). unfold dot in IH. replace (k + S j)%nat with (S k + j)%nat by lia. rewrite IH. ring. }
  specialize (S j c g 0%nat). simpl in S. rewrite <- Hg, S. unfold c. destruct (Req_EM_T (nth j x 0) 0). ring. destruct (Req_EM_T (nth j x 0) 1); ring.
Qed.
Print Assumptions C149_cleared.
Example C149_meets : length [3; 4] = length [0; / 2] /\ (1 < length [0%R; (/ 2)%R])%nat /\ id_jac [0; / 2] = [[0; 0]; [0; 1]].
Proof. split; auto. split; auto. unfold id_jac, reqb. simpl. rc. auto. Qed.
