(** The gradient method Lara. *)
From Coq Require Import List Arith Bool Lia Reals Lra Psatz ZArith Permutation.
From Verif Require Import ListAux Num Exn NewtonModel NewtonProof NewtonBox NewtonPop LaraModel LaraSpec LaraProof LaraMain.
Import ListNotations.
Open Scope R_scope.

(** C94: one iteration *)
Theorem C94_iteration : forall order eps jac n_obj dim xl xu Xs, (forall l, Permutation (order l) l) -> box_ok dim xl xu -> (0 < n_obj)%nat ->
  (forall x, inside xl xu x -> regular n_obj dim (jac x)) -> Xs <> [] -> (forall x, In x Xs -> inside xl xu x) ->
  exists K m X', iteration order eps jac n_obj dim xl xu (map Some Xs) = Ok (map Some X') /\
    thinned Xs K /\ X' <> [] /\ length X' = length K /\ Rmin 1 (/ 10 ^ 10 / INR n_obj) <= m <= 1 /\
    forall p, (p < length K)%nat -> let x := nth (nth p K 0%nat) Xs [] in let y := nth p X' [] in inside xl xu y /\
      forall c, (c < dim)%nat -> exists b, kept_or_blocked (nth c xl 0) (nth c xu 0) (nth c x 0) (direction (jac x) c) b /\ nth c y 0 = nth c x 0 + m * b.
Proof.
  intros order eps jac n_obj dim xl xu Xs Ho Hb Hn Hj Hne Hin. destruct (iteration_ok order eps jac n_obj dim xl xu Ho Hb Hn Hj Xs Hne Hin) as (m & X' & E & Hne' & L & Hm & Hp).
  exists (survivors order eps (map Some Xs)), m, X'. split; auto. split; [apply survivors_thinned; auto|]. split; auto. split; auto. split; auto.
  intros p Hpl. destruct (Hp p Hpl) as (_ & H1 & H2). split; auto.
Qed.
Print Assumptions C94_iteration.
(** the squared distances to (0, 0) and (1, 0): gradients 2 x and 2 (x - (1, 0)) *)
Definition two_centres (x : list R) : list (list R) := [[2 * nth 0 x 0; 2 * nth 1 x 0]; [2 * (nth 0 x 0 - 1); 2 * nth 1 x 0]].
Example C94_example : box_ok 2 [-1; 1] [2; 3] /\ inside [-1; 1] [2; 3] [0; 1] /\ forall x, inside [-1; 1] [2; 3] x -> regular 2 2 (two_centres x).
Proof.
  split; [|split].
  - split; [reflexivity|]. split; [reflexivity|]. split; [intros [|[|k]] Hk; cbn; try lra; lia|]. exists 0%nat. split; [lia|]. cbn. lra.
  - split; [reflexivity|]. intros [|[|k]] Hk; cbn in *; try lra; lia.
  - intros x (_ & H). specialize (H 1%nat ltac:(cbn; lia)). cbn [nth] in H. split; [reflexivity|].
    intros v [<-|[<-|[]]]; (split; [reflexivity|]); exists 1%nat; (split; [lia|]); cbn [nth]; lra.
Qed.

(** C95: descent *)
(** with every objective scaled by the length of its gradient, the sum of the objectives does not
    increase along the direction *)
Theorem C95_scaled_sum : forall n d J, regular n d J ->
  fold_right Rplus 0 (map (fun v => inner v (map (direction J) (seq 0 d)) / len v) J) = - (len (map (direction J) (seq 0 d))) ^ 2.
Proof.
  intros n d J (_ & H). rewrite direction_scaled by (intros w Hw; apply H; auto). cbn [pow]. rewrite Rmult_1_r, len_sq. reflexivity.
Qed.
Print Assumptions C95_scaled_sum.
(** with two objectives neither increases, and the change is of first order 0 exactly for opposite gradients *)
Theorem C95_two_objectives : forall d u v, regular 2 d [u; v] -> let D := map (direction [u; v]) (seq 0 d) in
  inner u D <= 0 /\ inner v D <= 0 /\ (inner u D = 0 <-> inner u v = - (len u * len v)) /\ (inner v D = 0 <-> inner u v = - (len u * len v)).
Proof.
  intros d u v (_ & H). cbv zeta. destruct (H u (or_introl eq_refl)) as (Lu & c1 & _ & Hc1). destruct (H v (or_intror (or_introl eq_refl))) as (Lv & c2 & _ & Hc2).
  apply len_pos in Hc1, Hc2. pose proof (cauchy_len u v) as Hc. assert (Hc' := Rle_abs (inner u v)). assert (Hc'' := Rle_abs (- inner u v)). rewrite Rabs_Ropp in Hc''.
  assert (Hsw : map (direction [u; v]) (seq 0 d) = map (direction [v; u]) (seq 0 d)) by (apply map_ext; intros c; unfold direction; cbn; ring).
  rewrite (direction_two d u v Lu Lv Hc1 Hc2). rewrite Hsw, (direction_two d v u Lv Lu Hc2 Hc1), (inner_comm v u).
  set (q := inner u v) in *. set (a := len u) in *. set (b := len v) in *.
  assert (E1 : - (a + q / b) = - (a * b + q) / b) by (field; lra). assert (E2 : - (b + q / a) = - (a * b + q) / a) by (field; lra). rewrite E1, E2.
  assert (Hib : 0 < / b) by (apply Rinv_0_lt_compat; auto). assert (Hia : 0 < / a) by (apply Rinv_0_lt_compat; auto). unfold Rdiv.
  split; [nra|]. split; [nra|].
  assert (HH : forall k, 0 < k -> (- (a * b + q) * k = 0 <-> q = - (a * b))) by (intros k Hk; split; [intros HE; apply Rmult_integral in HE; lra|intros ->; ring]). split; apply HH; auto.
Qed.
Print Assumptions C95_two_objectives.
Example C95_example : regular 2 2 [[3; 4]; [0; 2]].
Proof.
  split; [reflexivity|]. intros v [<-|[<-|[]]]; (split; [reflexivity|]); exists 1%nat; (split; [lia|]); cbn; lra.
Qed.
(** with three objectives one may increase *)
Theorem C95_three_objectives_refuted : exists d J v, regular 3 d J /\ In v J /\ 0 < inner v (map (direction J) (seq 0 d)).
Proof.
  exists 1%nat, [[1]; [-1]; [-1]], [1]. split; [split; [reflexivity|]|].
  - intros v [<-|[<-|[<-|[]]]]; (split; [reflexivity|]); exists 0%nat; (split; [lia|]); cbn; lra.
  - split; [left; reflexivity|]. cbn [seq map inner]. unfold direction. cbn [map fold_right nth].
    assert (L1 : len [1] = 1) by (unfold len; cbn; replace (1 * 1 + 0) with 1 by ring; apply sqrt_1).
    assert (L2 : len [-1] = 1) by (unfold len; cbn; replace (-1 * -1 + 0) with 1 by ring; apply sqrt_1).
    rewrite L1, L2. lra.
Qed.
Print Assumptions C95_three_objectives_refuted.
(** with two objectives one may increase after a coordinate of the step is set to 0 at the boundary *)
Theorem C95_blocked_refuted : exists xl xu x u v step m, box_ok 2 xl xu /\ inside xl xu x /\ regular 2 2 [u; v] /\
  box_row xl xu x (map (direction [u; v]) (seq 0 2)) = (step, Fin m) /\ 0 < m /\ 0 < inner u step.
Proof.
  set (u := [8/10; 6/10]). set (v := [0; -1]).
  assert (Hb : box_ok 2 [0; -10] [1; 10]) by (split; [reflexivity|]; split; [reflexivity|]; split; [intros [|[|k]] Hk; cbn; try lra; lia|]; exists 0%nat; split; [lia|]; cbn; lra).
  assert (Hi : inside [0; -10] [1; 10] [0; 0]) by (split; [reflexivity|]; intros [|[|k]] Hk; cbn in *; try lra; lia).
  assert (Hr : regular 2 2 [u; v]) by (split; [reflexivity|]; intros w [<-|[<-|[]]]; (split; [reflexivity|]); exists 1%nat; (split; [lia|]); cbn; lra).
  assert (L1 : len u = 1) by (unfold len, u; cbn; replace (8/10 * (8/10) + (6/10 * (6/10) + 0)) with 1 by lra; apply sqrt_1).
  assert (L2 : len v = 1) by (unfold len, v; cbn; replace (0 * 0 + (-1 * -1 + 0)) with 1 by lra; apply sqrt_1).
  assert (ED : map (direction [u; v]) (seq 0 2) = [-8/10; 4/10]).
  { cbn [seq map]. unfold direction. cbn [map fold_right]. rewrite L1, L2. unfold u, v. cbn [nth]. repeat (apply (f_equal2 (@cons R)); [lra|]). reflexivity. }
  destruct (row_ok (fun _ => [u; v]) 2 2 [0; -10] [1; 10] Hb ltac:(lia) (fun _ _ => Hr) [0; 0] Hi) as (st & m & E & L & Hm & _).
  exists [0; -10], [1; 10], [0; 0], u, v, st, m. split; auto. split; auto. split; auto. split; auto. split.
  - assert (0 < Rmin 1 (/ 10 ^ 10 / INR 2)); [|lra]. apply Rmin_pos; [lra|]. apply Rmult_lt_0_compat; [apply Rinv_0_lt_compat, pow_lt; lra|cbn; lra].
  - rewrite ED in E. unfold box_row in E. injection E as <- _. cbn [blocked_row].
    replace (blocked 0 1 0 (-8/10)) with 0.
    + replace (blocked (-10) 10 0 (4/10)) with (4/10); [unfold u; cbn; lra|].
      unfold blocked. rewrite (proj2 (rltb_false (4/10) 0)) by lra. rewrite andb_false_r. unfold on_bound. rewrite (proj2 (rleb_false (Rabs (Rabs (10 - 0))) (/ 10 ^ 10))); [reflexivity|].
      rewrite Rabs_Rabsolu, Rabs_right by lra. cbn. lra.
    + unfold blocked. rewrite (proj2 (rltb_true (-8/10) 0)) by lra. assert (Hz : on_bound (Rabs (0 - 0)) = true).
      { unfold on_bound. apply rleb_true. replace (0 - 0) with 0 by ring. rewrite !Rabs_R0. apply Rlt_le, Rinv_0_lt_compat, pow_lt. lra. }
      rewrite Hz. cbn [andb]. rewrite (proj2 (rltb_false 0 0)) by lra. rewrite andb_false_r. reflexivity.
Qed.
Print Assumptions C95_blocked_refuted.

(** C96: gradients 0 *)
(** a gradient 0 turns the point into NaN *)
Theorem C96_zero_gradient : forall n d J v, length J = n -> In v J -> (forall a, In a v -> a = 0) -> compute_step n d J = Ok None.
Proof. exact compute_step_zero. Qed.
Print Assumptions C96_zero_gradient.
(** if that is the first of the population, every point becomes NaN *)
Theorem C96_first_point : forall order eps jac n_obj dim xl xu x Xs, (forall l, order l = l) -> box_ok dim xl xu -> (0 < n_obj)%nat -> inside xl xu x ->
  (forall y, In y Xs -> inside xl xu y /\ regular n_obj dim (jac y)) -> length (jac x) = n_obj -> (exists v, In v (jac x) /\ forall a, In a v -> a = 0) ->
  exists k, iteration order eps jac n_obj dim xl xu (map Some (x :: Xs)) = Ok (repeat None (S k)).
Proof. exact first_point_nan. Qed.
Print Assumptions C96_first_point.
(** a point that is NaN stays so *)
Theorem C96_nan_stays : forall order eps jac n_obj dim xl xu n, (forall l, Permutation (order l) l) ->
  iteration order eps jac n_obj dim xl xu (repeat None (S n)) = Ok (repeat None (S n)).
Proof. exact nan_stays. Qed.
Print Assumptions C96_nan_stays.
Example C96_example : inside [-1; 0] [2; 3] [0; 0] /\ length (two_centres [0; 0]) = 2%nat /\ (exists v, In v (two_centres [0; 0]) /\ forall a, In a v -> a = 0) /\
  inside [-1; 0] [2; 3] [/ 2; 1] /\ regular 2 2 (two_centres [/ 2; 1]).
Proof.
  split; [split; [reflexivity|]; intros [|[|k]] Hk; cbn in *; try lra; lia|]. split; [reflexivity|]. split; [|split].
  - eexists. split; [left; reflexivity|]. cbn. intros a [<-|[<-|[]]]; lra.
  - split; [reflexivity|]. intros [|[|k]] Hk; cbn in *; try lra; lia.
  - split; [reflexivity|]. intros v [<-|[<-|[]]]; (split; [reflexivity|]); exists 1%nat; (split; [lia|]); cbn; lra.
Qed.

(** C97: the run *)
Theorem C97_run : forall order eps jac n_obj dim xl xu Xs z fuel, (forall l, Permutation (order l) l) -> box_ok dim xl xu -> (0 < n_obj)%nat ->
  (forall x, inside xl xu x -> regular n_obj dim (jac x)) -> Xs <> [] -> (forall x, In x Xs -> inside xl xu x) -> (Z.to_nat z <= fuel)%nat ->
  exists o, lara_run order eps jac n_obj dim xl xu fuel (map Some Xs) (Finite z) = Ok o /\ o_iter o = Z.to_nat z /\
  exists l, o_hist o = map (map Some) l /\ length l = Z.to_nat z /\ o_state o = map Some (last l Xs) /\ forall X, In X l -> X <> [] /\ forall x, In x X -> inside xl xu x.
Proof.
  intros order eps jac n_obj dim xl xu Xs z fuel Ho Hb Hn Hj Hne Hin Hf.
  destruct (iterations_ok order eps jac n_obj dim xl xu Ho Hb Hn Hj (Z.to_nat z) Xs Hne Hin) as (l & E & L & Hl).
  eexists. split; [unfold lara_run, fresh; apply (run_finite _ (Z.to_nat z) _ 0 z [] fuel _ E Hf); destruct (Z.le_gt_cases z 0); [right|left]; lia|].
  cbn. split; auto. exists l. split; auto. split; auto. split; auto. clear. revert Xs. induction l as [|a l IH]; intros Xs; [reflexivity|]. destruct l; [reflexivity|]. apply (IH Xs).
Qed.
Print Assumptions C97_run.
(** the initial population lies in the box *)
Theorem C97_initial_given : forall d xl xu X0, box_ok d xl xu -> (forall x, In x X0 -> length x = d) ->
  exists Xs, initial xl xu (inl X0) = map Some Xs /\ length Xs = length X0 /\ forall x, In x Xs -> inside xl xu x.
Proof.
  intros d xl xu X0 (Ll & Lu & Hle & _) HX. exists (map (clip_row xl xu) X0). cbn [initial]. rewrite map_map, map_length. split; auto. split; auto.
  intros x Hx. apply in_map_iff in Hx. destruct Hx as (y & <- & Hy). apply HX in Hy. apply clip_inside; rewrite ?Hy; auto.
Qed.
Print Assumptions C97_initial_given.
Theorem C97_initial_random : forall d xl xu U, box_ok d xl xu -> (forall u, In u U -> length u = d /\ forall k, (k < d)%nat -> 0 <= nth k u 0 <= 1) ->
  exists Xs, initial xl xu (inr U) = map Some Xs /\ length Xs = length U /\ forall x, In x Xs -> inside xl xu x.
Proof.
  intros d xl xu U (Ll & Lu & Hle & _) HU. exists (map (fun u => zip_with Rplus (zip_with Rmult u (zip_with Rminus xu xl)) xl) U). cbn [initial]. rewrite map_map, map_length. split; auto. split; auto.
  intros x Hx. apply in_map_iff in Hx. destruct Hx as (y & <- & Hy). apply HU in Hy. destruct Hy as (L & H). apply sample_inside; rewrite ?L; auto.
Qed.
Print Assumptions C97_initial_random.
Example C97_example : initial [0; 0] [1; 2] (inl [[-1; 3]; [/ 2; 1]]) = map Some [[0; 2]; [/ 2; 1]].
Proof.
  cbn [initial map]. unfold clip_row. cbn [zip_with]. repeat (apply (f_equal2 (@cons point)); [f_equal; repeat (apply (f_equal2 (@cons R)); [unfold Rmin, Rmax; repeat destruct Rle_dec; lra|]); reflexivity|]). reflexivity.
Qed.
