(** Property theorems: whole iterations and runs of DpN. *)
From Coq Require Import List Arith Bool Reals ZArith Lia Lra Permutation.
From Verif Require Import Num Exn ListAux StateModel NewtonModel NewtonProof RefModel RefSpec HVXModel IndModel IndSpec StepModel StepSpec ShiftModel IterModel IterSpec IterProof IterMain IterOracle IterEx IterTop IterEx2.
Import ListNotations.
Open Scope R_scope.

(** * C112: what a run leaves behind *)
Theorem C112_population : forall K rs X0 l j o, well_posed K -> input K rs X0 -> objects K rs X0 l -> nth_error l j = Some o ->
  length (primal_of K (d_state o)) = length X0 /\ (forall x, In x (primal_of K (d_state o)) -> length x = c_nvar (k_prob K)) /\
  s_Y (d_state o) = map (cb_point (c_func (k_prob K))) (primal_of K (d_state o)) /\ d_iter o = j.
Proof. intros K rs X0 l j o W. apply objects_population. exact W. Qed.
Print Assumptions C112_population.
Theorem C112_history : forall K rs X0 l j o, objects K rs X0 l -> nth_error l j = Some o ->
  h_X o = map (fun q => primal_of K (d_state q)) (firstn j (tl l)) /\ h_Y o = map (fun q => s_Y (d_state q)) (firstn j (tl l)) /\
  h_val o = map (fun q => Rmax (d_gd q) (d_igd q)) (firstn j (tl l)) /\ h_R o = map (fun q => median (map euclid (d_R q))) (firstn j (tl l)).
Proof. intros. eapply objects_history; eauto. Qed.
Print Assumptions C112_history.
Theorem C112_run : forall K rs X0 o0 fuel z r, dpn_init K rs X0 = Ok o0 -> dpn_run K fuel (Finite z) o0 = Ok r ->
  exists l, objects K rs X0 (o0 :: l) /\ o_state r = last l o0 /\ o_hist r = l /\ length l = Z.to_nat z /\ o_iter r = length l.
Proof. exact run_objects. Qed.
Print Assumptions C112_run.
(** one point, one iteration, history of length 1 *)
Example C112_example : exists o0 o1, well_posed (K1 IGD 0 1) /\ input (K1 IGD 0 1) (ref1 0.33 (-1)) [[0.5]] /\ objects (K1 IGD 0 1) (ref1 0.33 (-1)) [[0.5]] [o0; o1] /\
  h_X o1 = [[[0.25]]] /\ h_val o1 = [0.17].
Proof.
  destruct (objects1 IGD 0 1 0.33 (-1) 0.5 0.25 ltac:(lra) ltac:(lra) ltac:(left; rewrite Rabs_left by lra; split; lra)) as (o0 & o1 & H & E0 & R0 & (n & E1) & R1 & G & I & S & _).
  exists o0, o1. split. apply wp1. split. apply input1. split; auto. destruct (C112_history _ _ _ _ 1%nat o1 H eq_refl) as (H1 & _ & H3 & _). rewrite H1, H3. cbn. rewrite E1, G, I. split; auto. rewrite Rabs_right by lra. rewrite Rmax_left by lra. f_equal. lra.
Qed.
Example C112_run_example : exists o r, dpn_init (K1 IGD 0 1) (ref1 0.33 (-1)) [[0.5]] = Ok o /\ dpn_run (K1 IGD 0 1) 5 (Finite 5) o = Ok r.
Proof. apply run_returns. apply wp1. apply oo1. apply input1. lia. Qed.

(** * C113: the box *)
Theorem C113_in_box : forall K rs X0 l, well_posed K -> input K rs X0 -> (forall k, (k < c_nvar (k_prob K))%nat -> nth k (k_xl K) 0 <= nth k (k_xu K) 0) ->
  objects K rs X0 l -> (forall o, In o (tl l) -> notable (d_step o)) ->
  forall o x, In o l -> In x (primal_of K (d_state o)) -> in_box (k_xl K) (k_xu K) x.
Proof. intros K rs X0 l W. apply objects_box. exact W. Qed.
Print Assumptions C113_in_box.
Theorem C113_margin : forall K rs X0 l j p q, well_posed K -> input K rs X0 -> objects K rs X0 l -> nth_error l j = Some p -> nth_error l (S j) = Some q ->
  (forall x, In x (primal_of K (d_state p)) -> in_box (k_xl K) (k_xu K) x) ->
  forall x k, In x (primal_of K (d_state q)) -> (k < c_nvar (k_prob K))%nat -> nth k (k_xl K) 0 - / 10 ^ 8 <= nth k x 0 <= nth k (k_xu K) 0 + / 10 ^ 8.
Proof. intros K rs X0 l j p q W. apply objects_margin. exact W. Qed.
Print Assumptions C113_margin.
Example C113_example : exists o0 o1, input (K1 GD 0 1) (ref1 0.33 (-1)) [[0.5]] /\ objects (K1 GD 0 1) (ref1 0.33 (-1)) [[0.5]] [o0; o1] /\ notable (d_step o1) /\ primal_of (K1 GD 0 1) (d_state o1) = [[0.25]].
Proof.
  destruct (objects1 GD 0 1 0.33 (-1) 0.5 0.25 ltac:(lra) ltac:(lra) ltac:(left; rewrite Rabs_left by lra; split; lra)) as (o0 & o1 & H & E0 & R0 & (n & E1) & R1 & G & I & S & _).
  exists o0, o1. split. apply input1. split; auto. split. exists [0.25 - 0.5], (0.25 - 0.5). rewrite S. split; [left; auto|]. split; [left; auto|]. rewrite Rabs_left by lra. lra. rewrite E1. reflexivity.
Qed.
(** steps that are all below 1e-8 are taken without regard to the box *)
Theorem C113_refuted : exists K rs X0 l o x, well_posed K /\ oracles_ok K /\ input K rs X0 /\ (forall k, (k < c_nvar (k_prob K))%nat -> nth k (k_xl K) 0 <= nth k (k_xu K) 0) /\
  objects K rs X0 l /\ In o l /\ In x (primal_of K (d_state o)) /\ ~ in_box (k_xl K) (k_xu K) x.
Proof.
  set (e9 := / 10 ^ 9). assert (H9 : 0 < e9) by (unfold e9; lra). assert (H8 : / 10 ^ 8 = 10 * e9) by (unfold e9; lra).
  destruct (objects1 IGD 0 1 (0.08 - 4 * e9) (-1) e9 (- 4 * e9) ltac:(unfold e9; lra) ltac:(lra) ltac:(right; rewrite Rabs_left by lra; lra)) as (o0 & o1 & H & _ & _ & (n & E1) & _).
  exists (K1 IGD 0 1), (ref1 (0.08 - 4 * e9) (-1)), [[e9]], [o0; o1], o1, [- 4 * e9]. split. apply wp1. split. apply oo1. split. apply input1.
  split. { intros [|k] Hk; cbn in *; [lra|lia]. } split; auto. split. simpl; auto. split. rewrite E1. left. reflexivity.
  intros (_ & _ & Hb). specialize (Hb 0%nat ltac:(cbn; lia)). cbn in Hb. lra.
Qed.
Print Assumptions C113_refuted.

(** * C114: Jacobian evaluations *)
Theorem C114_iteration : forall K rs X0 l j p q, well_posed K -> input K rs X0 -> objects K rs X0 l -> nth_error l j = Some p -> nth_error l (S j) = Some q ->
  (notable (d_step q) -> n_jac (d_state p) + 2 * length X0 <= n_jac (d_state q) <= n_jac (d_state p) + 9 * length X0)%nat /\
  (~ notable (d_step q) -> n_jac (d_state q) = (n_jac (d_state p) + length X0)%nat).
Proof. intros K rs X0 l j p q W. apply objects_njac. exact W. Qed.
Print Assumptions C114_iteration.
Theorem C114_total : forall K rs X0 l j o, well_posed K -> input K rs X0 -> objects K rs X0 l -> nth_error l j = Some o ->
  (length X0 * (j + 1) <= n_jac (d_state o) <= length X0 * (9 * j + 1))%nat.
Proof. intros K rs X0 l j o W. apply objects_njac_total. exact W. Qed.
Print Assumptions C114_total.
Example C114_example : exists l, well_posed K2 /\ input K2 rs2 [[0.2; 0.9]; [0.7; 0.7]] /\ objects K2 rs2 [[0.2; 0.9]; [0.7; 0.7]] l /\ length l = 5%nat.
Proof. destruct (objects_total K2 wp2 oo2 _ _ 4 inp2) as (l & H & L). exists l. split. apply wp2. split. apply inp2. auto. Qed.

(** * C115: the values in the history *)
Theorem C115_previous : forall K rs X0 l j p o v, well_posed K -> oracles_ok K -> input K rs X0 -> objects K rs X0 l -> nth_error l j = Some p -> In o l -> nth_error (h_val o) j = Some v ->
  exists gd igd, gd_is (reference_set (d_ref p)) (s_Y (d_state p)) gd /\ igd_is (reference_set (d_ref p)) (s_Y (d_state p)) igd /\ v = Rmax gd igd.
Proof. intros K rs X0 l j p o v W OO. apply objects_logged; auto. Qed.
Print Assumptions C115_previous.
Example C115_example : exists o0 o1, oracles_ok (K1 IGD 0 1) /\ objects (K1 IGD 0 1) (ref1 0.33 (-1)) [[0.5]] [o0; o1] /\ nth_error (h_val o1) 0 = Some 0.17.
Proof. destruct C112_example as (o0 & o1 & _ & _ & H & _ & E). exists o0, o1. split. apply oo1. rewrite E. auto. Qed.
(** the value stored with a population is not its own, neither for the old nor for the shifted reference set *)
Theorem C115_current_refuted : exists K rs X0 l p q v, well_posed K /\ oracles_ok K /\ input K rs X0 /\ objects K rs X0 l /\ nth_error l 0 = Some p /\ nth_error l 1 = Some q /\
  nth_error (h_Y q) 0 = Some (s_Y (d_state q)) /\ nth_error (h_val q) 0 = Some v /\
  forall S gd igd, S = reference_set (d_ref p) \/ S = reference_set (d_ref q) -> gd_is S (s_Y (d_state q)) gd -> igd_is S (s_Y (d_state q)) igd -> Rmax gd igd < v.
Proof.
  destruct (objects1 IGD 0 1 0.33 (-1) 0.5 0.25 ltac:(lra) ltac:(lra) ltac:(left; rewrite Rabs_left by lra; split; lra)) as (o0 & o1 & H & E0 & R0 & (n & E1) & R1 & G & I & S & _).
  exists (K1 IGD 0 1), (ref1 0.33 (-1)), [[0.5]], [o0; o1], o0, o1, 0.17. split. apply wp1. split. apply oo1. split. apply input1. split; auto. split; auto. split; auto.
  destruct (C112_history _ _ _ _ 1%nat o1 H eq_refl) as (_ & H2 & H3 & _). split. rewrite H2. reflexivity. split.
  { rewrite H3. cbn. rewrite G, I. rewrite Rabs_right by lra. rewrite Rmax_left by lra. f_equal. lra. }
  rewrite R0, R1, E1. cbn [reference_set ref1 ref1m rs_matched rs_ref concat app s_Y st1]. intros S' gd igd [->| ->] Hg Hi; apply gd_is1 in Hg; apply igd_is1 in Hi; subst.
  - rewrite Rabs_left by lra. rewrite Rmax_left; lra.
  - rewrite Rminus_diag_eq by auto. rewrite Rabs_R0. rewrite Rmult_0_l. rewrite Rmax_left; lra.
Qed.
Print Assumptions C115_current_refuted.

(** * C116: which indicator is minimised *)
Theorem C116_residual : forall K rs X0 l j p q, well_posed K -> oracles_ok K -> input K rs X0 -> objects K rs X0 l -> nth_error l j = Some p -> nth_error l (S j) = Some q -> unconstrained K ->
  let S := reference_set (d_ref q) in let Y := s_Y (d_state p) in let X := primal_of K (d_state p) in
  length (d_R q) = length X0 /\
  (k_type K = GD \/ (k_type K = Deltap /\ d_igd q < d_gd q) -> forall i, (i < length X0)%nat -> gd_gradient K (length X0) S (nth i X []) (nth i (d_R q) [])) /\
  (k_type K = IGD \/ (k_type K = Deltap /\ d_gd q <= d_igd q) -> exists T, Permutation T S /\ (forall P, Permutation P T -> sum_dist Y T <= sum_dist Y P) /\
     forall i, (i < length X0)%nat -> gradient_to K 2 (nth i T []) (nth i X []) (nth i (d_R q) [])).
Proof. intros K rs X0 l j p q W OO. apply objects_residual; auto. Qed.
Print Assumptions C116_residual.
(** GD is compared with the square of a distance, so only values below 1 can decide for GD *)
Theorem C116_units : forall K rs X0 l j p q, well_posed K -> oracles_ok K -> input K rs X0 -> objects K rs X0 l -> nth_error l j = Some p -> nth_error l (S j) = Some q ->
  d_gd q * d_gd q <= d_igd q /\ (d_igd q < d_gd q -> d_gd q < 1).
Proof. intros K rs X0 l j p q W OO Hi Ho Hp Hq. pose proof (objects_units K W OO rs X0 l j p q Hi Ho Hp Hq) as H. split; auto. intros H1. nra. Qed.
Print Assumptions C116_units.
(** with Deltap the indicator that is minimised need not be the larger one, if both are root mean squares *)
Theorem C116_larger_refuted : exists K rs X0 l p q, well_posed K /\ oracles_ok K /\ input K rs X0 /\ objects K rs X0 l /\ nth_error l 0 = Some p /\ nth_error l 1 = Some q /\
  unconstrained K /\ k_type K = Deltap /\
  gd_is (reference_set (d_ref p)) (s_Y (d_state p)) (d_gd q) /\ igd_is (reference_set (d_ref p)) (s_Y (d_state p)) (d_igd q) /\ d_gd q < sqrt (d_igd q) /\
  forall i, (i < length X0)%nat -> gd_gradient K (length X0) (reference_set (d_ref q)) (nth i (primal_of K (d_state p)) []) (nth i (d_R q) []).
Proof.
  destruct (objects_total (K1 Deltap 0 1) (wp1 _ _ _) (oo1 _ _ _) ref2 X2 1 (input2 Deltap)) as (l & Ho & L). destruct l as [|p [|q [|]]]; simpl in L; try lia.
  destruct (init2 Deltap) as (p' & Ep & Rp & Yp & _). assert (p' = p) by (destruct Ho as [Ho _]; congruence). subst p'.
  assert (Hu : unconstrained (K1 Deltap 0 1)) by (split; reflexivity).
  destruct (objects_values _ (wp1 _ _ _) (oo1 _ _ _) ref2 X2 [p; q] 0 p q (input2 Deltap) Ho eq_refl eq_refl) as [Hg Hi].
  pose proof Hg as Hg'. pose proof Hi as Hi'. rewrite Rp, Yp in Hg', Hi'. pose proof (proj1 Hg') as G0. apply gd_is2 in Hg'. apply igd_is2 in Hi'.
  exists (K1 Deltap 0 1), ref2, X2, [p; q], p, q. split. apply wp1. split. apply oo1. split. apply input2. split; auto. split; auto. split; auto. split; auto. split; auto. split; auto. split; auto. split.
  - rewrite Hi'. pose proof (sqrt_pos 0.02705). pose proof (sqrt_def 0.02705 ltac:(lra)). nra.
  - apply (proj1 (proj2 (C116_residual _ _ _ _ 0%nat p q (wp1 _ _ _) (oo1 _ _ _) (input2 Deltap) Ho eq_refl eq_refl Hu))). right. split; auto. rewrite Hi'. nra.
Qed.
Print Assumptions C116_larger_refuted.
Example C116_example : exists l, oracles_ok (K1 Deltap 0 1) /\ input (K1 Deltap 0 1) ref2 X2 /\ objects (K1 Deltap 0 1) ref2 X2 l /\ length l = 4%nat /\ unconstrained (K1 Deltap 0 1).
Proof. destruct (objects_total (K1 Deltap 0 1) (wp1 _ _ _) (oo1 _ _ _) ref2 X2 3 (input2 Deltap)) as (l & H & L). exists l. split. apply oo1. split. apply input2. split; auto. split; auto. split; reflexivity. Qed.

(** * C117: no errors *)
Theorem C117_iterations : forall K rs X0 n, well_posed K -> oracles_ok K -> input K rs X0 -> exists l, objects K rs X0 l /\ length l = S n.
Proof. intros K rs X0 n W OO. apply objects_total; auto. Qed.
Print Assumptions C117_iterations.
Theorem C117_run : forall K rs X0 z fuel, well_posed K -> oracles_ok K -> input K rs X0 -> (z <= Z.of_nat fuel)%Z ->
  exists o r, dpn_init K rs X0 = Ok o /\ dpn_run K fuel (Finite z) o = Ok r.
Proof. intros K rs X0 z fuel W OO. apply run_returns; auto. Qed.
Print Assumptions C117_run.
(** two objectives, an equality constraint, three reference points for two points *)
Example C117_example : well_posed K2 /\ oracles_ok K2 /\ input K2 rs2 [[0.2; 0.9]; [0.7; 0.7]] /\ is_constrained K2 = true.
Proof. split. apply wp2. split. apply oo2. split. apply inp2. reflexivity. Qed.

(** * C118: affine objectives *)
Theorem C118_affine : forall K rs X0 l j p q A b, well_posed K -> oracles_ok K -> input K rs X0 -> objects K rs X0 l -> nth_error l j = Some p -> nth_error l (S j) = Some q ->
  unconstrained K -> affine K A b -> k_pre K = false -> (forall x, In x (primal_of K (d_state p)) -> inside (k_xl K) (k_xu K) x) ->
  (forall i, (i < length X0)%nat -> nth i (d_size q) 0 = 1) ->
  exists T, length T = length X0 /\ (forall t, In t T -> In t (reference_set (d_ref q))) /\
  (k_type K = IGD -> Permutation T (reference_set (d_ref q))) /\
  (k_type K = GD -> forall i, (i < length X0)%nat -> is_nearest (reference_set (d_ref q)) (nth i (s_Y (d_state p)) []) (nth i T [])) /\
  forall i, (i < length X0)%nat -> forall z, length z = c_nvar (k_prob K) -> sqd (nth i (s_Y (d_state q)) []) (nth i T []) <= sqd (cb_point (c_func (k_prob K)) z) (nth i T []).
Proof. intros K rs X0 l j p q A b W OO. apply objects_affine; auto. Qed.
Print Assumptions C118_affine.
Example C118_example : exists o0 o1, objects (K1 IGD 0 1) (ref1 0.33 (-1)) [[0.5]] [o0; o1] /\ unconstrained (K1 IGD 0 1) /\ affine (K1 IGD 0 1) (fun _ _ => 1) (fun _ => 0) /\ k_pre (K1 IGD 0 1) = false /\
  (forall x, In x (primal_of (K1 IGD 0 1) (d_state o0)) -> inside [0] [1] x) /\ d_size o1 = [1].
Proof.
  destruct (objects1 IGD 0 1 0.33 (-1) 0.5 0.25 ltac:(lra) ltac:(lra) ltac:(left; rewrite Rabs_left by lra; split; lra)) as (o0 & o1 & H & E0 & R0 & (n & E1) & R1 & G & I & S & Z).
  exists o0, o1. split; auto. split. split; reflexivity. split. { split; [|split]; cbn; auto. intros x a Hx Ha. destruct a; [cbn; lra|lia]. }
  split; auto. split; auto. rewrite E0. intros x [<-|[]] [|k] Hk; cbn in *; [lra|lia].
Qed.

(** * C119: descent for GD *)
Theorem C119_gd_descent : forall K rs X0 l j p q, well_posed K -> oracles_ok K -> input K rs X0 -> objects K rs X0 l -> nth_error l j = Some p -> nth_error l (S j) = Some q ->
  unconstrained K -> k_type K = GD -> notable (d_step q) ->
  forall i, (i < length X0)%nat -> exists g g',
    gd_gradient K (length X0) (reference_set (d_ref q)) (nth i (primal_of K (d_state p)) []) g /\ nth i (d_R q) [] = g /\
    gd_gradient K (length X0) (reference_set (d_ref q)) (nth i (primal_of K (d_state q)) []) g' /\
    (euclid g' <= (1 - nth i (d_size q) 0 / 10 ^ 4) * euclid g \/ nth i (d_size q) 0 <= (6 / 10) ^ 8 \/ Rabs (euclid g - eps_mach) <= / 10 ^ 8 + / 10 ^ 5 * eps_mach).
Proof. intros K rs X0 l j p q W OO. apply objects_descent; auto. Qed.
Print Assumptions C119_gd_descent.
Example C119_example : exists o0 o1, oracles_ok (K1 GD 0 1) /\ input (K1 GD 0 1) (ref1 0.33 (-1)) [[0.5]] /\ objects (K1 GD 0 1) (ref1 0.33 (-1)) [[0.5]] [o0; o1] /\ notable (d_step o1) /\ unconstrained (K1 GD 0 1) /\ k_type (K1 GD 0 1) = GD.
Proof. destruct C113_example as (o0 & o1 & H1 & H2 & H3 & _). exists o0, o1. split. apply oo1. repeat (split; auto). Qed.
